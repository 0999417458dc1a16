(** Specification vocabulary for ipf followed by integerise. *)
From Verif Require Import Base Spec Float64 IpfSpec.
Open Scope Z_scope.

(** for every dimension of an array with the given sizes there is a marginal over that dimension alone, whose entries are the
    whole numbers m d 0, m d 1, ... *)
Definition whole_axes (cs : list (gcon double)) (sizes : list Z) (m : Z -> Z -> Z) : Prop :=
  forall d, 0 <= d < Z.of_nat (length sizes) -> exists c, In c cs /\ g_dims c = [d] /\ g_sizes c = [nth (Z.to_nat d) sizes 0] /\
    forall k, 0 <= k < nth (Z.to_nat d) sizes 0 -> g_at c [k] = d_ofZ (m d k) /\ Z.abs (m d k) <= 2 ^ 53.
