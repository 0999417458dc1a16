(** Independent marginals: the table of independence. *)
From Coq Require Import Reals.
From Verif Require Import Base Spec Float64 SynthSpec.
Open Scope R_scope.

(** the array of doubles holding the integers of [m] *)
Definition reals (m : ndarray Z) : ndarray double := NDA (shape m) (map d_ofZ (flat m)).

(** the array of the given sizes holding 1 everywhere *)
Definition ones (sizes : list Z) : ndarray double := NDA sizes (map (fun _ => d_one) (all_indices sizes)).

(** [pop] people distributed independently: the share of a cell is the product of its shares in the marginals *)
Definition indep (cs : list con) (pop : Z) (i : list Z) : R :=
  IZR pop * fold_right (fun c p => IZR (c_at c (proj (c_dims c) i)) / IZR pop * p) 1 cs.

(** two or more marginals of [pop] people, no two of which share a dimension, together covering dimensions of the given sizes *)
Definition independent (ilist mlist : list (ndarray Z)) (sizes : list Z) (pop : Z) : Prop :=
  let cs := cons_of ilist mlist in
  vectors ilist mlist /\ in_range ilist mlist /\ implied cs sizes /\ disjoint cs /\ (2 <= length cs)%nat /\
  (forall c, In c cs -> nonneg c) /\ (forall c, In c cs -> c_total c = pop) /\ (0 < pop)%Z.
