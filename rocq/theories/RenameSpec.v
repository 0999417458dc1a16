(** Specification vocabulary for calls that differ only in the naming of dimensions and categories (C81). *)
From Verif Require Import Base Spec SynthSpec IpfSpec.
Open Scope Z_scope.

(** [rho] is a one-to-one correspondence between the cells of an array of the first sizes and one of the second *)
Definition matching (sizes sizes' : list Z) (rho : list Z -> list Z) : Prop :=
  (forall i, index_in sizes i -> index_in sizes' (rho i)) /\
  (forall i j, index_in sizes i -> index_in sizes j -> rho i = rho j -> i = j) /\
  (forall j, index_in sizes' j -> exists i, index_in sizes i /\ rho i = j).

(** the marginal [c'] is [c] after the cells of the table were renamed by [rho]: cell [k] of [c] is cell [kappa k] of [c'] *)
Definition same_marginal {M} (sizes : list Z) (rho : list Z -> list Z) (c c' : gcon M) : Prop := exists kappa,
  matching (g_sizes c) (g_sizes c') kappa /\
  (forall i, index_in sizes i -> proj (g_dims c') (rho i) = kappa (proj (g_dims c) i)) /\
  (forall k, index_in (g_sizes c) k -> g_at c' (kappa k) = g_at c k).

(** [sigma d] and [tau d] are inverse permutations of the categories of dimension [d] *)
Definition categories (sizes : list Z) (sigma tau : Z -> Z -> Z) : Prop :=
  forall d n x, nth_error sizes (Z.to_nat d) = Some n -> 0 <= d -> 0 <= x < n ->
    0 <= sigma d x < n /\ 0 <= tau d x < n /\ tau d (sigma d x) = x /\ sigma d (tau d x) = x.

(** the index [k] into the dimensions [dims], each component renamed *)
Definition rename (sigma : Z -> Z -> Z) (dims k : list Z) : list Z := map (fun p => sigma (fst p) (snd p)) (combine dims k).

(** [pi] and [pi'] are inverse permutations of the [n] dimensions *)
Definition dimensions (n : Z) (pi pi' : Z -> Z) : Prop :=
  forall d, 0 <= d < n -> 0 <= pi d < n /\ 0 <= pi' d < n /\ pi' (pi d) = d /\ pi (pi' d) = d.
