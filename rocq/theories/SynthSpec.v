(** Specification vocabulary for the synthesis functions (ipf, qis, qisi): constraints, their validity, and what it
    means for a population to meet them. *)
From Verif Require Import Base Spec.

(** One constraint: the dimensions it speaks about, the sizes of its marginal array, and the array's entries. *)
Record con : Type := CON { c_dims : list Z; c_sizes : list Z; c_at : list Z -> Z }.

(** the constraint given by a Python index vector and a Python marginal array *)
Definition con_of (i m : ndarray Z) : con := CON (flat i) (shape m) (entry 0 m).
Definition cons_of (ilist mlist : list (ndarray Z)) : list con :=
  map (fun p => con_of (fst p) (snd p)) (combine ilist mlist).

(** [sizes] is the shape the constraints imply: they speak about exactly the dimensions 0..n-1, and each marginal
    has, along each of its axes, the size of the dimension it is declared to be *)
Definition implied (cs : list con) (sizes : list Z) : Prop :=
  (forall d, (exists c, In c cs /\ In d (c_dims c)) <-> 0 <= d < Z.of_nat (length sizes)) /\
  (forall c, In c cs -> length (c_dims c) = length (c_sizes c) /\ proj (c_dims c) sizes = c_sizes c).

Definition c_total (c : con) : Z := total (c_sizes c) (c_at c).

(** sum of the entries of a constraint's marginal whose [j]-th index is [v] *)
Definition c_partial (c : con) (j v : Z) : Z := margin (c_sizes c) [j] [v] (c_at c).

Definition nonneg (c : con) : Prop := forall k, index_in (c_sizes c) k -> 0 <= c_at c k.

(** the 1-d sums agree wherever two axes of marginals refer to the same dimension *)
Definition partials_agree (cs : list con) : Prop :=
  forall c c' j j' d v, In c cs -> In c' cs ->
    nth_error (c_dims c) j = Some d -> nth_error (c_dims c') j' = Some d ->
    0 <= v < nth j (c_sizes c) 0 -> c_partial c (Z.of_nat j) v = c_partial c' (Z.of_nat j') v.

(** the constraints the documentation asks for *)
Definition valid (cs : list con) : Prop :=
  (2 <= length cs)%nat /\
  (exists sizes, implied cs sizes /\ (2 <= length sizes)%nat) /\
  (forall c, In c cs -> nonneg c) /\
  (forall c c', In c cs -> In c' cs -> c_total c = c_total c') /\
  partials_agree cs.

(** the array [r] with the given sizes has the marginal [c] *)
Definition meets (sizes : list Z) (r : list Z -> Z) (c : con) : Prop :=
  forall k, index_in (c_sizes c) k -> margin sizes (c_dims c) k r = c_at c k.

(** the arguments are within the range the theorems cover: non-empty marginals of fewer than 2^60 cells, each summing
    to less than 2^62 in absolute value, and fewer than 2^60 states *)
Definition in_range (ilist mlist : list (ndarray Z)) : Prop :=
  Forall (fun m => wf_array m /\ prodZ (shape m) < 2 ^ 60 /\ Z.of_nat (length (shape m)) < 2 ^ 31 /\
                   total (shape m) (fun k => Z.abs (entry 0 m k)) < 2 ^ 62) mlist /\
  (forall sizes, implied (cons_of ilist mlist) sizes -> prodZ sizes < 2 ^ 60).

(** the index lists are vectors, as many as there are marginals *)
Definition vectors (ilist mlist : list (ndarray Z)) : Prop :=
  length ilist = length mlist /\ Forall (fun i => length (shape i) = 1%nat) ilist.

(** no index list repeats a dimension, and no two constraints share one *)
Definition disjoint (cs : list con) : Prop :=
  (forall c, In c cs -> NoDup (c_dims c)) /\
  (forall pre c mid c' post d, cs = pre ++ c :: mid ++ c' :: post -> In d (c_dims c) -> In d (c_dims c') -> False).

(** no index list repeats a dimension, and each constraint shares at most one dimension with those listed before it *)
Definition share_at_most_one (cs : list con) : Prop :=
  (forall c, In c cs -> NoDup (c_dims c)) /\
  (forall pre c post d d', cs = pre ++ c :: post -> In d (c_dims c) -> In d' (c_dims c) ->
     (exists c', In c' pre /\ In d (c_dims c')) -> (exists c', In c' pre /\ In d' (c_dims c')) -> d = d').
