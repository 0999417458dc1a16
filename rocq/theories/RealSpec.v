(** Specification vocabulary for arrays of doubles: sums of their real values. *)
From Coq Require Import Reals.
From Flocq Require Import IEEE754.BinarySingleNaN.
From Verif Require Import Base Spec Float64.

Definition sumR (l : list R) : R := fold_right Rplus 0%R l.

(** total of [f] over all cells, and over the cells whose components [dims] equal [c] *)
Definition totalR (sizes : list Z) (f : list Z -> R) : R := sumR (map f (all_indices sizes)).
Definition marginR (sizes dims c : list Z) (f : list Z -> R) : R :=
  sumR (map f (filter (fun i => idx_eqb (proj dims i) c) (all_indices sizes))).

(** the real value of an entry of an array of doubles (0 when it is not finite), and whether all entries are finite *)
Definition entryR (a : ndarray double) (i : list Z) : R := B2R (entry d_zero a i).
Definition all_finite (a : ndarray double) : Prop := forall i, index_in (shape a) i -> is_finite (entry d_zero a i) = true.
