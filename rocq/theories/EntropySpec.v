(** Divergence of one table from another. *)
From Coq Require Import Reals QArith Qcanon.
From Verif Require Import Base Spec RealSpec.

(** the real value of an entry of an array of rationals *)
Definition entryQ (a : ndarray Qc) (i : list Z) : R := Q2R (this (entry 0%Qc a i)).

(** Kullback-Leibler divergence, the sum of p ln(p/s) over all cells (0 where p is 0) *)
Definition divergence (sizes : list Z) (p s : list Z -> R) : R :=
  sumR (map (fun i => p i * ln (p i / s i))%R (all_indices sizes)).
(** entropy *)
Definition entropy (sizes : list Z) (p : list Z -> R) : R :=
  (- sumR (map (fun i => p i * ln (p i))%R (all_indices sizes)))%R.
