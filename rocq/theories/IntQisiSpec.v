(** The arguments with which integerise calls qisi, and what a caller hopes for. *)
From Coq Require Import Reals.
From Flocq Require Import IEEE754.BinarySingleNaN.
From Verif Require Import Base Spec SynthSpec Float64 RealSpec.
Open Scope Z_scope.

(** one index vector per dimension *)
Definition axes (n : Z) : list (ndarray Z) := map (fun d => NDA [1] [d]) (zrange n).

(** one marginal per dimension, with the entries m d 0, m d 1, ... *)
Definition axis_sums (sizes : list Z) (m : Z -> Z -> Z) : list (ndarray Z) :=
  map (fun d => let n := nth (Z.to_nat d) sizes 0 in NDA [n] (map (m d) (zrange n))) (zrange (Z.of_nat (length sizes))).

(** [b] is a table of whole numbers, empty wherever [a] is zero, with exactly the one-dimensional sums of [a] *)
Definition whole_fit (a : ndarray double) (b : list Z -> Z) : Prop :=
  (forall i, index_in (shape a) i -> 0 <= b i /\ (B2R (entry d_zero a i) = 0%R -> b i = 0)) /\
  forall d k, 0 <= d < Z.of_nat (length (shape a)) -> 0 <= k < nth (Z.to_nat d) (shape a) 0 ->
    let slice := filter (fun i => nth (Z.to_nat d) i 0 =? k) (all_indices (shape a)) in
    sumR (map (fun i => B2R (entry d_zero a i)) slice) = IZR (sumZ (map b slice)).
