(** C91: what further marginals over new dimensions do to the population of qis. *)
From Verif Require Import Base Spec NDArray Bind Micro Qis SynthSpec QisExamples RSpec RApi GrowProofs.
Open Scope Z_scope.

(** C91: further marginals at the end of the lists leave the population over the old dimensions as it was *)
Theorem C91_extended : forall L fuel ilist mlist ilist' mlist' skips sizes res',
  vectors ilist mlist -> (2 <= length ilist)%nat -> implied (cons_of ilist mlist) sizes -> (2 <= length sizes)%nat ->
  in_range (ilist ++ ilist') (mlist ++ mlist') -> py_qis L fuel (ilist ++ ilist') (mlist ++ mlist') skips = Ok res' -> (32 <= fuel)%nat ->
  exists res, py_qis L fuel ilist mlist skips = Ok res /\ shape (qr_pop_array res) = sizes /\ qr_pop res = qr_pop res' /\
    (forall k, index_in sizes k -> entry 0 (qr_pop_array res) k =
       margin (shape (qr_pop_array res')) (zrange (Z.of_nat (length sizes))) k (entry 0 (qr_pop_array res'))) /\
    (qr_conv res' = true -> qr_conv res = true).
Proof. exact grow_claim'. Qed.
Print Assumptions C91_extended.

(** C91 for further marginals at the front is false, even where both calls converge *)
Theorem C91_front_refuted : exists ilist mlist ilist' mlist' sizes res res', in_range ilist mlist /\
  vectors (ilist' ++ ilist) (mlist' ++ mlist) /\ valid (cons_of (ilist' ++ ilist) (mlist' ++ mlist)) /\ implied (cons_of ilist mlist) sizes /\
  in_range (ilist' ++ ilist) (mlist' ++ mlist) /\ py_qis L0 40 ilist mlist 0 = Ok res /\
  py_qis L0 40 (ilist' ++ ilist) (mlist' ++ mlist) 0 = Ok res' /\ qr_conv res = true /\ qr_conv res' = true /\
  exists k, index_in sizes k /\ entry 0 (qr_pop_array res) k <>
    margin (shape (qr_pop_array res')) (zrange (Z.of_nat (length sizes))) k (entry 0 (qr_pop_array res')).
Proof. exact grow_front_refute. Qed.
Print Assumptions C91_front_refuted.

(** C91 is false in R: lists and dimensions are handed over in reverse, so that a new dimension shifts the Sobol columns of
    the old, and its marginal is sampled first *)
Theorem C91_R_refuted : exists indices marginals indices' marginals' sizes res res', r_range indices marginals /\
  r_range (indices ++ indices') (marginals ++ marginals') /\ implied (rcons_of indices marginals) sizes /\
  r_qis L0 40 indices marginals 0 = Ok res /\ r_qis L0 40 (indices ++ indices') (marginals ++ marginals') 0 = Ok res' /\
  rr_conv res = true /\ rr_conv res' = true /\
  exists k, index_in sizes k /\ r_entry 0 (rr_result res) k <>
    margin (col_sizes (rr_result res')) (zrange (Z.of_nat (length sizes))) k (r_entry 0 (rr_result res')).
Proof. exact grow_R_refute. Qed.
Print Assumptions C91_R_refuted.

(** marginals over (0, 1) and (1, 2), then one over (1, 3) *)
Example C91_ex : exists res', in_range exGr_i exGr_m /\ vectors exGr_i exGr_m /\ implied (cons_of exGr_i exGr_m) [2; 2; 2] /\
  in_range (exGr_i ++ exGr_i2) (exGr_m ++ exGr_m2) /\ py_qis L0 40 (exGr_i ++ exGr_i2) (exGr_m ++ exGr_m2) 0 = Ok res' /\
  qr_pop_array res' = NDA [2; 2; 2; 2] [0; 1; 0; 0; 0; 1; 0; 1; 0; 1; 1; 1; 2; 0; 2; 0].
Proof. exact exGr_ex. Qed.
