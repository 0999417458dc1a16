(** Property C07 for any population: the expectation with rounding. *)
From Coq Require Import Reals Lia.
From Flocq Require Import Core.Raux IEEE754.BinarySingleNaN.
From Verif Require Import Base Spec NDArray Float64 Bind Micro Stat Qis SynthSpec RealSpec QisExamples ExpectRound.
Open Scope Z_scope.

(** C07 for up to 31 disjoint marginals: each marginal of the expectation is the supplied one up to a relative error of 2^-51
    for every state and 64 more *)
Theorem C07_rounded : forall L fuel ilist mlist skips res, in_range ilist mlist -> disjoint (cons_of ilist mlist) ->
  py_qis L fuel ilist mlist skips = Ok res -> 0 < qr_pop res -> (length (cons_of ilist mlist) <= 31)%nat ->
  prodZ (shape (qr_pop_array res)) <= 2 ^ 50 ->
  shape (qr_expectation res) = shape (qr_pop_array res) /\ all_finite (qr_expectation res) /\
  forall c k, In c (cons_of ilist mlist) -> index_in (c_sizes c) k ->
    (Rabs (marginR (shape (qr_expectation res)) (c_dims c) k (entryR (qr_expectation res)) - IZR (c_at c k)) <=
      IZR (c_at c k) * (IZR (prodZ (shape (qr_pop_array res)) + 64) / 2 ^ 51))%R.
Proof. exact expect_round_claim. Qed.
Print Assumptions C07_rounded.
Example C07_rounded_ex : in_range exA_i exA_m /\ disjoint (cons_of exA_i exA_m) /\ (length (cons_of exA_i exA_m) <= 31)%nat /\
  match py_qis L0 40 exA_i exA_m 0 with Ok r => 0 < qr_pop r /\ prodZ (shape (qr_pop_array r)) <= 2 ^ 50 | _ => False end.
Proof.
  split; [exact exA_range|]. split; [apply disjoint_by; vm_compute; reflexivity|]. split; [apply Nat.leb_le; reflexivity|].
  vm_compute. split; [reflexivity|discriminate].
Qed.

(** ... and not for any number of marginals: with 64 marginals of one cell and 65536 individuals the products overflow, and
    the expectation and chi-squared are NaN although the population meets all marginals *)
Theorem C07_many_refuted : exists ilist mlist, forall L, exists res, py_qis L 32 ilist mlist 0 = Ok res /\ qr_conv res = true /\ qr_pop res = 65536 /\
  (forall i, index_in (shape (qr_expectation res)) i -> is_nan (entry d_zero (qr_expectation res) i) = true) /\
  is_nan (qr_chisq res) = true.
Proof. exact (ex_intro _ exW_i (ex_intro _ exW_m overflow_claim)). Qed.
Print Assumptions C07_many_refuted.
