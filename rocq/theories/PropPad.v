(** C87: what marginals without a new dimension, and the orientation of marginals, do to the population of qis. *)
From Verif Require Import Base Spec NDArray Bind Micro Qis SynthSpec QisExamples PadSpec PadProofs.
Open Scope Z_scope.

(** C87: marginals over dimensions that were all seen before leave the population unchanged, and so does the orientation
    of marginals with at most one new dimension; the further marginals only decide whether conv is true *)
Theorem C87_population : forall L fuel ilist mlist ilist' mlist' skips res, let cs' := cons_of ilist' mlist' in
  in_range ilist mlist -> in_range ilist' mlist' -> vectors ilist' mlist' -> py_qis L fuel ilist mlist skips = Ok res ->
  let sizes := shape (qr_pop_array res) in
  valid cs' -> implied cs' sizes -> (forall c, In c cs' -> c_total c = qr_pop res) ->
  adds_to sizes [] (cons_of ilist mlist) cs' -> (32 <= fuel)%nat ->
  exists res', py_qis L fuel ilist' mlist' skips = Ok res' /\ qr_pop_array res' = qr_pop_array res /\ qr_pop res' = qr_pop res /\
    (qr_conv res' = true <-> forall c, In c cs' -> meets sizes (entry 0 (qr_pop_array res)) c) /\
    (qr_conv res' = true -> qr_conv res = true).
Proof. exact pad_claim. Qed.
Print Assumptions C87_population.

(** C87: the expectation does not depend on the orientation of any marginal, to the last bit *)
Theorem C87_expectation : forall L fuel ilist mlist ilist' mlist' skips res res',
  in_range ilist mlist -> in_range ilist' mlist' -> py_qis L fuel ilist mlist skips = Ok res -> py_qis L fuel ilist' mlist' skips = Ok res' ->
  shape (qr_pop_array res') = shape (qr_pop_array res) -> qr_pop res' = qr_pop res ->
  Forall2 (same_counts (shape (qr_pop_array res))) (cons_of ilist mlist) (cons_of ilist' mlist') ->
  qr_expectation res' = qr_expectation res.
Proof. exact orient_claim. Qed.
Print Assumptions C87_expectation.

(** C87: that the population does not depend on the orientation is false for marginals with two new dimensions *)
Theorem C87_orientation_refuted : exists ilist mlist ilist' mlist' res res', in_range ilist mlist /\ in_range ilist' mlist' /\
  vectors ilist mlist /\ valid (cons_of ilist mlist) /\ vectors ilist' mlist' /\ valid (cons_of ilist' mlist') /\
  Forall2 (same_counts (shape (qr_pop_array res))) (cons_of ilist mlist) (cons_of ilist' mlist') /\
  py_qis L0 40 ilist mlist 0 = Ok res /\ py_qis L0 40 ilist' mlist' 0 = Ok res' /\
  shape (qr_pop_array res') = shape (qr_pop_array res) /\ qr_pop res' = qr_pop res /\ qr_expectation res' = qr_expectation res /\
  flat (qr_pop_array res') <> flat (qr_pop_array res).
Proof. exact orient_refute. Qed.
Print Assumptions C87_orientation_refuted.

(** a chain of two marginals, and the same with the second transposed and a third appended: the same population, which
    the third marginal turns from a solution into a failure *)
Example C87_ex : exists res, let cs' := cons_of exRing_i exRing_m in
  in_range exChain_i exChain_m /\ in_range exRing_i exRing_m /\ vectors exRing_i exRing_m /\ py_qis L0 40 exChain_i exChain_m 0 = Ok res /\
  qr_conv res = true /\ flat (qr_pop_array res) = [1; 0; 1; 1; 1; 2; 2; 2] /\
  valid cs' /\ implied cs' (shape (qr_pop_array res)) /\ (forall c, In c cs' -> c_total c = qr_pop res) /\
  adds_to (shape (qr_pop_array res)) [] (cons_of exChain_i exChain_m) cs' /\
  (exists res', py_qis L0 40 exRing_i exRing_m 0 = Ok res' /\ qr_conv res' = false /\ flat (qr_pop_array res') = [1; 0; 1; 1; 1; 2; 2; 2]).
Proof. exact pad_ex. Qed.
