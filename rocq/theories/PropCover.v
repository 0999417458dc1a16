(** Property C83: why qisi may not converge.

    [overshoots] and [gives_up] are in CoverSpec.v, [synthesised] and [refit] in SynthiSpec.v, [independent] and [ones] in
    IndepSpec.v; they do not mention the model. *)
From Coq Require Import Reals.
From Flocq Require Import IEEE754.BinarySingleNaN.
From Verif Require Import Base Spec NDArray Float64 Bind SobolClaims Micro Stat Qis SynthSpec Qisi QisiClaims
  QuantSpec SynthiSpec IndepSpec IndepClaim QisExamples IpfExamples QisiExamples CoverSpec CoverClaim CoverIndep.
Open Scope Z_scope.

(** C83: if conv is False, one of the tables fitted on the way, with at least one more individual [x] to sample, overshoots:
    it has a cell that is negative, infinite or not a number, or asks for a whole individual more than some marginal has left *)
Theorem C83_overshoots : forall L fuel seed ilist mlist skips res, qisi_range ilist mlist seed -> qisi_good fuel ilist mlist seed ->
  py_qisi L fuel seed ilist mlist skips = Ok res -> qr_conv res = false ->
  let cs := cons_of ilist mlist in let sizes := shape seed in let s := entry d_zero seed in
  exists points people g p x q t, Z.of_nat (length people) = qr_pop res /\
    (forall t, (t < length people)%nat -> nth_draw (N.of_nat (length sizes)) (N.of_nat t + 1) = Ok (points t)) /\
    synthesised cs sizes s points people g /\ (forall i, index_in sizes i -> entry 0 (qr_pop_array res) i = occurrences i people) /\
    people = p ++ x :: q /\ refit cs sizes s (left_of p) t /\ overshoots cs sizes (left_of p) t.
Proof. exact qisi_draws. Qed.
Print Assumptions C83_overshoots.

(** ... so, if states times population do not exceed 2^50, that fit gave up after 1000 rounds, or has a cell that is
    negative, infinite or not a number *)
Theorem C83_gives_up : forall L fuel seed ilist mlist skips res, qisi_range ilist mlist seed -> qisi_good fuel ilist mlist seed ->
  py_qisi L fuel seed ilist mlist skips = Ok res -> qr_conv res = false -> prodZ (shape seed) * (qr_pop res + 1) <= 2 ^ 50 ->
  let cs := cons_of ilist mlist in let sizes := shape seed in let s := entry d_zero seed in
  exists points people g p x q t, Z.of_nat (length people) = qr_pop res /\
    (forall t, (t < length people)%nat -> nth_draw (N.of_nat (length sizes)) (N.of_nat t + 1) = Ok (points t)) /\
    synthesised cs sizes s points people g /\ (forall i, index_in sizes i -> entry 0 (qr_pop_array res) i = occurrences i people) /\
    people = p ++ x :: q /\ refit cs sizes s (left_of p) t /\
    (gives_up cs sizes s (left_of p) t \/ exists i, index_in sizes i /\ (is_finite (t i) = false \/ (B2R (t i) < 0)%R)).
Proof. exact qisi_gives_up. Qed.
Print Assumptions C83_gives_up.

(** a diagonal seed whose rows and columns cannot be 2 1 and 1 2 *)
Example C83_ex : qisi_range exJ_i exK_m exK_s /\ qisi_good 40 exJ_i exK_m exK_s /\
  exists r, py_qisi L0 40 exK_s exJ_i exK_m 0 = Ok r /\ qr_conv r = false /\ prodZ (shape exK_s) * (qr_pop r + 1) <= 2 ^ 50.
Proof. exact exK_stuck. Qed.

(** C83 for independent marginals and a seed of ones, K marginals over N states with pop * K * (2N + K + 1) <= 2 * 10^7: if
    qisi returns, conv is True *)
Theorem C83_independent : forall L fuel ilist mlist sizes pop skips res, independent ilist mlist sizes pop ->
  let K := Z.of_nat (length (cons_of ilist mlist)) in pop * (K * (2 * prodZ sizes + K + 1)) <= 2 * 10 ^ 7 -> prodZ sizes < Z.of_nat fuel ->
  py_qisi L fuel (ones sizes) ilist mlist skips = Ok res -> qr_conv res = true.
Proof. exact qisi_independent. Qed.
Print Assumptions C83_independent.

(** 20 people by 2 and by 3 categories *)
Example C83_independent_ex : independent exJ_i exT_m [2; 3] 20 /\
  (let K := Z.of_nat (length (cons_of exJ_i exT_m)) in 20 * (K * (2 * prodZ [2; 3]%Z + K + 1)) <= 2 * 10 ^ 7) /\ prodZ [2; 3]%Z < Z.of_nat 40 /\
  cells (py_qisi L0 40 (ones [2; 3]) exJ_i exT_m 0) = Some (true, [2; 3; 7; 3; 1; 4]).
Proof. exact exT_ok. Qed.
