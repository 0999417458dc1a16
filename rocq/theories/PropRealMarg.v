(** Property C75: the validation of real marginals by ipf.

    [consistent] (what the code checks), [agree] (what is meant, in exact arithmetic) and [totals_ok] are in RealMargSpec.v. *)
From Coq Require Import Reals.
From Verif Require Import Base Spec Float64 NDArray Bind SynthSpec Ipf IpfSpec RealMargSpec RealMarg.
Open Scope Z_scope.

(** C75: ipf returns exactly if the marginals are consistent and the seed has the implied shape; otherwise it throws *)
Theorem C75_validation : forall fuel seed ilist mlist,
  d_range ilist mlist -> all_proper d_zero ilist mlist -> wf_array seed -> prodZ (shape seed) < 2 ^ 60 -> prodZ (shape seed) < Z.of_nat fuel ->
  totals_ok (dcons_of ilist mlist) ->
  ((exists res, py_ipf fuel seed ilist mlist = Ok res) <->
     g_vectors ilist mlist /\ consistent (dcons_of ilist mlist) /\ implied (map outline (dcons_of ilist mlist)) (shape seed)) /\
  ((exists e, py_ipf fuel seed ilist mlist = Throw e) <->
     ~ (g_vectors ilist mlist /\ consistent (dcons_of ilist mlist) /\ implied (map outline (dcons_of ilist mlist)) (shape seed))).
Proof. exact validation_claim. Qed.
Print Assumptions C75_validation.

(** C75: marginals that agree exactly are accepted, if total * cells <= 2^23 and the total is at least 2^-27 away from the
    nearest half-integer; the population is the total rounded to the nearest integer *)
Theorem C75_agreeing_accepted : forall fuel seed ilist mlist,
  d_range ilist mlist -> all_proper d_zero ilist mlist -> wf_array seed -> prodZ (shape seed) < 2 ^ 60 -> prodZ (shape seed) < Z.of_nat fuel ->
  forall t n p, g_vectors ilist mlist -> implied (map outline (dcons_of ilist mlist)) (shape seed) -> agree (dcons_of ilist mlist) t ->
  (forall m, In m mlist -> prodZ (shape m) <= n) -> n <= 2 ^ 51 -> (t * IZR n <= 2 ^ 23)%R ->
  (IZR p - / 2 + / 2 ^ 27 <= t <= IZR p + / 2 - / 2 ^ 27)%R ->
  exists res, py_ipf fuel seed ilist mlist = Ok res /\ ir_pop res = p.
Proof. exact enough_claim. Qed.
Print Assumptions C75_agreeing_accepted.

(** C75 with "totals that differ are rejected" is false: totals of 10.25 and 9.5 are accepted, and 1000 rounds are spent on them *)
Theorem C75_totals_refuted : exists fuel seed ilist mlist res,
  d_range ilist mlist /\ all_proper d_zero ilist mlist /\ wf_array seed /\ prodZ (shape seed) < Z.of_nat fuel /\
  py_ipf fuel seed ilist mlist = Ok res /\ map sum_exact (dcons_of ilist mlist) = [41 / 4; 19 / 2]%R /\
  ir_pop res = 10 /\ ir_conv res = false /\ ir_iters res = 1000.
Proof. exact totals_claim. Qed.
Print Assumptions C75_totals_refuted.

(** C75 without the distance to half-integers is false: two marginals of exactly 2.5 people are rejected *)
Theorem C75_half_refuted : exists fuel seed ilist mlist,
  d_range ilist mlist /\ all_proper d_zero ilist mlist /\ wf_array seed /\ prodZ (shape seed) < Z.of_nat fuel /\
  g_vectors ilist mlist /\ implied (map outline (dcons_of ilist mlist)) (shape seed) /\ agree (dcons_of ilist mlist) (5 / 2) /\
  py_ipf fuel seed ilist mlist = Throw (RuntimeError "marginal sum mismatch").
Proof. exact rounding_claim. Qed.
Print Assumptions C75_half_refuted.

(** C75 without the bound on the size is false: two marginals of some 134 million people, exactly equal on the shared
    dimension, are rejected *)
Theorem C75_size_refuted : exists fuel seed ilist mlist t,
  d_range ilist mlist /\ all_proper d_zero ilist mlist /\ wf_array seed /\ prodZ (shape seed) < Z.of_nat fuel /\
  g_vectors ilist mlist /\ implied (map outline (dcons_of ilist mlist)) (shape seed) /\ agree (dcons_of ilist mlist) t /\
  (134217731 < t < 134217732)%R /\
  py_ipf fuel seed ilist mlist = Throw (RuntimeError "marginal partial sum mismatch").
Proof. exact partial_claim. Qed.
Print Assumptions C75_size_refuted.

(** 10.25 people *)
Example C75_ex : d_range exT_i exA_m /\ all_proper d_zero exT_i exA_m /\ wf_array exT_s /\ g_vectors exT_i exA_m /\
  implied (map outline (dcons_of exT_i exA_m)) (shape exT_s) /\ agree (dcons_of exT_i exA_m) (41 / 4) /\
  (forall m, In m exA_m -> prodZ (shape m) <= 2) /\ (41 / 4 * 2 <= 2 ^ 23)%R /\ (IZR 10 - / 2 + / 2 ^ 27 <= 41 / 4 <= IZR 10 + / 2 - / 2 ^ 27)%R /\
  totals_ok (dcons_of exT_i exA_m).
Proof. exact exA_claim. Qed.
