(** Property C79: only the proportions of the seed matter.

    [times k a] is numpy's a * 2.0**k, [moderate] holds of zero and of the numbers from 2^-200 to 2^200 (SeedSpec.v). *)
From Coq Require Import QArith Qcanon.
From Flocq Require Import IEEE754.BinarySingleNaN.
From Verif Require Import Base Spec NDArray Float64 Bind SynthSpec Ipf IpfSpec IpfExamples Stat Qis Qisi QisiClaims QisiExamples SeedSpec SeedClaim.
Open Scope Z_scope.

(** C79: multiplying the seed by a power of two from 2^-200 to 2^200 changes no bit of what ipf returns, nor an error it raises *)
Theorem C79_ipf : forall fuel seed ilist mlist k, d_range ilist mlist -> all_proper d_zero ilist mlist -> wf_array seed ->
  prodZ (shape seed) < 2 ^ 60 -> prodZ (shape seed) < Z.of_nat fuel -> -200 <= k <= 200 -> Forall moderate (flat seed) ->
  (forall m, hd_error mlist = Some m -> Forall moderate (flat m)) ->
  py_ipf fuel (times k seed) ilist mlist = py_ipf fuel seed ilist mlist.
Proof. exact ipf_times_claim. Qed.
Print Assumptions C79_ipf.

(** and of what qisi returns: the population, the expectation and the statistics *)
Theorem C79_qisi : forall L fuel seed ilist mlist skips k, qisi_range ilist mlist seed -> qisi_good fuel ilist mlist seed ->
  -200 <= k <= 200 -> Forall moderate (flat seed) ->
  py_qisi L fuel (times k seed) ilist mlist skips = py_qisi L fuel seed ilist mlist skips.
Proof. exact qisi_times_claim. Qed.
Print Assumptions C79_qisi.

(** in exact arithmetic the factor may be any number but zero *)
Theorem C79_exact : forall fuel seed ilist mlist q, g_range 0%Qc ilist mlist -> all_proper 0%Qc ilist mlist -> wf_array seed ->
  prodZ (shape seed) < 2 ^ 60 -> prodZ (shape seed) < Z.of_nat fuel -> q <> 0%Qc ->
  py_ipf_exact fuel (timesQ q seed) ilist mlist = py_ipf_exact fuel seed ilist mlist.
Proof. exact ipf_exact_times_claim. Qed.
Print Assumptions C79_exact.

(** in doubles other factors do change the result: the seed 1 1 / 2 3 and its triple *)
Theorem C79_thrice_refuted : exists r r', py_ipf 5 exT_s exI_i exI_m = Ok r /\ py_ipf 5 exT_3 exI_i exI_m = Ok r' /\
  ir_conv r = true /\ ir_conv r' = true /\ exists i, index_in [2; 2] i /\ entry d_zero (ir_array r) i <> entry d_zero (ir_array r') i.
Proof. exact thrice_claim. Qed.
Print Assumptions C79_thrice_refuted.

(** and so do powers of two that make the sums overflow: all ones fits at once, all 2^1023 becomes all zeros *)
Theorem C79_overflow_refuted : exists r r', py_ipf 5 exT_1 exI_i exI_m = Ok r /\ py_ipf 5 (times 1023 exT_1) exI_i exI_m = Ok r' /\
  Forall (fun x => is_finite x = true) (flat (times 1023 exT_1)) /\
  ir_conv r = true /\ ir_iters r = 1 /\ ir_conv r' = false /\ Forall (fun x => x = d_zero) (flat (ir_array r')).
Proof. exact overflow_times_claim. Qed.
Print Assumptions C79_overflow_refuted.

Example C79_ex : d_range exI_i exI_m /\ all_proper d_zero exI_i exI_m /\ wf_array exI_s /\ Forall moderate (flat exI_s) /\
  (forall m, hd_error exI_m = Some m -> Forall moderate (flat m)) /\
  qisi_range exJ_i exJ_m exJ_s /\ qisi_good 40 exJ_i exJ_m exJ_s /\ Forall moderate (flat exJ_s) /\
  map (d_eqb (d_lit 3 10)) (flat (times 10 exJ_s)) = [false; false; true; false] /\
  (exists r, py_ipf 5 exI_s exI_i exI_m = Ok r /\ ir_conv r = true).
Proof.
  split; [exact exI_range|]. split; [exact exI_proper|]. split; [exact exI_seed|].
  split; [apply moderate_dz; repeat constructor; lia|]. split.
  { intros m E. assert (m = match hd_error exI_m with Some x => x | None => m end) as -> by (rewrite E; reflexivity).
    change (Forall moderate (dz [3; 7])). apply moderate_dz. repeat constructor; lia. }
  split; [exact exJ_range|]. split; [exact exJ_good|]. split; [apply moderate_dz; repeat constructor; lia|]. split; [vm_compute; reflexivity|].
  assert (match py_ipf 5 exI_s exI_i exI_m with Ok r => ir_conv r | _ => false end = true) as H by (vm_compute; reflexivity).
  destruct (py_ipf 5 exI_s exI_i exI_m) as [r| | |]; try discriminate. now exists r.
Qed.
