(** Property C63: when some non-negative table that is zero wherever the seed is has all the marginals, ipf in exact
    arithmetic converges, given enough iterations; the limit of 1000 in the code is not always enough.

    [py_ipf_exact_limit n] is [py_ipf_exact] with [n] in place of 1000. *)
From Coq Require Import QArith Qcanon.
From Verif Require Import Base Spec NDArray Float64 Bind Micro Qis Ipf IpfSpec IpfLimit IpfConv QisExamples IpfExamples ConvExamples.
Open Scope Z_scope.

Theorem C63_converges : forall fuel seed ilist mlist, g_range 0%Qc ilist mlist -> all_proper 0%Qc ilist mlist -> wf_array seed ->
  prodZ (shape seed) < 2 ^ 60 -> prodZ (shape seed) < Z.of_nat fuel ->
  let cs := gcons_of 0%Qc ilist mlist in
  forall res p, py_ipf_exact fuel seed ilist mlist = Ok res ->
  (forall i, index_in (shape seed) i -> (0 <= entry 0%Qc seed i)%Qc) ->
  (forall i, index_in (shape seed) i -> (0 <= p i)%Qc) ->
  (forall i, index_in (shape seed) i -> p i <> 0%Qc -> entry 0%Qc seed i <> 0%Qc) ->
  (forall c k, In c cs -> index_in (g_sizes c) k -> marginQ (shape seed) (g_dims c) k p = g_at c k) ->
  exists N, forall n, (N <= n)%nat -> exists res', py_ipf_exact_limit n fuel seed ilist mlist = Ok res' /\ ir_conv res' = true /\
    forall c k, In c cs -> index_in (g_sizes c) k -> (q_abs (marginQ (shape seed) (g_dims c) k (entry 0%Qc (ir_array res')) - g_at c k) < q_1em8)%Qc.
Proof. exact conv_claim. Qed.
Print Assumptions C63_converges.

Theorem C63_code : forall fuel seed ilist mlist, py_ipf_exact_limit (Z.to_nat 1000) fuel seed ilist mlist = py_ipf_exact fuel seed ilist mlist.
Proof. exact limit_1000. Qed.
Print Assumptions C63_code.

(** a seed on whose support only the identity has the marginals: all hypotheses of C63_converges hold, and 1000
    iterations do not suffice *)
Theorem C63_limit_refuted : exists fuel seed ilist mlist res p, g_range 0%Qc ilist mlist /\ all_proper 0%Qc ilist mlist /\ wf_array seed /\
  prodZ (shape seed) < 2 ^ 60 /\ prodZ (shape seed) < Z.of_nat fuel /\ py_ipf_exact fuel seed ilist mlist = Ok res /\
  (forall i, index_in (shape seed) i -> (0 <= entry 0%Qc seed i)%Qc) /\
  (forall i, index_in (shape seed) i -> (0 <= p i)%Qc) /\
  (forall i, index_in (shape seed) i -> p i <> 0%Qc -> entry 0%Qc seed i <> 0%Qc) /\
  (forall c k, In c (gcons_of 0%Qc ilist mlist) -> index_in (g_sizes c) k -> marginQ (shape seed) (g_dims c) k p = g_at c k) /\
  ir_conv res = false /\ ir_iters res = 1000.
Proof. exact limit_refuted_claim. Qed.
Print Assumptions C63_limit_refuted.

(** the same call in doubles *)
Theorem C63_double_refuted : exists fuel res, py_ipf fuel (NDA [2; 2] (dz [1; 1; 0; 1])) [NDA [1] [0]; NDA [1] [1]] [NDA [2] (dz [1; 1]); NDA [2] (dz [1; 1])] = Ok res /\
  ir_conv res = false /\ ir_iters res = 1000.
Proof. exact double_refuted_claim. Qed.
Print Assumptions C63_double_refuted.
