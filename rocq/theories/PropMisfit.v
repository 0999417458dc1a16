(** Property C80: in exact arithmetic with two marginals, more rounds of ipf never fit worse — not in the total over all
    marginal cells, and not in the ratios of the first marginal; with three marginals the total can rise, and with two
    the largest error, which ipf reports as maxError, can.

    [py_ipf_exact_limit n] is [py_ipf_exact] with [n] in place of the limit of 1000 rounds. *)
From Coq Require Import QArith Qcanon.
From Verif Require Import Base Spec NDArray Float64 Bind Micro Qis Ipf IpfSpec IpfLimit MisfitSpec MisfitClaim QisExamples IpfExamples ConvExamples.
Open Scope Z_scope.

Theorem C80_total : forall fuel seed ilist mlist, g_range 0%Qc ilist mlist -> all_proper 0%Qc ilist mlist -> wf_array seed ->
  prodZ (shape seed) < 2 ^ 60 -> prodZ (shape seed) < Z.of_nat fuel ->
  forall res, py_ipf_exact fuel seed ilist mlist = Ok res ->
  (forall i, index_in (shape seed) i -> (0 <= entry 0%Qc seed i)%Qc) ->
  length (gcons_of 0%Qc ilist mlist) = 2%nat ->
  let total f := misfit (shape seed) (gcons_of 0%Qc ilist mlist) f in
  forall n n', (0 < n <= n')%nat -> exists r r', py_ipf_exact_limit n fuel seed ilist mlist = Ok r /\
    py_ipf_exact_limit n' fuel seed ilist mlist = Ok r' /\
    (total (entry 0%Qc (ir_array r')) <= total (entry 0%Qc (ir_array r)))%Qc /\
    (total (entry 0%Qc (ir_array r)) <= total (entry 0%Qc seed))%Qc.
Proof. exact misfit_claim. Qed.
Print Assumptions C80_total.

(** the result of the code's 1000 rounds fits no worse than the seed *)
Theorem C80_code : forall fuel seed ilist mlist, g_range 0%Qc ilist mlist -> all_proper 0%Qc ilist mlist -> wf_array seed ->
  prodZ (shape seed) < 2 ^ 60 -> prodZ (shape seed) < Z.of_nat fuel ->
  forall res, py_ipf_exact fuel seed ilist mlist = Ok res ->
  (forall i, index_in (shape seed) i -> (0 <= entry 0%Qc seed i)%Qc) ->
  length (gcons_of 0%Qc ilist mlist) = 2%nat ->
  (misfit (shape seed) (gcons_of 0%Qc ilist mlist) (entry 0%Qc (ir_array res)) <= misfit (shape seed) (gcons_of 0%Qc ilist mlist) (entry 0%Qc seed))%Qc.
Proof. exact misfit_code_claim. Qed.
Print Assumptions C80_code.

(** if no cell of the first marginal exceeds [q] times the value asked for, or none falls below, that stays so *)
Theorem C80_ratio : forall fuel seed ilist mlist, g_range 0%Qc ilist mlist -> all_proper 0%Qc ilist mlist -> wf_array seed ->
  prodZ (shape seed) < 2 ^ 60 -> prodZ (shape seed) < Z.of_nat fuel ->
  forall res, py_ipf_exact fuel seed ilist mlist = Ok res ->
  (forall i, index_in (shape seed) i -> (0 <= entry 0%Qc seed i)%Qc) ->
  length (gcons_of 0%Qc ilist mlist) = 2%nat ->
  forall a b n n' q, gcons_of 0%Qc ilist mlist = [a; b] -> (0 < n <= n')%nat -> (0 <= q)%Qc ->
  exists r r', py_ipf_exact_limit n fuel seed ilist mlist = Ok r /\ py_ipf_exact_limit n' fuel seed ilist mlist = Ok r' /\
    (at_most q (shape seed) a (entry 0%Qc (ir_array r)) -> at_most q (shape seed) a (entry 0%Qc (ir_array r'))) /\
    (at_least q (shape seed) a (entry 0%Qc (ir_array r)) -> at_least q (shape seed) a (entry 0%Qc (ir_array r'))).
Proof. exact ratio_claim. Qed.
Print Assumptions C80_ratio.

(** three marginals, every entry of the seed positive: the total rises from the first round to the second *)
Theorem C80_three_refuted : exists fuel seed ilist mlist, g_range 0%Qc ilist mlist /\ all_proper 0%Qc ilist mlist /\ wf_array seed /\
  prodZ (shape seed) < 2 ^ 60 /\ prodZ (shape seed) < Z.of_nat fuel /\ length ilist = 3%nat /\
  (forall i, index_in (shape seed) i -> (0 < entry 0%Qc seed i)%Qc) /\
  exists r r', py_ipf_exact_limit 1 fuel seed ilist mlist = Ok r /\ py_ipf_exact_limit 2 fuel seed ilist mlist = Ok r' /\
    (misfit (shape seed) (gcons_of 0%Qc ilist mlist) (entry 0%Qc (ir_array r)) < misfit (shape seed) (gcons_of 0%Qc ilist mlist) (entry 0%Qc (ir_array r')))%Qc.
Proof. exact three_claim. Qed.
Print Assumptions C80_three_refuted.

(** two marginals, every entry of the seed positive: maxError rises from the first round to the second *)
Theorem C80_largest_refuted : exists fuel seed ilist mlist, g_range 0%Qc ilist mlist /\ all_proper 0%Qc ilist mlist /\ wf_array seed /\
  prodZ (shape seed) < 2 ^ 60 /\ prodZ (shape seed) < Z.of_nat fuel /\ length ilist = 2%nat /\
  (forall i, index_in (shape seed) i -> (0 < entry 0%Qc seed i)%Qc) /\
  exists r r', py_ipf_exact_limit 1 fuel seed ilist mlist = Ok r /\ py_ipf_exact_limit 2 fuel seed ilist mlist = Ok r' /\
    (ir_max r < ir_max r')%Qc.
Proof. exact largest_claim. Qed.
Print Assumptions C80_largest_refuted.

(** the hypotheses hold for a 2 x 2 seed with a zero; three rounds fit strictly better than one *)
Example C80_ex : g_range 0%Qc exI_i exQ_m /\ all_proper 0%Qc exI_i exQ_m /\ wf_array exK_s /\ prodZ (shape exK_s) < 2 ^ 60 /\
  prodZ (shape exK_s) < Z.of_nat 5 /\ (exists res, py_ipf_exact 5 exK_s exI_i exQ_m = Ok res) /\ length exI_i = 2%nat /\
  (forall i, index_in [2; 2] i -> (0 <= entry 0%Qc exK_s i)%Qc) /\
  (exists r3 r1, exM_3 = Ok r3 /\ exM_1 = Ok r1 /\ (exM_fit r3 < exM_fit r1)%Qc) /\
  (exists r1, exM_1 = Ok r1 /\ at_most (Q2Qc (4 # 3)) [2; 2] exM_c (entry 0%Qc (ir_array r1)) /\
     at_least (Q2Qc (2 # 3)) [2; 2] exM_c (entry 0%Qc (ir_array r1))) /\
  exists b, gcons_of 0%Qc exI_i exQ_m = [exM_c; b].
Proof. exact exM_ok. Qed.
