(** Property C89: the population ipf reports for marginals of whole numbers.

    [dbl_of m] is the array of doubles with the integers of [m]; [exact_totals] says that the entries of each marginal add up to at
    most 2^53 in absolute value, so that every sum is exact. *)
From Verif Require Import Base Spec Float64 Bind SynthSpec Ipf IpfSpec IpfDbl RealMarg PopProofs.
Open Scope Z_scope.

(** C89: up to 2^52 the population is the total of every marginal *)
Theorem C89_population : forall fuel seed ilist mlist,
  in_range ilist mlist -> exact_totals mlist -> all_proper d_zero ilist (map dbl_of mlist) ->
  wf_array seed -> prodZ (shape seed) < 2 ^ 60 -> prodZ (shape seed) < Z.of_nat fuel ->
  forall res, py_ipf fuel seed ilist (map dbl_of mlist) = Ok res ->
  forall m, In m mlist -> sumZ (flat m) <= 2 ^ 52 -> ir_pop res = sumZ (flat m).
Proof. exact pop_claim. Qed.
Print Assumptions C89_population.

(** C89: from there to 2^53 it is for even totals *)
Theorem C89_even : forall fuel seed ilist mlist,
  in_range ilist mlist -> exact_totals mlist -> all_proper d_zero ilist (map dbl_of mlist) ->
  wf_array seed -> prodZ (shape seed) < 2 ^ 60 -> prodZ (shape seed) < Z.of_nat fuel ->
  forall res, py_ipf fuel seed ilist (map dbl_of mlist) = Ok res ->
  forall m, In m mlist -> sumZ (flat m) < 2 ^ 53 -> Z.Even (sumZ (flat m)) -> ir_pop res = sumZ (flat m).
Proof. exact even_claim. Qed.
Print Assumptions C89_even.

(** C89 is false for every odd total between 2^52 and 2^53: one person too many is reported *)
Theorem C89_odd_refuted : forall fuel seed ilist mlist,
  in_range ilist mlist -> exact_totals mlist -> all_proper d_zero ilist (map dbl_of mlist) ->
  wf_array seed -> prodZ (shape seed) < 2 ^ 60 -> prodZ (shape seed) < Z.of_nat fuel ->
  forall res, py_ipf fuel seed ilist (map dbl_of mlist) = Ok res ->
  forall m, In m mlist -> 2 ^ 52 < sumZ (flat m) < 2 ^ 53 -> Z.Odd (sumZ (flat m)) -> ir_pop res = sumZ (flat m) + 1.
Proof. exact odd_claim. Qed.
Print Assumptions C89_odd_refuted.

(** so marginals of whole numbers with different totals are accepted *)
Theorem C89_mismatch_refuted : exists fuel seed ilist m m' res,
  in_range ilist [m; m'] /\ exact_totals [m; m'] /\ all_proper d_zero ilist (map dbl_of [m; m']) /\ wf_array seed /\ prodZ (shape seed) < Z.of_nat fuel /\
  sumZ (flat m) <> sumZ (flat m') /\ py_ipf fuel seed ilist (map dbl_of [m; m']) = Ok res.
Proof. exact mismatch_claim. Qed.
Print Assumptions C89_mismatch_refuted.

(** 2^52 people, and 2^52 + 1 of whom 2^52 + 2 are reported *)
Example C89_ex : in_range exT_i exPs_m /\ exact_totals exPs_m /\ all_proper d_zero exT_i (map dbl_of exPs_m) /\ wf_array exT_s /\
  map (fun m => sumZ (flat m)) exPs_m = [2 ^ 52; 2 ^ 52] /\ ran (py_ipf 5 exT_s exT_i (map dbl_of exPs_m)) = Some (2 ^ 52, true).
Proof.
  destruct (exP_hyps exPs_m (or_intror (or_intror eq_refl))) as (H1 & H2 & H3 & H4 & _). repeat (split; [assumption|]).
  split; [reflexivity|exact exPs_run].
Qed.
Example C89_odd_ex : in_range exT_i exP_m /\ exact_totals exP_m /\ all_proper d_zero exT_i (map dbl_of exP_m) /\ wf_array exT_s /\
  map (fun m => sumZ (flat m)) exP_m = [2 ^ 52 + 1; 2 ^ 52 + 1] /\ ran (py_ipf 5 exT_s exT_i (map dbl_of exP_m)) = Some (2 ^ 52 + 2, true).
Proof.
  destruct (exP_hyps exP_m (or_introl eq_refl)) as (H1 & H2 & H3 & H4 & _). repeat (split; [assumption|]).
  split; [reflexivity|exact exP_run].
Qed.
