(** Properties C09-C11, C49, C50 and the qisi parts of C08 and C14.

    [py_qisi L fuel seed ilist mlist skips] is the Python function; [L] is the mathematical library used for the
    reported statistics, [fuel] bounds the loops of the generator's skip and of rScale.  [qisi_range] only excludes
    sizes and totals near the limits of the integer types and seeds with an empty dimension. *)
From Verif Require Import Base Spec NDArray Float64 Bind SobolSpec Sobol Micro Stat Qis Qisi SynthSpec QisClaims QisExamples IpfSpec QisiClaims QisiExamples QisiPick.
Open Scope Z_scope.

(** C09: the population is exact *)
Theorem C09_population : forall L fuel seed ilist mlist skips res, qisi_range ilist mlist seed ->
  py_qisi L fuel seed ilist mlist skips = Ok res ->
  let a := qr_pop_array res in
  shape a = shape seed /\ implied (cons_of ilist mlist) (shape a) /\ wf_array a /\ (forall i, index_in (shape a) i -> 0 <= entry 0 a i) /\
  total (shape a) (entry 0 a) = qr_pop res /\ (forall c, In c (cons_of ilist mlist) -> c_total c = qr_pop res).
Proof. exact qisi_population_claim. Qed.
Print Assumptions C09_population.
Example C09_ex : qisi_range exB_i exB_m exL_s /\
  match py_qisi L0 40 exL_s exB_i exB_m 0 with Ok r => qr_pop r = 10 /\ shape (qr_pop_array r) = [2; 2; 2] | _ => False end.
Proof. split; [exact exL_range|]. vm_compute. split; reflexivity. Qed.

(** C10: conv says exactly whether every marginal is matched *)
Theorem C10_conv : forall L fuel seed ilist mlist skips res, qisi_range ilist mlist seed ->
  py_qisi L fuel seed ilist mlist skips = Ok res ->
  (qr_conv res = true <->
   forall c, In c (cons_of ilist mlist) -> meets (shape (qr_pop_array res)) (entry 0 (qr_pop_array res)) c).
Proof. exact qisi_conv_claim. Qed.
Print Assumptions C10_conv.
Example C10_ex : qisi_range exJ_i exJ_m exJ_s /\ qisi_range exJ_i exK_m exK_s /\
  cells (py_qisi L0 40 exJ_s exJ_i exJ_m 0) = Some (true, [4; 3; 1; 1]) /\
  cells (py_qisi L0 40 exK_s exJ_i exK_m 0) = Some (false, [1; 0; 0; 2]).
Proof. split; [exact exJ_range|]. split; [exact exK_range|]. split; vm_compute; reflexivity. Qed.

(** C11 is false: skips has no effect on the result of any call, as long as the constructor's skip returns *)
Theorem C11_refuted : forall L fuel seed ilist mlist s s', (32 <= fuel)%nat -> u32 s <= 2 ^ 31 -> u32 s' <= 2 ^ 31 ->
  py_qisi L fuel seed ilist mlist s = py_qisi L fuel seed ilist mlist s'.
Proof. exact qisi_skips_claim. Qed.
Print Assumptions C11_refuted.
Example C11_ex : u32 1000 <= 2 ^ 31 /\ skipped 1000 = 512%N /\
  cells (py_qisi L0 40 exJ_s exJ_i exJ_m 0) = Some (true, [4; 3; 1; 1]) /\
  cells (py_qisi L0 40 exJ_s exJ_i exJ_m 1000) = Some (true, [4; 3; 1; 1]).
Proof. split; [vm_compute; discriminate|]. split; [vm_compute; reflexivity|]. split; vm_compute; reflexivity. Qed.

(** C08, qisi: invalid constraints and seeds of another shape are refused *)
Theorem C08_qisi_rejects : forall L fuel seed ilist mlist skips, in_range ilist mlist -> let cs := cons_of ilist mlist in
  (exists c, In c cs /\ c_total c < 2 ^ 52) -> ~ (vectors ilist mlist /\ valid cs) ->
  exists e, py_qisi L fuel seed ilist mlist skips = Throw e.
Proof. exact qisi_rejects_claim. Qed.
Print Assumptions C08_qisi_rejects.
Theorem C08_qisi_seed : forall L fuel seed ilist mlist skips, qisi_range ilist mlist seed ->
  ~ implied (cons_of ilist mlist) (shape seed) -> u32 skips <= 2 ^ 31 -> (32 <= fuel)%nat ->
  exists e, py_qisi L fuel seed ilist mlist skips = Throw e.
Proof. exact qisi_seed_claim. Qed.
Print Assumptions C08_qisi_seed.
(** and what is refused by the constructor is nothing else *)
Theorem C08_qisi_validation : forall ilist mlist, in_range ilist mlist -> let cs := cons_of ilist mlist in
  (exists c, In c cs /\ c_total c < 2 ^ 52) ->
  ((exists ms, (let* '(indices, margs) := py_lists to_nd ilist mlist in micro_new (T := Z) IntMarg indices margs) = Ok ms) <->
   vectors ilist mlist /\ valid cs) /\
  ((exists e, (let* '(indices, margs) := py_lists to_nd ilist mlist in micro_new (T := Z) IntMarg indices margs) = Throw e) <->
   ~ (vectors ilist mlist /\ valid cs)).
Proof. exact (@validation_claim Z). Qed.
Print Assumptions C08_qisi_validation.
Example C08_qisi_ex : qisi_range exJ_i exJ_m exL_s /\ ~ implied (cons_of exJ_i exJ_m) (shape exL_s) /\
  py_qisi L0 40 exL_s exJ_i exJ_m 0 = Throw (RuntimeError "seed dimensions is inconsistent with that implied by marginals").
Proof.
  split; [apply qisi_range_by; [apply exJ_range| |]; vm_compute; reflexivity|]. split; [|vm_compute; reflexivity].
  intros [H _]. destruct (proj2 (H 2)) as (c & Hc & Hd). { simpl. lia. } simpl in Hc. destruct Hc as [<-|[<-|[]]]; simpl in Hd; destruct Hd as [E|[]]; discriminate.
Qed.

(** C50, C14: with proper index lists a call returns or raises; it has no undefined behaviour *)
Theorem C50_returns_or_raises : forall L fuel seed ilist mlist skips, qisi_range ilist mlist seed -> qisi_good fuel ilist mlist seed ->
  u32 skips <= 2 ^ 31 -> (32 <= fuel)%nat ->
  (exists res, py_qisi L fuel seed ilist mlist skips = Ok res) \/ (exists e, py_qisi L fuel seed ilist mlist skips = Throw e).
Proof. exact qisi_safe_claim. Qed.
Print Assumptions C50_returns_or_raises.
Example C50_ex : qisi_range exJ_i exJ_m exJ_s /\ qisi_good 40 exJ_i exJ_m exJ_s.
Proof. split; [exact exJ_range|exact exJ_good]. Qed.

(** C14: it never returns when an accepted marginal is on all dimensions *)
Theorem C14_qisi_covering_diverges : forall L fuel seed ilist mlist skips, qisi_range ilist mlist seed -> let cs := cons_of ilist mlist in
  vectors ilist mlist -> valid cs -> implied cs (shape seed) -> (length (shape seed) <= 1111)%nat ->
  (forall c, In c cs -> NoDup (c_dims c)) -> (exists c, In c cs /\ length (c_dims c) = length (shape seed)) ->
  prodZ (shape seed) < Z.of_nat fuel -> py_qisi L fuel seed ilist mlist skips = Diverge.
Proof. exact qisi_covering_claim. Qed.
Print Assumptions C14_qisi_covering_diverges.
Example C14_qisi_ex : qisi_range exP_i exP_m exJ_s /\ vectors exP_i exP_m /\ valid (cons_of exP_i exP_m) /\ implied (cons_of exP_i exP_m) (shape exJ_s) /\
  length (c_dims (hd (CON [] [] (fun _ => 0)) (cons_of exP_i exP_m))) = length (shape exJ_s).
Proof.
  split; [exact exP_range|]. split; [apply exP_valid|]. split; [apply exP_valid|]. split; [apply implied_by; vm_compute; reflexivity|reflexivity].
Qed.

(** C49 is false: valid marginals and a non-negative seed of the right shape, and the call complains of a negative
    marginal *)
Theorem C49_refuted : exists seed ilist mlist, in_range ilist mlist /\ vectors ilist mlist /\ valid (cons_of ilist mlist) /\
  implied (cons_of ilist mlist) (shape seed) /\ wf_array seed /\ Forall (fun x => d_leb d_zero x = true) (flat seed) /\
  py_qisi L0 40 seed ilist mlist 0 = Throw (RuntimeError "negative value in marginal").
Proof. exact qisi_raises_claim. Qed.
Print Assumptions C49_refuted.

(** ... or fails to select a cell *)
Theorem C49_pick_refuted : exists seed ilist mlist, in_range ilist mlist /\ vectors ilist mlist /\ valid (cons_of ilist mlist) /\
  implied (cons_of ilist mlist) (shape seed) /\ wf_array seed /\ Forall (fun x => d_leb d_zero x = true) (flat seed) /\
  py_qisi L0 40 seed ilist mlist 0 = Throw (RuntimeError "pick failed").
Proof. exact qisi_pick_claim. Qed.
Print Assumptions C49_pick_refuted.
