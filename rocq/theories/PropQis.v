(** Properties C01-C08 and C41: qis.

    [py_qis L fuel ilist mlist skips] is the Python function; [L] is the mathematical library used for the reported
    statistics and [fuel] bounds the loop of the generator's skip.  [in_range] only excludes sizes and totals near
    the limits of the integer types. *)
From Coq Require Import Reals.
From Verif Require Import Base Spec NDArray Float64 Bind SobolSpec Sobol SobolClaims Micro Stat Qis SynthSpec RealSpec QisClaims QisExpect QisExamples.
Open Scope Z_scope.

(** C01: the population is exact *)
Theorem C01_population : forall L fuel ilist mlist skips res, in_range ilist mlist -> py_qis L fuel ilist mlist skips = Ok res ->
  let a := qr_pop_array res in
  implied (cons_of ilist mlist) (shape a) /\ wf_array a /\ (forall i, index_in (shape a) i -> 0 <= entry 0 a i) /\
  total (shape a) (entry 0 a) = qr_pop res /\ (forall c, In c (cons_of ilist mlist) -> c_total c = qr_pop res).
Proof. exact population_claim. Qed.
Print Assumptions C01_population.
Example C01_ex : in_range exC_i exC_m /\
  match py_qis L0 40 exC_i exC_m 7 with Ok r => shape (qr_pop_array r) = [2; 2; 2] /\ qr_pop r = 10 | _ => False end.
Proof. split; [exact exC_range|]. vm_compute. split; reflexivity. Qed.

(** C02: conv says exactly whether every marginal is matched *)
Theorem C02_conv : forall L fuel ilist mlist skips res, in_range ilist mlist -> py_qis L fuel ilist mlist skips = Ok res ->
  (qr_conv res = true <->
   forall c, In c (cons_of ilist mlist) -> meets (shape (qr_pop_array res)) (entry 0 (qr_pop_array res)) c).
Proof. exact conv_claim. Qed.
Print Assumptions C02_conv.
Example C02_ex : in_range exB_i exB_m /\ in_range exC_i exC_m /\
  match py_qis L0 40 exB_i exB_m 5, py_qis L0 40 exC_i exC_m 0 with
  | Ok r, Ok r' => qr_conv r = true /\ flat (qr_pop_array r) = [1; 0; 0; 2; 1; 2; 3; 1] /\
                   qr_conv r' = false /\ flat (qr_pop_array r') = [1; 0; 1; 1; 1; 2; 2; 2]
  | _, _ => False
  end.
Proof. split; [exact exB_range|]. split; [exact exC_range|]. vm_compute. repeat split; reflexivity. Qed.

(** C03: no cell exceeds a marginal it contributes to *)
Theorem C03_not_overfilled : forall L fuel ilist mlist skips res, in_range ilist mlist -> py_qis L fuel ilist mlist skips = Ok res ->
  qr_conv res = true -> forall c i, In c (cons_of ilist mlist) -> index_in (shape (qr_pop_array res)) i ->
  entry 0 (qr_pop_array res) i <= c_at c (proj (c_dims c) i) /\
  (c_at c (proj (c_dims c) i) = 0 -> entry 0 (qr_pop_array res) i = 0).
Proof. exact overfill_claim. Qed.
Print Assumptions C03_not_overfilled.
Definition ex0_m : list (ndarray Z) := [NDA [3] [3; 0; 3]; NDA [2] [4; 2]].
Example C03_ex : in_range exA_i ex0_m /\
  match py_qis L0 40 exA_i ex0_m 0 with
  | Ok r => qr_conv r = true /\ flat (qr_pop_array r) = [2; 1; 0; 0; 2; 1]
  | _ => False
  end.
Proof. split; [apply (in_range_by _ _ [3; 2]); vm_compute; reflexivity|]. vm_compute. split; reflexivity. Qed.

(** C04: disjoint marginals always converge *)
Theorem C04_disjoint : forall L fuel ilist mlist skips, let cs := cons_of ilist mlist in
  in_range ilist mlist -> vectors ilist mlist -> valid cs -> disjoint cs ->
  (forall sizes, implied cs sizes -> (length sizes <= 1111)%nat) ->
  0 <= skips <= 2 ^ 31 -> (forall c, In c cs -> c_total c + Z.of_N (skipped (Z.to_N skips)) <= 2 ^ 32 - 1) -> (32 <= fuel)%nat ->
  exists res, py_qis L fuel ilist mlist skips = Ok res /\ qr_conv res = true.
Proof. exact disjoint_claim. Qed.
Print Assumptions C04_disjoint.
Example C04_ex : in_range exA_i exA_m /\ vectors exA_i exA_m /\ valid (cons_of exA_i exA_m) /\ disjoint (cons_of exA_i exA_m) /\
  (forall sizes, implied (cons_of exA_i exA_m) sizes -> (length sizes <= 1111)%nat) /\
  match py_qis L0 40 exA_i exA_m 0 with Ok r => qr_conv r = true /\ flat (qr_pop_array r) = [1; 0; 1; 1; 2; 1] | _ => False end.
Proof.
  split; [exact exA_range|]. split; [apply exA_valid|]. split; [apply exA_valid|].
  split; [apply disjoint_by; vm_compute; reflexivity|].
  split; [apply (implied_dims _ [3; 2]); [vm_compute; reflexivity|simpl; lia]|]. vm_compute. split; reflexivity.
Qed.

(** C04, a limit of the claim: an index list may repeat a dimension, which validation accepts.  No dimension is then
    shared by two marginals, yet the result does not converge. *)
Theorem C04_repeated_dimension_refuted : exists ilist mlist res, in_range ilist mlist /\ vectors ilist mlist /\
  valid (cons_of ilist mlist) /\
  (forall pre c mid c' post d, cons_of ilist mlist = pre ++ c :: mid ++ c' :: post -> In d (c_dims c) -> In d (c_dims c') -> False) /\
  py_qis L0 40 ilist mlist 0 = Ok res /\ qr_conv res = false.
Proof. exact repeated_claim. Qed.
Print Assumptions C04_repeated_dimension_refuted.

(** C05: so do marginals that share at most one dimension with those listed before them *)
Theorem C05_share_at_most_one : forall L fuel ilist mlist skips, let cs := cons_of ilist mlist in
  in_range ilist mlist -> vectors ilist mlist -> valid cs -> share_at_most_one cs ->
  (forall sizes, implied cs sizes -> (length sizes <= 1111)%nat) ->
  0 <= skips <= 2 ^ 31 -> (forall c, In c cs -> c_total c + Z.of_N (skipped (Z.to_N skips)) <= 2 ^ 32 - 1) -> (32 <= fuel)%nat ->
  exists res, py_qis L fuel ilist mlist skips = Ok res /\ qr_conv res = true.
Proof. exact converge_claim. Qed.
Print Assumptions C05_share_at_most_one.
Example C05_ex : in_range exB_i exB_m /\ vectors exB_i exB_m /\ valid (cons_of exB_i exB_m) /\
  share_at_most_one (cons_of exB_i exB_m) /\
  (forall sizes, implied (cons_of exB_i exB_m) sizes -> (length sizes <= 1111)%nat).
Proof.
  split; [exact exB_range|]. split; [apply exB_valid|]. split; [apply exB_valid|].
  split; [apply share_by; vm_compute; reflexivity|]. apply (implied_dims _ [2; 2; 2]); [vm_compute; reflexivity|simpl; lia].
Qed.
(** the hypothesis matters: a ring of three marginals is valid but does not converge *)
Example C05_ex_ring : in_range exC_i exC_m /\ vectors exC_i exC_m /\ valid (cons_of exC_i exC_m) /\
  match py_qis L0 40 exC_i exC_m 0 with Ok r => qr_conv r = false | _ => False end.
Proof. split; [exact exC_range|]. split; [apply exC_valid|]. split; [apply exC_valid|]. vm_compute. reflexivity. Qed.

(** C06: the first point qis draws is number k+1, where k is 1 for skips up to 2 and otherwise the largest power of
    two smaller than skips (of skips modulo 2^32) *)
Theorem C06_skips : forall fuel ilist mlist skips q, in_range ilist mlist ->
  (let* '(indices, margs) := py_lists to_nd ilist mlist in qis_new fuel indices margs skips) = Ok q ->
  exists s' p, sobol_buf (q_sob q) = Ok (s', p) /\
    nth_draw (N.of_nat (length (ms_sizes (q_ms q)))) (skipped (Z.to_N (u32 skips)) + 1) = Ok p.
Proof. exact qis_skips_claim. Qed.
Print Assumptions C06_skips.
Example C06_ex : map skipped [0; 1; 2; 3; 4; 5; 1000; 1024; 1025]%N = [1; 1; 1; 2; 2; 4; 512; 512; 1024]%N /\
  match (let* '(indices, margs) := py_lists to_nd exA_i exA_m in qis_new 40 indices margs 5) with
  | Ok q => match sobol_buf (q_sob q) with Ok (_, p) => Ok p = nth_draw 2 5 | _ => False end | _ => False end.
Proof. split; vm_compute; reflexivity. Qed.

(** C06 refuted at 0: skips = 0 does not start at the beginning; 0, 1 and 2 give the same result *)
Theorem C06_zero_refuted : forall L fuel ilist mlist s s', (2 <= fuel)%nat -> 0 <= s <= 2 -> 0 <= s' <= 2 ->
  py_qis L fuel ilist mlist s = py_qis L fuel ilist mlist s'.
Proof. exact qis_skips_equal. Qed.
Print Assumptions C06_zero_refuted.

(** C06 refuted above 2^31: qis hangs on every valid input *)
Theorem C06_hang_refuted : forall L fuel ilist mlist skips, in_range ilist mlist -> vectors ilist mlist -> valid (cons_of ilist mlist) ->
  (forall sizes, implied (cons_of ilist mlist) sizes -> (length sizes <= 1111)%nat) -> 2 ^ 31 < skips < 2 ^ 32 ->
  py_qis L fuel ilist mlist skips = Diverge.
Proof. exact qis_hang_claim. Qed.
Print Assumptions C06_hang_refuted.

(** C07 for disjoint marginals: each marginal of the expectation is within a relative 2^-51 of the supplied one *)
Theorem C07_disjoint : forall L fuel ilist mlist skips res, in_range ilist mlist -> disjoint (cons_of ilist mlist) ->
  py_qis L fuel ilist mlist skips = Ok res -> 0 < qr_pop res -> qr_pop res ^ Z.of_nat (length (cons_of ilist mlist)) <= 2 ^ 53 ->
  shape (qr_expectation res) = shape (qr_pop_array res) /\ all_finite (qr_expectation res) /\
  forall c k, In c (cons_of ilist mlist) -> index_in (c_sizes c) k ->
    (Rabs (marginR (shape (qr_expectation res)) (c_dims c) k (entryR (qr_expectation res)) - IZR (c_at c k)) <= IZR (c_at c k) / 2 ^ 51)%R.
Proof. exact expect_claim. Qed.
Print Assumptions C07_disjoint.
Example C07_ex : in_range exA_i exA_m /\ disjoint (cons_of exA_i exA_m) /\
  match py_qis L0 40 exA_i exA_m 0 with
  | Ok r => 0 < qr_pop r /\ qr_pop r ^ Z.of_nat (length (cons_of exA_i exA_m)) <= 2 ^ 53 | _ => False end.
Proof.
  split; [exact exA_range|]. split; [apply disjoint_by; vm_compute; reflexivity|].
  vm_compute. split; [reflexivity|discriminate].
Qed.

(** C07 refuted for overlapping marginals, even when qis converges: the marginal of the expectation is less than half
    the supplied one *)
Theorem C07_overlap_refuted : exists ilist mlist, in_range ilist mlist /\ vectors ilist mlist /\ valid (cons_of ilist mlist) /\
  share_at_most_one (cons_of ilist mlist) /\ exists res, py_qis L0 40 ilist mlist 0 = Ok res /\ qr_conv res = true /\
  exists c k, In c (cons_of ilist mlist) /\ index_in (c_sizes c) k /\ c_at c k = 1 /\
    (marginR (shape (qr_expectation res)) (c_dims c) k (entryR (qr_expectation res)) < 1 / 2)%R.
Proof. exact overlap_claim. Qed.
Print Assumptions C07_overlap_refuted.

(** C08, integer marginals: the lists are accepted exactly when they are vectors of dimension numbers, as many as
    marginals, and the constraints are valid *)
Theorem C08_validation : forall ilist mlist, in_range ilist mlist -> let cs := cons_of ilist mlist in
  (exists c, In c cs /\ c_total c < 2 ^ 52) ->
  ((exists ms, (let* '(indices, margs) := py_lists to_nd ilist mlist in micro_new (T := Z) IntMarg indices margs) = Ok ms) <->
   vectors ilist mlist /\ valid cs) /\
  ((exists e, (let* '(indices, margs) := py_lists to_nd ilist mlist in micro_new (T := Z) IntMarg indices margs) = Throw e) <->
   ~ (vectors ilist mlist /\ valid cs)).
Proof. exact (@validation_claim Z). Qed.
Print Assumptions C08_validation.
Theorem C08_qis_rejects : forall L fuel ilist mlist skips, in_range ilist mlist -> let cs := cons_of ilist mlist in
  (exists c, In c cs /\ c_total c < 2 ^ 52) -> ~ (vectors ilist mlist /\ valid cs) ->
  exists e, py_qis L fuel ilist mlist skips = Throw e.
Proof. exact qis_rejects_claim. Qed.
Print Assumptions C08_qis_rejects.
(** two marginals whose partial sums on the shared dimension differ *)
Definition exF_m : list (ndarray Z) := [NDA [2; 2] [1; 2; 3; 4]; NDA [2; 2] [2; 3; 3; 2]].
Example C08_ex : in_range exB_i exF_m /\ (exists c, In c (cons_of exB_i exF_m) /\ c_total c < 2 ^ 52) /\
  ~ (vectors exB_i exF_m /\ valid (cons_of exB_i exF_m)) /\
  vectors exB_i exB_m /\ valid (cons_of exB_i exB_m).
Proof.
  assert (in_range exB_i exF_m) as Hr by (apply (in_range_by _ _ [2; 2; 2]); vm_compute; reflexivity).
  assert (exists c, In c (cons_of exB_i exF_m) /\ c_total c < 2 ^ 52) as Ht.
  { eexists. split; [left; reflexivity|]. vm_compute. reflexivity. }
  split; [exact Hr|]. split; [exact Ht|]. split; [|exact exB_valid].
  apply (C08_validation _ _ Hr Ht). eexists. vm_compute. reflexivity.
Qed.

(** C41: qis never has undefined behaviour *)
Theorem C41_no_undefined_behaviour : forall L fuel ilist mlist skips why, in_range ilist mlist ->
  py_qis L fuel ilist mlist skips <> UB why.
Proof. exact safe_claim. Qed.
Print Assumptions C41_no_undefined_behaviour.

(** C41: and it returns or raises, whenever skips is at most 2^31 (modulo 2^32) *)
Theorem C41_returns_or_raises : forall L fuel ilist mlist skips, in_range ilist mlist -> u32 skips <= 2 ^ 31 -> (32 <= fuel)%nat ->
  (exists res, py_qis L fuel ilist mlist skips = Ok res) \/ (exists e, py_qis L fuel ilist mlist skips = Throw e).
Proof. exact returns_claim. Qed.
Print Assumptions C41_returns_or_raises.
(** a duplicated dimension, an out of range dimension and inconsistent totals are all within range *)
Definition exG_i : list (ndarray Z) := [ind1 [0; 0]; ind1 [7]].
Definition exG_m : list (ndarray Z) := [NDA [2; 2] [0; 1; 1; 0]; NDA [2] [-1; 1]].
Example C41_ex : in_range exD_i exD_m /\ in_range exG_i exG_m /\
  exists e, py_qis L0 40 exG_i exG_m 0 = Throw e.
Proof.
  split; [exact exD_range|]. split.
  - split; [repeat constructor; vm_compute; congruence|]. intros sizes H. exact (exG_implied sizes H).
  - eexists. vm_compute. reflexivity.
Qed.
