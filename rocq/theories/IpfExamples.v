(** Boolean checks by which the examples beside the ipf theorems establish their hypotheses on concrete data. *)
From Coq Require Import QArith Qcanon.
From Flocq Require Import IEEE754.BinarySingleNaN.
From Verif Require Import Base Spec SpecFacts NDArray IndexProofs Float64 ArrayOps ArrayProofs Bind BindProofs Micro Qis
  SynthSpec MicroProofs QisClaims QisExamples Ipf IpfSpec IpfClaims IpfDbl.
Open Scope Z_scope.

Definition shape_b {T} (m : ndarray T) : bool :=
  negb (Nat.eqb (length (shape m)) 0) && forallb (Z.ltb 0) (shape m) &&
  (Z.of_nat (length (flat m)) =? prodZ (shape m)) && (prodZ (shape m) <? 2 ^ 60) && (Z.of_nat (length (shape m)) <? 2 ^ 31).

Lemma shape_by {T} (m : ndarray T) : shape_b m = true -> wf_array m /\ prodZ (shape m) < 2 ^ 60 /\ Z.of_nat (length (shape m)) < 2 ^ 31.
Proof.
  unfold shape_b. rewrite !Bool.andb_true_iff. intros [[[[H1 H2] H3] H4] H5]. split; [|lia].
  split; [intros E; rewrite E in H1; discriminate|]. split; [|lia]. apply Forall_forall. intros n Hn.
  rewrite forallb_forall in H2. specialize (H2 n Hn). lia.
Qed.

Lemma g_range_by {M} (df : M) ilist mlist sizes : forallb shape_b mlist = true -> implied_b (map outline (gcons_of df ilist mlist)) sizes = true ->
  prodZ sizes < 2 ^ 60 -> g_range df ilist mlist.
Proof.
  intros H Hi Hp. apply implied_by in Hi. split.
  - apply Forall_forall. intros m Hm. apply shape_by. rewrite forallb_forall in H. auto.
  - intros s Hs. now rewrite (implied_unique _ _ _ Hs Hi).
Qed.

Fixpoint nodup_b (l : list Z) : bool := match l with [] => true | x :: l' => negb (mem_b x l') && nodup_b l' end.
Lemma nodup_by l : nodup_b l = true -> NoDup l.
Proof.
  induction l as [|x l IH]; simpl; [constructor|]. rewrite Bool.andb_true_iff. intros [H1 H2]. constructor; auto.
  intros Hin. apply mem_b_In in Hin. rewrite Hin in H1. discriminate.
Qed.

Lemma all_proper_by {M} (df : M) ilist mlist sizes : implied_b (map outline (gcons_of df ilist mlist)) sizes = true ->
  forallb (fun c => nodup_b (g_dims c) && Nat.ltb (length (g_dims c)) (length sizes)) (gcons_of df ilist mlist) = true ->
  all_proper df ilist mlist.
Proof.
  intros Hi H s c Hs Hc. apply implied_by in Hi. rewrite (implied_unique _ _ _ Hs Hi). rewrite forallb_forall in H. specialize (H c Hc).
  apply Bool.andb_true_iff in H as [H1 H2]. split; [now apply nodup_by|now apply Nat.ltb_lt].
Qed.

Definition dz (l : list Z) : list double := map d_ofZ l.

(** two 1-d marginals and a 2x2 seed *)
Definition exI_i : list (ndarray Z) := [NDA [1] [0]; NDA [1] [1]].
Definition exI_m : list (ndarray double) := [NDA [2] (dz [3; 7]); NDA [2] (dz [4; 6])].
Definition exI_s : ndarray double := NDA [2; 2] (dz [1; 0; 1; 1]).
Lemma exI_range : d_range exI_i exI_m. Proof. apply (g_range_by _ _ _ [2; 2]); vm_compute; reflexivity. Qed.
Lemma exI_proper : all_proper d_zero exI_i exI_m. Proof. apply (all_proper_by _ _ _ [2; 2]); vm_compute; reflexivity. Qed.
Lemma exI_seed : wf_array exI_s. Proof. apply shape_by. vm_compute. reflexivity. Qed.
Definition exI_out := py_ipf 5 exI_s exI_i exI_m.

(** a seed that already has the marginals *)
Definition exI_fit : ndarray double := NDA [2; 2] (dz [1; 2; 3; 4]).

(** a seed whose first row sums to the smallest positive double *)
Definition exN_s : ndarray double := NDA [2; 2] [d_zero; d_lit 1 (-1074); d_one; d_one].
Definition exN_m : list (ndarray double) := [NDA [2] (dz [1; 1]); NDA [2] (dz [1; 1])].
Lemma exN_range : d_range exI_i exN_m. Proof. apply (g_range_by _ _ _ [2; 2]); vm_compute; reflexivity. Qed.
Lemma exN_proper : all_proper d_zero exI_i exN_m. Proof. apply (all_proper_by _ _ _ [2; 2]); vm_compute; reflexivity. Qed.

(** a marginal on every dimension *)
Definition exW_i : list (ndarray Z) := [NDA [1] [0]; NDA [2] [0; 1]].
Definition exV_m : list (ndarray double) := [NDA [2] (dz [2; 2]); NDA [2; 2] (dz [1; 1; 1; 1])].
Definition exV_s : ndarray double := NDA [2; 2] (dz [1; 1; 1; 1]).
Lemma exW_range : d_range exW_i exV_m. Proof. apply (g_range_by _ _ _ [2; 2]); vm_compute; reflexivity. Qed.

Lemma is_ok_ex {A} (x : outcome A) : is_ok x = true -> exists a, x = Ok a.
Proof. destruct x; try discriminate. eauto. Qed.

Lemma passes_by (ilist : list (ndarray Z)) (mlist : list (ndarray double)) (seed : ndarray double) :
  (match (let* '(indices, margs) := py_lists as_nd ilist mlist in micro_new (T := double) DblMarg indices margs) with
   | Ok ms => idx_eqb (ms_sizes ms) (shape seed) | _ => false end) = true -> passes DblMarg ilist mlist seed.
Proof.
  intros H. unfold passes. destruct (let* '(indices, margs) := py_lists as_nd ilist mlist in micro_new (T := double) DblMarg indices margs) as [ms| | |]; try discriminate.
  exists ms. split; auto. unfold idx_eqb in H. destruct list_eq_dec; auto. discriminate.
Qed.

Lemma exW_passes : passes DblMarg exW_i exV_m exV_s.
Proof. apply passes_by. vm_compute. reflexivity. Qed.

Definition is_div {A} (x : outcome A) : bool := match x with Diverge => true | _ => false end.
Lemma is_div_eq {A} (x : outcome A) : is_div x = true -> x = Diverge.
Proof. destruct x; try discriminate. auto. Qed.

Lemma covering_claim fuel seed ilist mlist : d_range ilist mlist -> wf_array seed -> prodZ (shape seed) < 2 ^ 60 ->
  let cs := dcons_of ilist mlist in passes DblMarg ilist mlist seed ->
  (forall c, In c cs -> NoDup (g_dims c)) -> (exists c, In c cs /\ length (g_dims c) = length (shape seed)) ->
  prodZ (shape seed) < Z.of_nat fuel -> py_ipf fuel seed ilist mlist = Diverge.
Proof.
  exact (ipf_diverges DblMarg (DblScale (fun m => m)) DblErr d_add d_add d_zero d_zero (fun _ _ => eq_refl) dpop_cases (fun _ _ => eq_refl) fuel seed ilist mlist).
Qed.

Lemma exW_diverges fuel : py_ipf fuel exV_s exW_i exV_m = Diverge.
Proof.
  destruct (Nat.le_gt_cases fuel 4) as [H|H].
  - do 5 (destruct fuel as [|fuel]; [apply is_div_eq; vm_compute; reflexivity|]). lia.
  - apply covering_claim.
    + exact exW_range.
    + apply shape_by. vm_compute. reflexivity.
    + vm_compute. reflexivity.
    + exact exW_passes.
    + intros c Hc. apply nodup_by. revert c Hc. apply Forall_forall. repeat constructor.
    + eexists. split; [right; left; reflexivity|]. reflexivity.
    + change (prodZ (shape exV_s)) with 4. lia.
Qed.

(** exact arithmetic *)
Definition exQ_m : list (ndarray Qc) := [NDA [2] [Q2Qc 1; Q2Qc 1]; NDA [2] [Q2Qc 1; Q2Qc 1]].
Definition exQ_s : ndarray Qc := NDA [2; 2] [Q2Qc 1; Q2Qc 2; Q2Qc 3; Q2Qc 4].
Lemma exQ_range : g_range 0%Qc exI_i exQ_m. Proof. apply (g_range_by _ _ _ [2; 2]); vm_compute; reflexivity. Qed.
Lemma exQ_proper : all_proper 0%Qc exI_i exQ_m. Proof. apply (all_proper_by _ _ _ [2; 2]); vm_compute; reflexivity. Qed.

(** a seed no multiple of which can have the marginals *)
Definition exZ_s : ndarray double := NDA [2; 2] (dz [1; 1; 1; 0]).

Lemma cells_by (cs : list (gcon double)) (P : gcon double -> list Z -> bool) :
  forallb (fun c => forallb (P c) (all_indices (g_sizes c))) cs = true -> forall c k, In c cs -> index_in (g_sizes c) k -> P c k = true.
Proof.
  intros H c k Hc Hk. rewrite forallb_forall in H. specialize (H c Hc). rewrite forallb_forall in H. apply H. now apply in_all_indices.
Qed.

Lemma nan_conv_claim : exists seed ilist mlist fuel res, d_range ilist mlist /\ all_proper d_zero ilist mlist /\ wf_array seed /\
  py_ipf fuel seed ilist mlist = Ok res /\ ir_conv res = true /\ ir_max res = d_opp d_max /\
  forall c k, In c (dcons_of ilist mlist) -> index_in (g_sizes c) k ->
  d_ltb (d_abs (d_sub (marginD (shape seed) (g_dims c) k (entry d_zero (ir_array res))) (g_at c k))) d_1em8 = false.
Proof.
  exists exN_s, exI_i, exN_m, 5%nat.
  assert ((match py_ipf 5 exN_s exI_i exN_m with
          | Ok r => ir_conv r && negb (d_ltb (ir_max r) (d_opp d_max) || d_ltb (d_opp d_max) (ir_max r)) &&
                    negb (is_nan (ir_max r)) && forallb (fun c => forallb (fun k =>
                      negb (d_ltb (d_abs (d_sub (marginD (shape exN_s) (g_dims c) k (entry d_zero (ir_array r))) (g_at c k))) d_1em8))
                     (all_indices (g_sizes c))) (dcons_of exI_i exN_m)
          | _ => false end) = true /\ match py_ipf 5 exN_s exI_i exN_m with Ok r => B2SF (ir_max r) = B2SF (d_opp d_max) | _ => False end) as [H H'].
  { vm_compute. split; reflexivity. }
  destruct (py_ipf 5 exN_s exI_i exN_m) as [r| | |]; try discriminate. exists r.
  rewrite !Bool.andb_true_iff in H. destruct H as [[[H1 H2] H3] H4].
  split; [exact exN_range|]. split; [exact exN_proper|]. split; [apply shape_by; vm_compute; reflexivity|]. split; [reflexivity|]. split; [auto|].
  split; [now apply B2SF_inj|]. intros c k Hc Hk. apply Bool.negb_true_iff. revert c k Hc Hk.
  exact (cells_by (dcons_of exI_i exN_m) _ H4).
Qed.

Lemma nan_zero_claim : exists seed ilist mlist fuel res i, d_range ilist mlist /\ all_proper d_zero ilist mlist /\ wf_array seed /\
  (forall i, index_in (shape seed) i -> d_ltb (entry d_zero seed i) d_zero = false) /\
  py_ipf fuel seed ilist mlist = Ok res /\ index_in (shape seed) i /\ d_eqb (entry d_zero seed i) d_zero = true /\
  is_nan (entry d_zero (ir_array res) i) = true.
Proof.
  exists exN_s, exI_i, exN_m, 5%nat.
  assert ((match py_ipf 5 exN_s exI_i exN_m with Ok r => is_nan (entry d_zero (ir_array r) [0; 0]) | _ => false end) = true) as H.
  { vm_compute. reflexivity. }
  destruct (py_ipf 5 exN_s exI_i exN_m) as [r| | |]; try discriminate. exists r, [0; 0].
  split; [exact exN_range|]. split; [exact exN_proper|]. split; [apply shape_by; vm_compute; reflexivity|]. split.
  { intros i Hi. apply in_all_indices in Hi. revert i Hi. apply Forall_forall. repeat constructor. }
  split; [reflexivity|]. split; [repeat constructor; vm_compute; congruence|]. split; [vm_compute; reflexivity|exact H].
Qed.

Lemma diverges_claim : exists seed ilist mlist, passes DblMarg ilist mlist seed /\ forall fuel, py_ipf fuel seed ilist mlist = Diverge.
Proof. exists exV_s, exW_i, exV_m. split; [exact exW_passes|exact exW_diverges]. Qed.

(** a fitting seed whose empty row holds a negative zero *)
Definition exM_s : ndarray double := NDA [2; 2] [d_one; d_ofZ 2; d_opp d_zero; d_zero].
Definition exM_m : list (ndarray double) := [NDA [2] (dz [3; 0]); NDA [2] (dz [1; 2])].

Lemma negative_zero_claim : exists seed ilist mlist fuel res i, d_range ilist mlist /\ all_proper d_zero ilist mlist /\ wf_array seed /\
  (forall i, index_in (shape seed) i -> is_finite (entry d_zero seed i) = true /\ d_ltb (entry d_zero seed i) d_zero = false) /\
  (forall c k, In c (dcons_of ilist mlist) -> index_in (g_sizes c) k ->
     d_eqb (marginD (shape seed) (g_dims c) k (entry d_zero seed)) (g_at c k) = true) /\
  py_ipf fuel seed ilist mlist = Ok res /\ index_in (shape seed) i /\
  entry d_zero seed i = d_opp d_zero /\ entry d_zero (ir_array res) i = d_zero.
Proof.
  exists exM_s, exI_i, exM_m, 5%nat.
  assert (match py_ipf 5 exM_s exI_i exM_m with Ok r => B2SF (entry d_zero (ir_array r) [1; 0]) = B2SF d_zero | _ => False end) as H.
  { vm_compute. reflexivity. }
  destruct (py_ipf 5 exM_s exI_i exM_m) as [r| | |]; try contradiction. exists r, [1; 0].
  split; [apply (g_range_by _ _ _ [2; 2]); vm_compute; reflexivity|].
  split; [apply (all_proper_by _ _ _ [2; 2]); vm_compute; reflexivity|]. split; [apply shape_by; vm_compute; reflexivity|]. split.
  { intros i Hi. apply in_all_indices in Hi. revert i Hi. apply Forall_forall. repeat constructor. }
  split; [apply cells_by; vm_compute; reflexivity|].
  split; [reflexivity|]. split; [repeat constructor; vm_compute; congruence|].
  split; [reflexivity|]. apply B2SF_inj. exact H.
Qed.
