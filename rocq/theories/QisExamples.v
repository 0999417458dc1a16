(** Boolean checks by which the examples beside the synthesis theorems establish their hypotheses on concrete data. *)
From Coq Require Import Reals Psatz.
From Flocq Require Import Core.Core IEEE754.BinarySingleNaN.
From Verif Require Import Base Spec SpecFacts NDArray IndexProofs Float64 FloatProofs ArrayOps ArrayProofs Bind BindProofs Micro Stat Qis
  SynthSpec MicroProofs QisClaims RealSpec.
Open Scope Z_scope.

(** a mathematical library for evaluating the model *)
Definition L0 : libm := {| l_lgamma := fun x => x; l_log := fun x => x; l_exp := fun x => x; l_tgamma := fun x => x |}.

Definition mem_b (d : Z) (l : list Z) : bool := existsb (Z.eqb d) l.
Lemma mem_b_In d l : mem_b d l = true <-> In d l.
Proof.
  unfold mem_b. rewrite existsb_exists. split.
  - intros (x & Hx & E). apply Z.eqb_eq in E. now subst.
  - intros H. exists d. split; auto. apply Z.eqb_refl.
Qed.

Definition implied_b (cs : list con) (sizes : list Z) : bool :=
  forallb (fun c => forallb (fun d => (0 <=? d) && (d <? Z.of_nat (length sizes))) (c_dims c)) cs &&
  forallb (fun d => existsb (fun c => mem_b d (c_dims c)) cs) (zrange (Z.of_nat (length sizes))) &&
  forallb (fun c => Nat.eqb (length (c_dims c)) (length (c_sizes c)) && idx_eqb (proj (c_dims c) sizes) (c_sizes c)) cs.

Lemma implied_by cs sizes : implied_b cs sizes = true -> implied cs sizes.
Proof.
  unfold implied_b. rewrite !Bool.andb_true_iff. intros [[H1 H2] H3]. rewrite forallb_forall in H1, H2, H3. split.
  - intros d. split.
    + intros (c & Hc & Hd). specialize (H1 c Hc). rewrite forallb_forall in H1. specialize (H1 d Hd). lia.
    + intros Hd. specialize (H2 d). rewrite existsb_exists in H2. destruct H2 as (c & Hc & Hm).
      * now apply in_zrange.
      * exists c. split; auto. now apply mem_b_In.
  - intros c Hc. specialize (H3 c Hc). apply Bool.andb_true_iff in H3 as [E1 E2]. split; [now apply Nat.eqb_eq|].
    unfold idx_eqb in E2. destruct list_eq_dec; auto. discriminate.
Qed.

Definition range_b (mlist : list (ndarray Z)) : bool :=
  forallb (fun m => negb (Nat.eqb (length (shape m)) 0) && forallb (Z.ltb 0) (shape m) &&
                    (Z.of_nat (length (flat m)) =? prodZ (shape m)) && (prodZ (shape m) <? 2 ^ 60) &&
                    (Z.of_nat (length (shape m)) <? 2 ^ 31) && (total (shape m) (fun k => Z.abs (entry 0 m k)) <? 2 ^ 62)) mlist.

Lemma in_range_by ilist mlist sizes : range_b mlist = true -> implied_b (cons_of ilist mlist) sizes = true -> prodZ sizes < 2 ^ 60 ->
  in_range ilist mlist.
Proof.
  intros H Hi Hp. apply implied_by in Hi. split.
  - apply Forall_forall. intros m Hm. unfold range_b in H. rewrite forallb_forall in H. specialize (H m Hm).
    rewrite !Bool.andb_true_iff in H. destruct H as [[[[[H1 H2] H3] H4] H5] H6]. split; [|split; [lia|split; lia]].
    split; [intros E; rewrite E in H1; discriminate|]. split; [|lia]. apply Forall_forall. intros n Hn.
    rewrite forallb_forall in H2. specialize (H2 n Hn). lia.
  - intros s Hs. now rewrite (implied_unique _ _ _ Hs Hi).
Qed.

(** the same when the constraints imply no shape at all *)
Definition is_ok {A} (x : outcome A) : bool := match x with Ok _ => true | _ => false end.

Lemma valid_by ilist mlist : in_range ilist mlist ->
  existsb (fun c => c_total c <? 2 ^ 52) (cons_of ilist mlist) = true ->
  is_ok (let* '(indices, margs) := py_lists to_nd ilist mlist in micro_new (T := Z) IntMarg indices margs) = true ->
  vectors ilist mlist /\ valid (cons_of ilist mlist).
Proof.
  intros Hr Ht H. apply existsb_exists in Ht as (c & Hc & Hlt).
  apply Z.ltb_lt in Hlt.
  apply (proj1 (validation_claim (T := Z) ilist mlist Hr (ex_intro _ c (conj Hc Hlt)))).
  destruct (let* '(indices, margs) := py_lists to_nd ilist mlist in micro_new (T := Z) IntMarg indices margs); try discriminate. eauto.
Qed.

Fixpoint nodup_b (l : list Z) : bool := match l with [] => true | x :: l' => negb (mem_b x l') && nodup_b l' end.
Lemma nodup_by l : nodup_b l = true -> NoDup l.
Proof.
  induction l as [|x l IH]; simpl; [constructor|]. rewrite Bool.andb_true_iff. intros [H1 H2]. constructor; auto.
  intros Hx. apply mem_b_In in Hx. rewrite Hx in H1. discriminate.
Qed.

(** each constraint has at most [n] dimensions among those seen before *)
Fixpoint shared_b (n : nat) (seen : list Z) (cs : list con) : bool :=
  match cs with
  | [] => true
  | c :: cs' => nodup_b (c_dims c) && Nat.leb (length (filter (fun d => mem_b d seen) (c_dims c))) n &&
                shared_b n (seen ++ c_dims c) cs'
  end.

Lemma shared_nodup n cs : forall seen, shared_b n seen cs = true -> forall c, In c cs -> NoDup (c_dims c).
Proof.
  induction cs as [|c cs IH]; simpl; intros seen H c' [].
  - subst. rewrite !Bool.andb_true_iff in H. now apply nodup_by.
  - rewrite !Bool.andb_true_iff in H. eapply IH; eauto. apply H.
Qed.

Lemma shared_split n cs : forall seen, shared_b n seen cs = true -> forall pre c post, cs = pre ++ c :: post ->
  (length (filter (fun d => mem_b d (seen ++ flat_map c_dims pre)) (c_dims c)) <= n)%nat.
Proof.
  induction cs as [|c0 cs IH]; simpl; intros seen H pre c post E; [destruct pre; discriminate|].
  rewrite !Bool.andb_true_iff in H. destruct H as [[H1 H2] H3]. destruct pre as [|c1 pre]; simpl in E; injection E as -> ->.
  - simpl. rewrite app_nil_r. now apply Nat.leb_le.
  - simpl. rewrite app_assoc. eapply IH; eauto.
Qed.

Lemma disjoint_by cs : shared_b 0 [] cs = true -> disjoint cs.
Proof.
  intros H. split; [now apply shared_nodup with 0%nat []|]. intros pre c mid c' post d E Hd Hd'.
  pose proof (shared_split 0 cs [] H (pre ++ c :: mid) c' post ltac:(rewrite E, <- app_assoc; reflexivity)) as Hl.
  assert (In d (filter (fun d => mem_b d ([] ++ flat_map c_dims (pre ++ c :: mid))) (c_dims c'))) as Hin.
  { apply filter_In. split; auto. apply mem_b_In. simpl. apply in_flat_map. exists c. split; auto. apply in_or_app. right. now left. }
  destruct filter; [easy|simpl in Hl; lia].
Qed.

Lemma share_by cs : shared_b 1 [] cs = true -> share_at_most_one cs.
Proof.
  intros H. split; [now apply shared_nodup with 1%nat []|]. intros pre c post d d' E Hd Hd' (c1 & H1 & H1') (c2 & H2 & H2').
  pose proof (shared_split 1 cs [] H pre c post E) as Hl.
  assert (forall x ci, In ci pre -> In x (c_dims ci) -> In x (c_dims c) -> In x (filter (fun d => mem_b d ([] ++ flat_map c_dims pre)) (c_dims c))) as G.
  { intros x ci Hci Hx Hx'. apply filter_In. split; auto. apply mem_b_In. simpl. apply in_flat_map. eauto. }
  pose proof (G d c1 H1 H1' Hd) as I1. pose proof (G d' c2 H2 H2' Hd') as I2.
  destruct filter as [|x [|y l]]; simpl in *; try lia; intuition congruence.
Qed.

(** two disjoint marginals; three marginals in a chain; three overlapping in a ring; a repeated dimension *)
Definition ind1 (l : list Z) : ndarray Z := NDA [Z.of_nat (length l)] l.
Definition exA_i : list (ndarray Z) := [ind1 [0]; ind1 [1]].
Definition exA_m : list (ndarray Z) := [NDA [3] [1; 2; 3]; NDA [2] [4; 2]].
Definition exB_i : list (ndarray Z) := [ind1 [0; 1]; ind1 [1; 2]].
Definition exB_m : list (ndarray Z) := [NDA [2; 2] [1; 2; 3; 4]; NDA [2; 2] [2; 2; 3; 3]].
Definition exC_i : list (ndarray Z) := [ind1 [0; 1]; ind1 [1; 2]; ind1 [0; 2]].
Definition exC_m : list (ndarray Z) := [NDA [2; 2] [1; 2; 3; 4]; NDA [2; 2] [2; 2; 3; 3]; NDA [2; 2] [1; 2; 4; 3]].
Definition exD_i : list (ndarray Z) := [ind1 [0; 0]; ind1 [1]].
Definition exD_m : list (ndarray Z) := [NDA [2; 2] [0; 1; 1; 0]; NDA [2] [1; 1]].

Lemma exA_range : in_range exA_i exA_m.
Proof. apply (in_range_by _ _ [3; 2]); vm_compute; reflexivity. Qed.
Lemma exB_range : in_range exB_i exB_m.
Proof. apply (in_range_by _ _ [2; 2; 2]); vm_compute; reflexivity. Qed.
Lemma exC_range : in_range exC_i exC_m.
Proof. apply (in_range_by _ _ [2; 2; 2]); vm_compute; reflexivity. Qed.
Lemma exD_range : in_range exD_i exD_m.
Proof. apply (in_range_by _ _ [2; 2]); vm_compute; reflexivity. Qed.
Lemma exA_valid : vectors exA_i exA_m /\ valid (cons_of exA_i exA_m).
Proof. apply valid_by; [apply exA_range|vm_compute; reflexivity|vm_compute; reflexivity]. Qed.
Lemma exB_valid : vectors exB_i exB_m /\ valid (cons_of exB_i exB_m).
Proof. apply valid_by; [apply exB_range|vm_compute; reflexivity|vm_compute; reflexivity]. Qed.
Lemma exC_valid : vectors exC_i exC_m /\ valid (cons_of exC_i exC_m).
Proof. apply valid_by; [apply exC_range|vm_compute; reflexivity|vm_compute; reflexivity]. Qed.
Lemma exD_valid : vectors exD_i exD_m /\ valid (cons_of exD_i exD_m).
Proof. apply valid_by; [apply exD_range|vm_compute; reflexivity|vm_compute; reflexivity]. Qed.
Lemma implied_dims cs s : implied_b cs s = true -> (length s <= 1111)%nat -> forall s', implied cs s' -> (length s' <= 1111)%nat.
Proof. intros H Hl s' Hs'. now rewrite (implied_unique _ _ _ Hs' (implied_by _ _ H)). Qed.

(** two marginals sharing a dimension *)
Definition exE_i : list (ndarray Z) := [ind1 [0; 1]; ind1 [1; 2]].
Definition exE_m : list (ndarray Z) := [NDA [1; 2] [1; 3]; NDA [2; 1] [1; 3]].
Lemma exE_range : in_range exE_i exE_m.
Proof. apply (in_range_by _ _ [1; 2; 1]); vm_compute; reflexivity. Qed.
Lemma exE_valid : vectors exE_i exE_m /\ valid (cons_of exE_i exE_m).
Proof. apply valid_by; [apply exE_range|vm_compute; reflexivity|vm_compute; reflexivity]. Qed.
Lemma exE_share : share_at_most_one (cons_of exE_i exE_m).
Proof. apply share_by. vm_compute. reflexivity. Qed.

Definition cell00 : list Z := [0; 0].

(** whenever qis returns, the expectation it reports for the first cell is 0.4, while the marginal there is 1 *)
Lemma exE_expectation L fuel skips res : py_qis L fuel exE_i exE_m skips = Ok res -> exists c,
  In c (cons_of exE_i exE_m) /\ c_at c cell00 = 1 /\
  (marginR (shape (qr_expectation res)) (c_dims c) cell00 (entryR (qr_expectation res)) < 1 / 2)%R.
Proof.
  intros E. destruct (qis_ok_inv L fuel exE_i exE_m skips res exE_range E) as (sizes & r & Hvc & Hf & Hc & _ & Ht & _ & -> & _).
  assert (sizes = [1; 2; 1]) as ->.
  { apply (implied_unique (cons_of exE_i exE_m)); [apply Hvc|]. apply implied_by. vm_compute. reflexivity. }
  set (c := con_of (ind1 [0; 1]) (NDA [1; 2] [1; 3])).
  assert (In c (cons_of exE_i exE_m)) as Hin by now left.
  assert (qr_pop res = 4) as -> by (rewrite <- (Ht c Hin); reflexivity).
  exists c. split; auto. split; [reflexivity|].
  cbn [shape]. change (c_dims c) with [0%Z; 1%Z]. set (e := NDA _ _).
  assert (marginR [1%Z; 2%Z; 1%Z] [0%Z; 1%Z] cell00 (entryR e) = entryR e [0%Z; 0%Z; 0%Z] + 0)%R as -> by reflexivity.
  assert (B2SF (entry d_zero e [0; 0; 0]) = SpecFloat.S754_finite false 7205759403792794 (-54)) as He by (vm_compute; reflexivity).
  unfold entryR. rewrite <- SF2R_B2SF, He. cbn [SF2R]. unfold F2R. simpl. lra.
Qed.

Lemma ok_by {A} (x : outcome A) (p : A -> bool) : match x with Ok r => p r | _ => false end = true -> exists r, x = Ok r /\ p r = true.
Proof. destruct x; intros H; try discriminate. eauto. Qed.

Lemma exE_ring_free : exists res, py_qis L0 40 exE_i exE_m 0 = Ok res /\ qr_conv res = true.
Proof. apply ok_by. vm_compute. reflexivity. Qed.

Lemma overlap_claim : exists ilist mlist, in_range ilist mlist /\ vectors ilist mlist /\ valid (cons_of ilist mlist) /\
  share_at_most_one (cons_of ilist mlist) /\ exists res, py_qis L0 40 ilist mlist 0 = Ok res /\ qr_conv res = true /\
  exists c k, In c (cons_of ilist mlist) /\ index_in (c_sizes c) k /\ c_at c k = 1 /\
    (marginR (shape (qr_expectation res)) (c_dims c) k (entryR (qr_expectation res)) < 1 / 2)%R.
Proof.
  exists exE_i, exE_m. split; [exact exE_range|]. split; [apply exE_valid|]. split; [apply exE_valid|]. split; [exact exE_share|].
  destruct exE_ring_free as (res & E & Hc). exists res. split; auto. split; auto.
  destruct (exE_expectation _ _ _ _ E) as (c & Hin & H1 & H2). exists c, cell00. split; auto. split; auto.
  destruct Hin as [<-|[<-|[]]]; repeat constructor; vm_compute; congruence.
Qed.

Lemma repeated_claim : exists ilist mlist res, in_range ilist mlist /\ vectors ilist mlist /\
  valid (cons_of ilist mlist) /\
  (forall pre c mid c' post d, cons_of ilist mlist = pre ++ c :: mid ++ c' :: post -> In d (c_dims c) -> In d (c_dims c') -> False) /\
  py_qis L0 40 ilist mlist 0 = Ok res /\ qr_conv res = false.
Proof.
  exists exD_i, exD_m.
  destruct (ok_by (py_qis L0 40 exD_i exD_m 0) (fun r => negb (qr_conv r))) as (res & E0 & Hc); [vm_compute; reflexivity|].
  exists res. split; [exact exD_range|]. split; [apply exD_valid|]. split; [apply exD_valid|]. split.
  - intros pre c mid c' post d E Hd Hd'. destruct pre as [|x pre].
    + injection E as <- E. destruct mid as [|y mid].
      * injection E as <- E. simpl in Hd, Hd'. lia.
      * injection E as <- E. destruct mid; discriminate.
    + injection E as _ E. destruct pre as [|y pre].
      * injection E as _ E. destruct mid; discriminate.
      * injection E as _ E. destruct pre; discriminate.
  - split; auto. now destruct (qr_conv res).
Qed.

Lemma exG_implied sizes : implied (cons_of [ind1 [0; 0]; ind1 [7]] [NDA [2; 2] [0; 1; 1; 0]; NDA [2] [-1; 1]]) sizes -> prodZ sizes < 2 ^ 60.
Proof.
  intros [H _]. exfalso. assert (0 <= 7 < Z.of_nat (length sizes)) as H7.
  { apply H. eexists. split; [right; left; reflexivity|]. now left. }
  assert (exists c, In c (cons_of [ind1 [0; 0]; ind1 [7]] [NDA [2; 2] [0; 1; 1; 0]; NDA [2] [-1; 1]]) /\ In 1 (c_dims c)) as (c & Hc & H1) by (apply H; lia).
  destruct Hc as [<-|[<-|[]]]; simpl in H1; lia.
Qed.
