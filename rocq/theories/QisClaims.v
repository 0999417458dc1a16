(** The claims about qis. *)
From Verif Require Import Base Spec SpecFacts NDArray IndexProofs Float64 FloatProofs ArrayOps ArrayProofs Bind BindProofs
  SobolTable SobolSpec Sobol SobolTableProofs SobolProofs SobolClaims Micro Stat Qis SynthSpec MicroProofs PickProofs SampleProofs
  SplitProofs QisProofs StatProofs.
Open Scope Z_scope.

(** * Loops that rewrite every cell *)

Lemma cell_loop {T} szs (body : list Z -> nd T -> outcome (nd T)) (h : list Z -> T -> T) : fits szs ->
  (forall i f, index_in szs i -> body i (mk szs f) = Ok (mk szs (fupd f i (h i (f i))))) ->
  forall f, foldM body (all_indices szs) (mk szs f) = Ok (mk szs (fun i => h i (f i))).
Proof.
  intros Hf Hb f.
  assert (forall l f, NoDup l -> (forall i, In i l -> index_in szs i) ->
    foldM body l (mk szs f) = Ok (mk szs (fun i => if existsb (idx_eqb i) l then h i (f i) else f i))) as G.
  { clear f. induction l as [|x l IH]; intros f Hn Hi; cbn [foldM].
    - reflexivity.
    - inversion Hn; subst. rewrite Hb by (apply Hi; now left). cbn [bind]. rewrite IH by (auto; intros; apply Hi; now right).
      f_equal. apply mk_ext. intros i _. cbn [existsb]. unfold fupd. destruct (idx_eqb i x) eqn:E; cbn [orb]; auto.
      apply idx_eqb_true in E. subst i. destruct (existsb (idx_eqb x) l) eqn:Ex; auto.
      apply existsb_exists in Ex as (y & Hy & Ey). apply idx_eqb_true in Ey. subst y. tauto. }
  rewrite G.
  - f_equal. apply mk_ext. intros i Hi. assert (existsb (idx_eqb i) (all_indices szs) = true) as ->; auto.
    apply existsb_exists. exists i. split; [now apply in_all_indices|apply idx_eqb_refl].
  - apply NoDup_all_indices.
  - intros i. apply in_all_indices.
Qed.

(** * Arguments *)

Lemma range_small ilist mlist c : in_range ilist mlist -> In c (cons_of ilist mlist) -> csmall c.
Proof.
  intros [Hm _] Hc. unfold cons_of in Hc. apply in_map_iff in Hc as ([i m] & <- & Hin). apply in_combine_r in Hin.
  rewrite Forall_forall in Hm. destruct (Hm m Hin) as (Hw & Hp & Hl & Ht). split; [now apply wf_fits|]. auto.
Qed.

Lemma py_lists_cases ilist mlist : in_range ilist mlist ->
  (vectors ilist mlist /\ py_lists to_nd ilist mlist = Ok (map c_dims (cons_of ilist mlist), map nd_of (cons_of ilist mlist))) \/
  (~ vectors ilist mlist /\ exists e, py_lists to_nd ilist mlist = Throw e).
Proof.
  intros [Hm _]. unfold py_lists, vectors. destruct (Nat.eqb_spec (length ilist) (length mlist)) as [El|Nl]; cbn [negb].
  2:{ right. split; [tauto|eauto]. }
  assert ((Forall (fun i => length (shape i) = 1%nat) ilist /\
    mapM (fun '(i, m) => let* iv := to_vector i in let* mv := to_nd m in Ok (iv, mv)) (combine ilist mlist) =
      Ok (map (fun p => (flat (fst p), nd_of (con_of (fst p) (snd p)))) (combine ilist mlist))) \/
    (~ Forall (fun i => length (shape i) = 1%nat) ilist /\ exists e,
      mapM (fun '(i, m) => let* iv := to_vector i in let* mv := to_nd m in Ok (iv, mv)) (combine ilist mlist) = Throw e)) as H.
  { revert mlist Hm El. induction ilist as [|i il IH]; intros [|m ml] Hm El; try discriminate; [left; split; [constructor|reflexivity]|].
    inversion Hm as [|? ? (Hw & Hp & _) Hm']; subst. cbn [combine mapM]. unfold to_vector at 1 3.
    destruct (Nat.eqb_spec (length (shape i)) 1) as [E1|N1]; cbn [bind].
    - rewrite (to_nd_ok 0) by auto. cbn [bind].
      destruct (IH ml Hm' ltac:(simpl in El; lia)) as [[H1 ->]|[H1 (e & ->)]]; cbn [bind].
      + left. split; [now constructor|reflexivity].
      + right. split; [|eauto]. intros H. apply H1. now inversion H.
    - right. split; [|eauto]. intros H. inversion H. tauto. }
  destruct H as [[H ->]|[H (e & ->)]]; cbn [bind].
  - left. split; auto. unfold cons_of. now rewrite !map_map.
  - right. split; [tauto|eauto].
Qed.

(** * The constructor *)

(** the product of the marginals at a state, as computed *)
Definition state_value (cs : list con) (i : list Z) : double :=
  fold_left (fun v c => d_mul v (d_ofZ (c_at c (proj (c_dims c) i)))) cs d_one.

Section New.
Context (cs : list con) (sizes : list Z).
Context (Hsm : forall c, In c cs -> csmall c) (Himp : implied cs sizes) (Hfit : fits sizes).

Lemma make_mappings_ok : make_mappings (map c_dims cs) (IX (repeat 0 (length sizes)) sizes false) =
  Ok (map (fun c => MI (c_dims c) (c_sizes c) false) cs).
Proof.
  unfold make_mappings.
  assert (forall l, (forall c, In c l -> In c cs) -> mapM (mindex_new (IX (repeat 0 (length sizes)) sizes false)) (map c_dims l) =
     Ok (map (fun c => MI (c_dims c) (c_sizes c) false) l)) as G; [|apply G; auto].
  induction l as [|c l IH]; intros H; auto. cbn [map mapM].
  rewrite mindex_new_ok by (apply (implied_valid_dims cs sizes); auto; apply H; now left). cbn [bind].
  rewrite IH by (intros; apply H; now right). cbn [bind].
  destruct Himp as [_ Hp]. destruct (Hp c (H c (or_introl eq_refl))) as [_ ->]. reflexivity.
Qed.

Lemma csv_ok f0 : compute_state_values (map c_dims cs) (map nd_of cs) (mkp sizes f0) = Ok (mk sizes (state_value cs)).
Proof.
  unfold compute_state_values. rewrite sizes_mkp, index_new_ok by auto. cbn [bind].
  rewrite make_mappings_ok. cbn [bind]. rewrite nd_assign_mkp by auto. cbn [bind].
  rewrite sizes_mk, index_loop_spec by auto.
  rewrite (cell_loop sizes _ (fun i v => fold_left (fun v c => d_mul v (d_ofZ (c_at c (proj (c_dims c) i)))) cs v)); auto.
  intros i f Hi.
  assert (forall post pre v, cs = pre ++ post ->
    foldM (fun '(k, mi) sv =>
                let* a := vec_get (map nd_of cs) k in
                let* idx := mindex_read mi i in
                let* m := nd_get a idx in
                let* v := nd_get sv i in
                nd_set sv i (d_mul v (d_ofZ m)))
      (numbered (Z.of_nat (length pre)) (map (fun c => MI (c_dims c) (c_sizes c) false) post)) (mk sizes (fupd f i v)) =
    Ok (mk sizes (fupd f i (fold_left (fun v c => d_mul v (d_ofZ (c_at c (proj (c_dims c) i)))) post v)))) as G.
  { induction post as [|c post IH]; intros pre v E; auto. cbn [map numbered foldM fold_left].
    assert (In c cs) as Hc by (rewrite E; apply in_app_iff; right; now left).
    assert (vec_get (map nd_of cs) (Z.of_nat (length pre)) = Ok (nd_of c)) as ->.
    { rewrite vec_get_margs by (rewrite E, app_length; simpl; lia). rewrite E, Nat2Z.id, app_nth2, Nat.sub_diag by lia. reflexivity. }
    cbn [bind]. rewrite mindex_read_ok by (rewrite (index_in_length _ _ Hi); now apply (implied_valid_dims cs)). cbn [bind].
    unfold nd_of at 1. rewrite nd_get_mk; [|apply (Hsm c Hc)|apply (proj_in cs sizes); auto]. cbn [bind].
    rewrite nd_get_mk by auto. cbn [bind].
    assert (fupd f i v i = v) as -> by (unfold fupd; now rewrite idx_eqb_refl). rewrite nd_set_mk by auto. cbn [bind].
    specialize (IH (pre ++ [c]) (d_mul v (d_ofZ (c_at c (proj (c_dims c) i)))) ltac:(now rewrite <- app_assoc)).
    rewrite app_length in IH. simpl length in IH. replace (Z.of_nat (length pre) + 1) with (Z.of_nat (length pre + 1)) by lia.
    rewrite <- IH. f_equal. apply mk_ext. intros j _. unfold fupd. destruct (idx_eqb j i); auto. }
  specialize (G cs [] (f i) eq_refl). change (Z.of_nat (length (@nil con))) with 0 in G. rewrite <- G. f_equal. apply mk_ext.
  intros j _. unfold fupd. destruct (idx_eqb j i) eqn:E; auto. apply idx_eqb_true in E. now subst.
Qed.

(** the sum of the state values, and the expectation, as computed *)
Definition sv_total : double := fold_left d_add (map (state_value cs) (all_indices sizes)) d_zero.
Definition expectation (pop : Z) (i : list Z) : double := d_mul (state_value cs i) (d_div (d_ofZ pop) sv_total).

Lemma nd_sum_dbl g : nd_sum DblOps (mk sizes g) = Ok (fold_left d_add (map g (all_indices sizes)) d_zero).
Proof.
  rewrite nd_sum_mk by auto. unfold vec_sum. cbn [n_zero n_add DblOps]. generalize d_zero. generalize (map g (all_indices sizes)).
  induction l as [|x l IH]; intros acc; cbn [foldM fold_left]; auto. cbn [bind]. apply IH.
Qed.

Lemma skip_count_cases fuel : forall k n, skip_count fuel k n = Diverge \/ exists r, skip_count fuel k n = Ok r.
Proof. induction fuel as [|f IH]; intros k n; cbn [skip_count]; auto. destruct (_ <? _)%N; eauto. Qed.

Lemma skip_cases cols v s n fuel : Forall valid_directions cols -> view_of cols v s -> (n < 2 ^ 32)%N ->
  (sobol_do_skip fuel s n = Diverge /\ ((fuel < 32)%nat \/ (2 ^ 31 < n)%N)) \/
  (exists s', sobol_do_skip fuel s n = Ok s' /\ view_of cols (view_skip (skipped n) v) s' /\ (n <= 2 ^ 31)%N).
Proof.
  intros Hd Hv Hn. destruct (N.le_gt_cases n (2 ^ 31)) as [Hle|Hgt].
  - destruct (do_skip_ok cols v s n (Nat.max fuel 32) Hd Hv Hle ltac:(lia)) as (s' & E & Hs').
    destruct (Nat.lt_ge_cases fuel 32) as [Hf|Hf].
    + unfold sobol_do_skip, sobol_skip in *. destruct (skip_count fuel 1 n) as [k|e|w|] eqn:Ek.
      * rewrite (skip_count_more fuel (Nat.max fuel 32) 1 n k Ek) in E by lia. right. exists s'. auto.
      * destruct (skip_count_cases fuel 1 n) as [|[]]; congruence.
      * destruct (skip_count_cases fuel 1 n) as [|[]]; congruence.
      * left. cbn [bind]. auto.
    + right. replace (Nat.max fuel 32) with fuel in E by lia. exists s'. auto.
  - left. split; auto. unfold sobol_do_skip, sobol_skip. rewrite skip_count_div by auto. reflexivity.
Qed.

End New.

(** the number of points the constructor consumes *)
Definition start_of (skips : Z) : N := skipped (Z.to_N (u32 skips)).

Lemma u32_range z : 0 <= u32 z < 2 ^ 32. Proof. apply Z.mod_pos_bound. lia. Qed.

(** all the things that can happen when the object is built and solved *)
Lemma qis_cases L fuel ilist mlist skips : in_range ilist mlist -> let cs := cons_of ilist mlist in
  (* rejected *)
  ((exists e, py_qis L fuel ilist mlist skips = Throw e) /\ (vectors ilist mlist -> forall sizes, ~ valid_code cs sizes)) \/
  (* accepted *)
  (vectors ilist mlist /\ exists sizes, valid_code cs sizes /\ fits sizes /\ let pop := pop_of (c_total (hd con0 cs)) in
    ( (* too many dimensions for the generator *)
      ((1111 < length sizes)%nat /\ exists e, py_qis L fuel ilist mlist skips = Throw e) \/
      (* the generator hangs *)
      (py_qis L fuel ilist mlist skips = Diverge /\ ((fuel < 32)%nat \/ 2 ^ 31 < u32 skips)) \/
      (* the population loop is run *)
      (u32 skips <= 2 ^ 31 /\ (length sizes <= 1111)%nat /\ exists cols sb v, length cols = length sizes /\ Forall valid_directions cols /\
        is_table (length sizes) cols /\ view_of cols v sb /\ v_n v = start_of skips /\
        let loop := repeatM pop (qis_step (length sizes) (map c_dims cs)) (QS sb (map nd_of cs) (mk sizes (fun _ => 0)) true) in
        ((exists e, loop = Throw e /\ py_qis L fuel ilist mlist skips = Throw e) \/
         (exists s r, loop = Ok s /\ q_arr s = mk sizes r /\ counts sizes pop r /\ (q_conv s = true <-> left_ok cs sizes r) /\
            pop < 2 ^ 32 /\ (forall c, In c cs -> c_total c = pop) /\
            py_qis L fuel ilist mlist skips =
              Ok (QR (NDA sizes (map r (all_indices sizes))) (NDA sizes (map (expectation cs sizes pop) (all_indices sizes)))
                     (q_conv s) pop (chi_val sizes r (expectation cs sizes pop))
                     (fst (pvalue L (dof_val sizes) (chi_val sizes r (expectation cs sizes pop)))) (deg_val L sizes r))))))).
Proof.
  intros Hr cs. assert (forall c, In c cs -> csmall c) as Hsm by (intros c; now apply range_small).
  unfold py_qis. destruct (py_lists_cases ilist mlist Hr) as [[Hv ->]|[Hv (e & ->)]]; cbn [bind].
  2:{ left. split; [eauto|tauto]. }
  fold cs. unfold qis_new. pose proof Hr as [_ Hprod]. fold cs in Hprod.
  destruct (micro_new_spec (T := Z) cs Hsm Hprod) as [(sizes & Hvc & E)|[Hno (e & E)]]; rewrite E; cbn [bind].
  2:{ left. split; [eauto|]. intros _ sizes Hc. eapply Hno; eauto. }
  right. split; auto. exists sizes. split; auto. pose proof Hvc as (Hl2 & Himp & Hd2 & Hnn & Hpop & Hag).
  assert (fits sizes) as Hfit by (apply (implied_fits cs); auto). split; auto. cbv zeta. cbn [ms_sizes ms_array ms_pop ms_indices nd_sizes].
  set (pop := pop_of (c_total (hd con0 cs))) in *.
  destruct (Nat.le_gt_cases (length sizes) 1111) as [Hdim|Hdim].
  2:{ left. split; auto. unfold sobol_new. destruct (N.ltb_spec (N.of_nat (length sizes)) 1); [lia|].
      destruct (N.ltb_spec 1111 (N.of_nat (length sizes))); [|lia]. cbn [orb bind]. eauto. }
  right. destruct (sobol_new_ok (N.of_nat (length sizes)) 0 (Nat.max fuel 32) ltac:(lia) ltac:(lia) ltac:(lia)) as (cols & s0 & Es & Htab & Hdir & Him & Hview).
  rewrite Nat2N.id in Htab. cbn [N.ltb N.compare] in Hview.
  assert (sobol_new fuel (N.of_nat (length sizes)) 0 = Ok s0) as Es'.
  { unfold sobol_new in *. destruct ((N.of_nat (length sizes) <? 1)%N || (1111 <? N.of_nat (length sizes))%N)%bool; auto. }
  rewrite Es'. cbn [bind]. pose proof (u32_range skips) as Hu.
  destruct (skip_cases cols _ s0 (Z.to_N (u32 skips)) fuel Hdir Hview ltac:(lia)) as [[Ek Hk]|(sb & Ek & Hsb & Hk)]; rewrite Ek; cbn [bind].
  { left. split; auto. destruct Hk; [left; auto|right; lia]. }
  right. split; [lia|]. split; auto. set (v := view_skip (skipped (Z.to_N (u32 skips))) (SV 0 0 (N.of_nat (length sizes)))) in *.
  assert (length cols = length sizes) as Hlc by (destruct Htab; auto).
  exists cols, sb, v. split; auto. split; auto. split; auto. split; auto.
  assert (v_n v = start_of skips) as Hvn.
  { unfold v, view_skip, start_of. cbn [v_n]. pose proof (skipped_le _ Hk). unfold limit. lia. }
  split; auto. rewrite sizes_mkp.
  rewrite nd_new_ok by auto. cbn [bind]. rewrite (csv_ok cs sizes) by auto. cbn [bind].
  rewrite nd_copy_mk by auto. cbn [bind]. rewrite nd_sum_dbl by auto. cbn [bind].
  rewrite sizes_mk, index_loop_spec by auto. fold (sv_total cs sizes).
  rewrite (cell_loop sizes _ (fun _ v => d_mul v (d_div (d_ofZ pop) (sv_total cs sizes)))); auto.
  2:{ intros i f Hi. rewrite nd_get_mk by auto. cbn [bind]. now rewrite nd_set_mk. }
  cbn [bind]. fold (expectation cs sizes pop).
  change (fun i : list Z => d_mul (state_value cs i) (d_div (d_ofZ pop) (sv_total cs sizes))) with (expectation cs sizes pop).
  unfold qis_solve. cbn [q_ms q_sob q_expect ms_array ms_sizes ms_indices ms_pop]. rewrite nd_assign_mkp by auto. cbn [bind].
  rewrite sizes_mk, index_new_ok by auto. cbn [bind]. rewrite make_mappings_ok by auto. cbn [bind].
  pose proof (inv_start cs sizes Hnn cols Hlc sb _ v Hsb eq_refl) as Hinv.
  destruct (loop_safe cs sizes Hsm Himp Hfit Hnn cols Hlc Hdir _ pop _ Hinv) as [(e & El)|(s' & El & Hi)]; rewrite El; cbn [bind].
  { left. exists e. auto. }
  right. destruct Hi as (r & v' & Hv' & Hn' & Hcnt & _ & Ea & Hcv).
  pose proof (view_n_le _ _ _ Hv') as Hle. unfold limit in Hle.
  assert (forall c, In c cs -> 0 <= c_total c < 2 ^ 62) as Ht0.
  { intros c Hc. destruct (Hsm c Hc) as (_ & _ & Ht). unfold c_total. pose proof (total_le_abs (c_sizes c) (c_at c)). split; [|lia].
    apply total_nonneg. intros i Hi. apply (Hnn c Hc i Hi). }
  assert (forall c, In c cs -> c_total c = pop) as Htot.
  { intros c Hc. assert (In (hd con0 cs) cs) as Hh by (destruct cs; [easy|now left]).
    pose proof (Hpop c (hd con0 cs) Hc Hh) as Ep. fold pop in Ep. pose proof (Ht0 c Hc).
    destruct (Z.lt_ge_cases (c_total c) (2 ^ 52)) as [Hs|Hb].
    - now rewrite pop_of_small in Ep by lia.
    - pose proof (pop_of_big (c_total c) ltac:(lia)). lia. }
  assert (0 <= pop) as Hp0.
  { destruct cs as [|c cs']; [simpl in Hl2; lia|]. pose proof (Htot c (or_introl eq_refl)). pose proof (Ht0 c (or_introl eq_refl)). lia. }
  replace (Z.max 0 pop) with pop in * by lia.
  assert (pop < 2 ^ 32) as Hp32 by lia.
  pose proof Hcnt as [Hrn Hrt].
  rewrite Ea, chisq_ok by auto. cbn [bind]. rewrite sizes_mk. destruct (dof_ok sizes Hfit) as [-> _]. cbn [bind].
  rewrite (degeneracy_ok sizes Hfit L r pop Hcnt Hp32). cbn [bind]. rewrite !from_nd_mk by auto. cbn [bind].
  exists s', r. rewrite Ea, from_nd_mk by auto. cbn [bind]. auto 10.
Qed.

(** * The claims *)

Lemma qis_ok_inv L fuel ilist mlist skips res : in_range ilist mlist -> py_qis L fuel ilist mlist skips = Ok res ->
  let cs := cons_of ilist mlist in
  exists sizes r, valid_code cs sizes /\ fits sizes /\ counts sizes (qr_pop res) r /\ (qr_conv res = true <-> left_ok cs sizes r) /\
    (forall c, In c cs -> c_total c = qr_pop res) /\ qr_pop_array res = NDA sizes (map r (all_indices sizes)) /\
    qr_expectation res = NDA sizes (map (expectation cs sizes (qr_pop res)) (all_indices sizes)) /\
    qr_pop res < 2 ^ 32 /\ u32 skips <= 2 ^ 31 /\ (length sizes <= 1111)%nat /\
    qr_chisq res = chi_val sizes r (expectation cs sizes (qr_pop res)) /\
    qr_pvalue res = fst (pvalue L (dof_val sizes) (qr_chisq res)) /\ qr_degeneracy res = deg_val L sizes r.
Proof.
  intros Hr E cs. destruct (qis_cases L fuel ilist mlist skips Hr) as [[(e & E') _]|(Hv & sizes & Hvc & Hf & H)]; [congruence|].
  cbv zeta in H. destruct H as [(_ & e & E')|[(E' & _)|(Hu & Hd & cols & sb & v & _ & _ & _ & _ & _ & H)]]; try congruence.
  destruct H as [(e & _ & E')|(s & r & _ & _ & Hc & Hcv & Hp & Ht & E')]; [congruence|].
  assert (res = QR (NDA sizes (map r (all_indices sizes)))
    (NDA sizes (map (expectation cs sizes (pop_of (c_total (hd con0 cs)))) (all_indices sizes))) (q_conv s) (pop_of (c_total (hd con0 cs)))
    (chi_val sizes r (expectation cs sizes (pop_of (c_total (hd con0 cs)))))
    (fst (pvalue L (dof_val sizes) (chi_val sizes r (expectation cs sizes (pop_of (c_total (hd con0 cs))))))) (deg_val L sizes r)) as ->
    by (fold cs in E'; congruence).
  exists sizes, r. cbn [qr_pop qr_conv qr_pop_array qr_expectation qr_chisq qr_pvalue qr_degeneracy]. auto 20.
Qed.

Lemma total_NDA sizes r : total sizes (entry 0 (NDA sizes (map r (all_indices sizes)))) = total sizes r.
Proof. unfold total. f_equal. apply map_ext_in. intros i Hi. apply in_all_indices in Hi. now apply entry_NDA_map. Qed.

Lemma margin_NDA sizes dims k r : margin sizes dims k (entry 0 (NDA sizes (map r (all_indices sizes)))) = margin sizes dims k r.
Proof.
  unfold margin, sum_where. f_equal. apply map_ext_in. intros i Hi. apply filter_In in Hi as [Hi _]. apply in_all_indices in Hi.
  now apply entry_NDA_map.
Qed.

Lemma population_claim L fuel ilist mlist skips res : in_range ilist mlist -> py_qis L fuel ilist mlist skips = Ok res ->
  let a := qr_pop_array res in
  implied (cons_of ilist mlist) (shape a) /\ wf_array a /\ (forall i, index_in (shape a) i -> 0 <= entry 0 a i) /\
  total (shape a) (entry 0 a) = qr_pop res /\ (forall c, In c (cons_of ilist mlist) -> c_total c = qr_pop res).
Proof.
  intros Hr E. destruct (qis_ok_inv L fuel ilist mlist skips res Hr E) as (sizes & r & Hvc & Hf & [Hrn Hrt] & _ & Ht & -> & _).
  cbn [shape]. split; [apply Hvc|]. split; [apply wf_NDA_map; auto|]. split; [|split; auto; now rewrite total_NDA].
  intros i Hi. rewrite entry_NDA_map by auto. auto.
Qed.

Lemma conv_claim L fuel ilist mlist skips res : in_range ilist mlist -> py_qis L fuel ilist mlist skips = Ok res ->
  (qr_conv res = true <->
   forall c, In c (cons_of ilist mlist) -> meets (shape (qr_pop_array res)) (entry 0 (qr_pop_array res)) c).
Proof.
  intros Hr E. destruct (qis_ok_inv L fuel ilist mlist skips res Hr E) as (sizes & r & Hvc & Hf & Hc & -> & Ht & -> & _).
  cbn [shape]. rewrite (left_ok_meets _ _ ltac:(apply Hvc) r (qr_pop res)) by auto. unfold meets.
  split; intros H c Hin k Hk; specialize (H c Hin k Hk); now rewrite margin_NDA in *.
Qed.

Lemma overfill_claim L fuel ilist mlist skips res : in_range ilist mlist -> py_qis L fuel ilist mlist skips = Ok res ->
  qr_conv res = true -> forall c i, In c (cons_of ilist mlist) -> index_in (shape (qr_pop_array res)) i ->
  entry 0 (qr_pop_array res) i <= c_at c (proj (c_dims c) i) /\
  (c_at c (proj (c_dims c) i) = 0 -> entry 0 (qr_pop_array res) i = 0).
Proof.
  intros Hr E Hcv c i Hc Hi. pose proof (population_claim L fuel ilist mlist skips res Hr E) as (Himp & Hw & Hn & _).
  pose proof (proj1 (conv_claim L fuel ilist mlist skips res Hr E) Hcv c Hc) as Hm. set (a := qr_pop_array res) in *.
  assert (index_in (c_sizes c) (proj (c_dims c) i)) as Hpi by (apply (proj_in (cons_of ilist mlist) (shape a)); auto).
  specialize (Hm _ Hpi).
  assert (entry 0 a i <= margin (shape a) (c_dims c) (proj (c_dims c) i) (entry 0 a)) as Hle.
  { unfold margin, sum_where. replace (entry 0 a i) with (sumZ (map (entry 0 a) [i])) by (simpl; lia). apply sumZ_incl.
    - constructor; [easy|constructor].
    - intros x [<-|[]]. apply filter_In. split; [now apply in_all_indices|apply idx_eqb_refl].
    - intros x Hx. apply filter_In in Hx as [Hx _]. apply Hn. now apply in_all_indices. }
  pose proof (Hn i Hi). split; lia.
Qed.

Lemma valid_code_of_valid cs : (forall c, In c cs -> csmall c) -> valid cs -> forall sizes, implied cs sizes -> valid_code cs sizes.
Proof.
  intros Hsm (Hl & (sizes' & Hi' & Hd) & Hn & Ht & Hp) sizes Hi. rewrite (implied_unique cs sizes sizes' Hi Hi').
  unfold valid_code. do 4 (split; [auto|]). split; auto. intros c c' Hc Hc'. now rewrite (Ht c c').
Qed.

Lemma converge_claim L fuel ilist mlist skips : let cs := cons_of ilist mlist in
  in_range ilist mlist -> vectors ilist mlist -> valid cs -> share_at_most_one cs ->
  (forall sizes, implied cs sizes -> (length sizes <= 1111)%nat) ->
  0 <= skips <= 2 ^ 31 -> (forall c, In c cs -> c_total c + Z.of_N (skipped (Z.to_N skips)) <= 2 ^ 32 - 1) -> (32 <= fuel)%nat ->
  exists res, py_qis L fuel ilist mlist skips = Ok res /\ qr_conv res = true.
Proof.
  intros cs Hr Hvec Hval Htree Hdim Hsk Hlim Hfuel. pose proof Hval as (Hl & (sizes0 & Hi0 & Hd0) & Hn & Htt & Hag).
  assert (forall c, In c cs -> csmall c) as Hsm by (intros c; now apply range_small).
  assert (u32 skips = skips) as Eu by (unfold u32; apply Z.mod_small; lia).
  destruct (qis_cases L fuel ilist mlist skips Hr) as [[_ Hno]|(_ & sizes & Hvc & Hf & H)].
  { exfalso. eapply Hno; auto. eapply valid_code_of_valid; eauto. }
  pose proof Hvc as (_ & Himp & _). cbv zeta in H. fold cs in H.
  destruct H as [(Hd & _)|[(_ & [Hf'|Hs'])|(Hu & _ & cols & sb & v & Hlc & Hdir & _ & Hvw & Hvn & H)]].
  { specialize (Hdim sizes Himp). lia. } { lia. } { rewrite Eu in Hs'. lia. }
  set (pop := pop_of (c_total (hd con0 cs))) in *.
  assert (In (hd con0 cs) cs) as Hh by (destruct cs; [simpl in Hl; lia|now left]).
  assert (0 <= c_total (hd con0 cs)) as Hc0 by (apply total_nonneg; intros i Hi; apply (Hn _ Hh i Hi)).
  pose proof (Hlim _ Hh) as Hlh.
  assert (pop = c_total (hd con0 cs)) as Ep by (unfold pop; apply pop_of_small; lia).
  assert (forall c, In c cs -> c_total c = pop) as Htot by (intros c Hc; rewrite Ep; now apply Htt).
  pose proof (inv_start cs sizes Hn cols Hlc sb _ v Hvw eq_refl) as Hinv.
  unfold start_of in Hvn. rewrite Eu in Hvn.
  destruct (loop_ok cs sizes Hsm Himp Hf Hn cols Hlc Hdir (v_n v) pop (QS sb (map nd_of cs) (mk sizes (fun _ => 0)) true)
    Hag Htree ltac:(lia) Htot ltac:(rewrite Hvn; unfold limit; lia) Hinv eq_refl) as (s' & El & _ & Hcv).
  destruct H as [(e & El' & _)|(s & r & El' & _ & _ & _ & _ & _ & E)]; [congruence|].
  eexists. split; [exact E|]. cbn [qr_conv]. assert (s = s') as -> by congruence. auto.
Qed.

Lemma disjoint_tree cs : disjoint cs -> share_at_most_one cs.
Proof.
  intros [H1 H2]. split; auto. intros pre c post d d' E Hd Hd' (c' & Hc' & Hdc) _. exfalso.
  apply in_split in Hc' as (l1 & l2 & ->). apply (H2 l1 c' l2 c post d); auto. now rewrite E, <- app_assoc.
Qed.

Lemma disjoint_claim L fuel ilist mlist skips : let cs := cons_of ilist mlist in
  in_range ilist mlist -> vectors ilist mlist -> valid cs -> disjoint cs ->
  (forall sizes, implied cs sizes -> (length sizes <= 1111)%nat) ->
  0 <= skips <= 2 ^ 31 -> (forall c, In c cs -> c_total c + Z.of_N (skipped (Z.to_N skips)) <= 2 ^ 32 - 1) -> (32 <= fuel)%nat ->
  exists res, py_qis L fuel ilist mlist skips = Ok res /\ qr_conv res = true.
Proof. intros. apply converge_claim; auto. now apply disjoint_tree. Qed.

Lemma safe_claim L fuel ilist mlist skips why : in_range ilist mlist -> py_qis L fuel ilist mlist skips <> UB why.
Proof.
  intros Hr. destruct (qis_cases L fuel ilist mlist skips Hr) as [[(e & ->) _]|(Hv & sizes & Hvc & Hf & H)]; [congruence|].
  cbv zeta in H. destruct H as [(_ & e & ->)|[(-> & _)|(Hu & Hd & cols & sb & v & _ & _ & _ & _ & _ & H)]]; try congruence.
  destruct H as [(e & _ & ->)|(s & r & _ & _ & Hc & Hcv & Hp & Ht & ->)]; congruence.
Qed.

Lemma returns_claim L fuel ilist mlist skips : in_range ilist mlist -> u32 skips <= 2 ^ 31 -> (32 <= fuel)%nat ->
  (exists res, py_qis L fuel ilist mlist skips = Ok res) \/ (exists e, py_qis L fuel ilist mlist skips = Throw e).
Proof.
  intros Hr Hs Hf'. destruct (qis_cases L fuel ilist mlist skips Hr) as [[(e & ->) _]|(Hv & sizes & Hvc & Hf & H)]; [eauto|].
  cbv zeta in H. destruct H as [(_ & e & ->)|[(-> & [?|?])|(Hu & Hd & cols & sb & v & _ & _ & _ & _ & _ & H)]]; try lia; eauto.
  destruct H as [(e & _ & ->)|(s & r & _ & _ & Hc & Hcv & Hp & Ht & ->)]; eauto.
Qed.

(** C08: the constructor accepts exactly the valid constraints *)
Lemma validation_claim {T} ilist mlist : in_range ilist mlist -> let cs := cons_of ilist mlist in
  (exists c, In c cs /\ c_total c < 2 ^ 52) ->
  ((exists ms, (let* '(indices, margs) := py_lists to_nd ilist mlist in micro_new (T := T) IntMarg indices margs) = Ok ms) <->
   vectors ilist mlist /\ valid cs) /\
  ((exists e, (let* '(indices, margs) := py_lists to_nd ilist mlist in micro_new (T := T) IntMarg indices margs) = Throw e) <->
   ~ (vectors ilist mlist /\ valid cs)).
Proof.
  intros Hr cs Ht. assert (forall c, In c cs -> csmall c) as Hsm by (intros c; now apply range_small).
  pose proof (valid_code_iff cs Hsm Ht) as Hiff. pose proof Hr as [_ Hprod].
  destruct (py_lists_cases ilist mlist Hr) as [[Hv ->]|[Hv (e & ->)]]; cbn [bind]; fold cs; fold cs in Hprod.
  2:{ split; (split; [intros []; try discriminate; tauto|]); intros H; [tauto|eauto]. }
  destruct (micro_new_spec (T := T) cs Hsm Hprod) as [(sizes & Hvc & ->)|[Hno (e & ->)]].
  - assert (valid cs) by (apply Hiff; eauto). split; split; intros; eauto; try tauto. destruct H0. discriminate.
  - assert (~ valid cs) by (intros Hv'; apply Hiff in Hv' as (s & Hs); eapply Hno; eauto). split; split; intros; eauto; try tauto. destruct H0. discriminate.
Qed.

Lemma qis_rejects_claim L fuel ilist mlist skips : in_range ilist mlist -> let cs := cons_of ilist mlist in
  (exists c, In c cs /\ c_total c < 2 ^ 52) -> ~ (vectors ilist mlist /\ valid cs) ->
  exists e, py_qis L fuel ilist mlist skips = Throw e.
Proof.
  intros Hr cs Ht Hno. assert (forall c, In c cs -> csmall c) as Hsm by (intros c; now apply range_small).
  destruct (qis_cases L fuel ilist mlist skips Hr) as [[H _]|(Hv & sizes & Hvc & _)]; auto.
  exfalso. apply Hno. split; auto. apply (valid_code_iff cs Hsm Ht). eauto.
Qed.

(** C06 *)
Lemma qis_skips_claim fuel ilist mlist skips q : in_range ilist mlist ->
  (let* '(indices, margs) := py_lists to_nd ilist mlist in qis_new fuel indices margs skips) = Ok q ->
  exists s' p, sobol_buf (q_sob q) = Ok (s', p) /\
    nth_draw (N.of_nat (length (ms_sizes (q_ms q)))) (skipped (Z.to_N (u32 skips)) + 1) = Ok p.
Proof.
  intros Hr. set (cs := cons_of ilist mlist). assert (forall c, In c cs -> csmall c) as Hsm by (intros c; now apply range_small).
  destruct (py_lists_cases ilist mlist Hr) as [[Hv ->]|[Hv (e & ->)]]; cbn [bind]; [|discriminate].
  fold cs. unfold qis_new. pose proof Hr as [_ Hprod]. fold cs in Hprod.
  destruct (micro_new_spec (T := Z) cs Hsm Hprod) as [(sizes & Hvc & E)|[Hno (e & E)]]; rewrite E; cbn [bind]; [|discriminate].
  cbn [ms_sizes]. pose proof Hvc as (_ & _ & Hd2 & _).
  destruct (Nat.le_gt_cases (length sizes) 1111) as [Hdim|Hdim].
  2:{ unfold sobol_new. destruct (N.ltb_spec (N.of_nat (length sizes)) 1); [lia|].
      destruct (N.ltb_spec 1111 (N.of_nat (length sizes))); [|lia]. cbn [orb bind]. discriminate. }
  destruct (sobol_new_ok (N.of_nat (length sizes)) 0 (Nat.max fuel 32) ltac:(lia) ltac:(lia) ltac:(lia)) as (cols & s0 & Es & Htab & Hdir & Him & Hview).
  rewrite Nat2N.id in Htab. cbn [N.ltb N.compare] in Hview.
  assert (sobol_new fuel (N.of_nat (length sizes)) 0 = Ok s0) as Es'.
  { unfold sobol_new in *. destruct ((N.of_nat (length sizes) <? 1)%N || (1111 <? N.of_nat (length sizes))%N)%bool; auto. }
  rewrite Es'. cbn [bind]. pose proof (u32_range skips) as Hu.
  destruct (skip_cases cols _ s0 (Z.to_N (u32 skips)) fuel Hdir Hview ltac:(lia)) as [[Ek Hk]|(sb & Ek & Hsb & Hk)]; rewrite Ek; cbn [bind]; [discriminate|].
  intros Eq.
  assert (q_sob q = sb /\ ms_sizes (q_ms q) = sizes) as [-> ->].
  { destruct (nd_new _); cbn [bind] in Eq; try discriminate. destruct (compute_state_values _ _ _); cbn [bind] in Eq; try discriminate.
    destruct (nd_copy _ _); cbn [bind] in Eq; try discriminate. destruct (nd_sum _ _); cbn [bind] in Eq; try discriminate.
    destruct (index_loop _ _ _); cbn [bind] in Eq; try discriminate. injection Eq as <-. auto. }
  pose proof (skipped_le _ Hk) as Hsl.
  destruct (sobol_buf_ok cols _ sb Hdir Hsb) as (s' & Eb & _).
  { unfold view_skip. cbn [v_n]. unfold limit. lia. }
  exists s'. eexists. split; [exact Eb|].
  destruct (nth_draw_ok (N.of_nat (length sizes)) (skipped (Z.to_N (u32 skips)) + 1) ltac:(lia) ltac:(unfold limit; lia)) as (cols' & E' & Ht' & _).
  rewrite Nat2N.id in Ht'. rewrite (table_unique (length sizes) cols' cols Hdim Ht' Htab) in E'. rewrite E'. do 2 f_equal.
  unfold view_skip. cbn [v_n]. unfold limit. lia.
Qed.

Lemma qis_skips_equal L fuel ilist mlist s s' : (2 <= fuel)%nat -> 0 <= s <= 2 -> 0 <= s' <= 2 -> py_qis L fuel ilist mlist s = py_qis L fuel ilist mlist s'.
Proof.
  intros Hf Hs Hs'.
  assert (forall x fuel sb, (2 <= fuel)%nat -> 0 <= x <= 2 -> sobol_do_skip fuel sb (Z.to_N (u32 x)) = sobol_do_skip fuel sb 0) as G.
  { intros x f sb Hf' Hx. unfold sobol_do_skip, sobol_skip. destruct f as [|[|f]]; try lia.
    assert (x = 0 \/ x = 1 \/ x = 2) as [Ex|[Ex|Ex]] by lia; subst x; reflexivity. }
  unfold py_qis. destruct (py_lists to_nd ilist mlist) as [[indices margs]| | |]; cbn [bind]; auto. unfold qis_new.
  destruct (micro_new IntMarg indices margs); cbn [bind]; auto.
  destruct (sobol_new fuel (N.of_nat (length (ms_sizes _))) 0); cbn [bind]; auto.
  rewrite (G s), (G s') by auto. reflexivity.
Qed.

Lemma qis_hang_claim L fuel ilist mlist skips : in_range ilist mlist -> vectors ilist mlist -> valid (cons_of ilist mlist) ->
  (forall sizes, implied (cons_of ilist mlist) sizes -> (length sizes <= 1111)%nat) -> 2 ^ 31 < skips < 2 ^ 32 ->
  py_qis L fuel ilist mlist skips = Diverge.
Proof.
  intros Hr Hv Hval Hd Hs. set (cs := cons_of ilist mlist) in *. assert (forall c, In c cs -> csmall c) as Hsm by (intros c; now apply range_small).
  assert (u32 skips = skips) as Eu by (unfold u32; apply Z.mod_small; lia).
  pose proof Hval as (_ & (sizes0 & Hi0 & _) & _).
  destruct (qis_cases L fuel ilist mlist skips Hr) as [[_ Hno]|(_ & sizes & Hvc & Hf & H)].
  { exfalso. eapply Hno; auto. eapply valid_code_of_valid; eauto. }
  cbv zeta in H. fold cs in H. pose proof Hvc as (_ & Himp & _).
  destruct H as [(Hd' & _)|[(E & _)|(Hu & _)]]; auto.
  - specialize (Hd sizes Himp). lia.
  - rewrite Eu in Hu. lia.
Qed.
