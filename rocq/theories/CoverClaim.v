(** C83: while the fitted tables do not overshoot what is left, qisi hands out no individual too many. *)
From Coq Require Import ZArith Reals Lra Lia List Bool Classical.
From Flocq Require Import Core.Core IEEE754.BinarySingleNaN Plus_error.
From Verif Require Import Base Spec NDArray Float64 FloatProofs FloatExt RealSpec SpecFacts IndexProofs ArrayOps ArrayProofs Bind BindProofs SobolSpec Sobol SobolProofs SobolClaims Micro MicroProofs Stat Qis
  SynthSpec SplitProofs QisProofs QisExamples Ipf IpfSpec IpfFitSpec IntegeriseProofs Qisi QisiClaims QuantSpec QuantProofs SynthiSpec Synthi IntegeriseSpec IntegeriseDbl CoverSpec.
Open Scope R_scope.

(** subtracting one is exact below 2^53 *)
Lemma sub_one x : is_finite x = true -> 1 <= B2R x < p2 53 -> fin (d_sub x d_one) (B2R x - 1).
Proof.
  intros F [H1 H2]. apply d_sub_exact; [now apply fin_B2R|exact fin_one| |].
  2:{ rewrite Rabs_pos_eq by lra. pose proof (bpow_lt radix2 53 1024 ltac:(lia)). lra. }
  pose proof (generic_format_B2R 53 1024 x) as G. rewrite fx_FLT in G. apply FLT_format_generic in G; [|reflexivity].
  destruct G as [[m e] E Hm He]. cbn [Fnum Fexp] in Hm, He. unfold F2R in E. cbn [Fnum Fexp] in E.
  destruct (Z_lt_le_dec 0 e) as [P|P].
  - assert (B2R x - 1 = IZR (m * 2 ^ e - 1)) as Ex by (rewrite minus_IZR, mult_IZR, IZR_p2, E by lia; ring).
    rewrite Ex in *. apply repr_Z. assert (0 <= m * 2 ^ e - 1 < 2 ^ 53)%Z; [|rewrite Z.abs_eq; lia].
    split; [apply le_IZR|apply lt_IZR; rewrite IZR_p2 by lia]; lra.
  - rewrite fx_FLT. apply generic_format_FLT. exists (Float radix2 (m - 2 ^ (- e)) e); cbn [Fnum Fexp]; auto.
    + unfold F2R. cbn [Fnum Fexp]. rewrite minus_IZR, IZR_p2, E by lia. rewrite Rmult_minus_distr_r, <- bpow_plus, Z.add_opp_diag_l. reflexivity.
    + assert (2 ^ (- e) <= m)%Z.
      { apply le_IZR. rewrite IZR_p2 by lia. apply Rmult_le_reg_r with (p2 e); [apply bpow_gt_0|]. rewrite <- bpow_plus, Z.add_opp_diag_l. simpl (p2 0). lra. }
      assert (0 < 2 ^ (- e))%Z by (apply Z.pow_pos_nonneg; lia). change (Zpower radix2 53) with (2 ^ 53)%Z in *. lia.
Qed.

(** subtracting one from less gives something negative *)
Lemma sub_below x : is_finite x = true -> 0 <= B2R x < 1 -> d_ltb (d_sub x d_one) d_zero = true.
Proof.
  intros F [H0 H1].
  assert (RN (B2R x - 1) <= 0) as Hle by (apply RN_le_repr; [apply repr_0|lra]).
  assert (-1 <= RN (B2R x - 1)) as Hge by (apply RN_ge_repr; [apply (repr_Z (-1)); lia|lra]).
  assert (RN (B2R x - 1) <> 0) as Hn.
  { unfold RN, Rminus. apply round_plus_neq_0; [exact fexp_valid| |apply valid_rnd_N|apply generic_format_B2R|apply (repr_Z (-1)); lia|lra].
    rewrite fx_FLT. apply FLT_exp_monotone || typeclasses eauto. }
  apply (d_ltb_true _ _ _ _ (d_sub_round x d_one _ _ (fin_B2R _ F) fin_one ltac:(rewrite Rabs_left1 by lra; pose proof (bpow_lt radix2 0 1024 ltac:(lia)); simpl (p2 0) in *; lra)) fin_zero). lra.
Qed.

Section Draws.
Variables (cs : list con) (sizes : list Z) (seed : list Z -> double) (points : nat -> list N).
Hypotheses (Hc0 : exists c, In c cs /\ forall i, index_in sizes i -> index_in (c_sizes c) (proj (c_dims c) i))
  (Hbig : forall c k, In c cs -> index_in (c_sizes c) k -> (c_at c k < 2 ^ 52)%Z).

(** the tables fitted on the way, for some individual to come, do not overshoot *)
Definition covered (people : list (list Z)) : Prop :=
  forall p x q t, people = p ++ x :: q -> refit cs sizes seed (left_of p) t -> ~ overshoots cs sizes (left_of p) t.

Lemma covered_prefix people x : covered (people ++ [x]) -> covered people.
Proof. intros H p y q t -> Hr. apply (H p y (q ++ [x]) t); auto. now rewrite <- app_assoc. Qed.

Lemma over_not rest g : ~ overshoots cs sizes rest g ->
  (forall i, index_in sizes i -> is_finite (g i) = true /\ 0 <= B2R (g i)) /\
  forall c k, In c cs -> index_in (c_sizes c) k -> marginR sizes (c_dims c) k (fun i => B2R (g i)) < IZR (rest c k) + 1.
Proof.
  intros H. split.
  - intros i Hi. destruct (is_finite (g i)) eqn:F; [|exfalso; apply H; left; eauto]. split; auto.
    destruct (Rlt_le_dec (B2R (g i)) 0); auto. exfalso; apply H; left; eauto.
  - intros c k Hc Hk. apply Rnot_le_lt. intros Hl. apply H. right. eauto.
Qed.

Lemma tally_nn dims k people : (0 <= tally dims k people)%Z. Proof. unfold tally. lia. Qed.
Lemma occ_nn x people : (0 <= occurrences x people)%Z. Proof. unfold occurrences. lia. Qed.

Lemma cell_bound p t i : ~ overshoots cs sizes (left_of p) t -> index_in sizes i -> B2R (t i) < p2 53.
Proof.
  intros Ho Hi. destruct (over_not _ _ Ho) as [Hn Hm]. destruct Hc0 as (c & Hc & Hp). pose proof (Hp i Hi) as Hk.
  specialize (Hm c _ Hc Hk). eapply Rle_lt_trans; [|eapply Rlt_le_trans; [exact Hm|]].
  - apply (sumR_ge1 (fun i => B2R (t i))).
    + intros j Hj. apply filter_In in Hj as [Hj _]. apply Hn. now apply in_all_indices.
    + apply filter_In. split; [now apply in_all_indices|apply idx_eqb_refl].
  - rewrite <- IZR_p2 by lia. rewrite <- plus_IZR. apply IZR_le. pose proof (Hbig c _ Hc Hk). unfold left_of. pose proof (tally_nn (c_dims c) (proj (c_dims c) i) p). lia.
Qed.

(** the table since the last fit: lowered once per individual *)
Definition since (t g : list Z -> double) (q : list (list Z)) : Prop :=
  forall i, index_in sizes i -> is_finite (g i) = true /\ B2R (g i) = B2R (t i) - IZR (occurrences i q) /\ 0 <= B2R (g i).

Lemma since_start p t g : ~ overshoots cs sizes (left_of p) t -> (forall i, index_in sizes i -> g i = t i) -> since t g [].
Proof.
  intros Ho Hg i Hi. destruct (over_not _ _ Ho) as [Hn _]. destruct (Hn i Hi). rewrite Hg by auto. split; auto. split; auto.
  change (occurrences i []) with 0%Z. lra.
Qed.

Lemma draws_inv people g : synthesised cs sizes seed points people g -> covered people ->
  Forall (index_in sizes) people /\ exists p q t, people = p ++ q /\ refit cs sizes seed (left_of p) t /\
    (q = [] /\ (forall i, index_in sizes i -> g i = t i) \/ q <> [] /\ since t g q).
Proof.
  induction 1 as [g Hr|people g x g' Hs IH Hsel Hlt Hg|people g x g' Hs IH Hsel Hlt Hr]; intros Hcov.
  - split; [constructor|]. exists [], [], g. auto.
  - destruct (IH (covered_prefix _ _ Hcov)) as (Hp & p & q & t & E & Hr & Hi). pose proof (selected_index _ _ _ _ Hsel) as Ix.
    split; [apply Forall_app; split; auto|]. exists p, (q ++ [x]), t. split; [now rewrite E, app_assoc|]. split; auto.
    right. split; [now destruct q|].
    assert (~ overshoots cs sizes (left_of p) t) as Ho.
    { destruct q as [|y q]; [apply (Hcov p x [] t)|apply (Hcov p y (q ++ [x]) t)]; auto; rewrite E, <- app_assoc; reflexivity. }
    assert (since t g q) as Hq by (destruct Hi as [[-> Hi]|[_ Hi]]; auto; now apply (since_start p)).
    intros i Hii. rewrite (Hg i Hii). rewrite occ_snoc. unfold inc, fupd. destruct (Hq i Hii) as (F & V & P).
    destruct (idx_eqb i x) eqn:Ei; [|auto]. apply idx_eqb_true in Ei. subst i.
    assert (1 <= B2R (g x)) as H1.
    { apply Rnot_lt_le. intros Hl. rewrite (sub_below (g x) F (conj P Hl)) in Hlt. discriminate. }
    assert (B2R (g x) < p2 53) as H2.
    { rewrite V. pose proof (cell_bound p t x Ho Ix). pose proof (IZR_le _ _ (occ_nn x q)). lra. }
    destruct (sub_one (g x) F (conj H1 H2)) as [F' V']. split; auto. rewrite V', plus_IZR. split; lra.
  - destruct (IH (covered_prefix _ _ Hcov)) as (Hp & _). pose proof (selected_index _ _ _ _ Hsel) as Ix.
    split; [apply Forall_app; split; auto|]. exists (people ++ [x]), [], g'. split; [now rewrite app_nil_r|]. auto.
Qed.

(** nothing is overdrawn *)
Lemma draws_left people g : synthesised cs sizes seed points people g -> covered people ->
  forall c k, In c cs -> index_in (c_sizes c) k -> (0 <= left_of people c k)%Z.
Proof.
  intros Hs Hcov c k Hc Hk. destruct (draws_inv people g Hs Hcov) as (Hp & p & q & t & -> & Hr & Hi).
  destruct Hi as [[-> Hi]|[Nq Hi]]; [rewrite app_nil_r; now apply Hr|]. destruct q as [|y q0] eqn:Eq; [easy|]. rewrite <- Eq in *.
  destruct (over_not _ _ (Hcov p y q0 t ltac:(now rewrite Eq) Hr)) as [_ Hm]. specialize (Hm c k Hc Hk).
  apply Forall_app in Hp as [_ Hq].
  assert (IZR (tally (c_dims c) k q) <= marginR sizes (c_dims c) k (fun i => B2R (t i))) as Hle.
  { rewrite <- (margin_occ sizes) by auto. unfold margin, sum_where, marginR. rewrite <- sumR_IZR. apply sumR_le. intros i Hin. apply filter_In in Hin as [Hin _].
    apply in_all_indices in Hin. destruct (Hi i Hin) as (_ & V & P). lra. }
  assert (tally (c_dims c) k q < left_of p c k + 1)%Z as Hz by (apply lt_IZR; rewrite plus_IZR; lra).
  unfold left_of in *. unfold tally in *. rewrite filter_app, app_length. lia.
Qed.
End Draws.

(** a table of numbers within the tolerance does not overshoot *)
Lemma margin_close sizes dims k g (r : Z) : (prodZ sizes * (r + 1) <= 2 ^ 50)%Z -> (0 <= r < 2 ^ 50)%Z ->
  (forall i, index_in sizes i -> is_finite (g i) = true /\ 0 <= B2R (g i)) ->
  d_leb d_1em8 (d_abs (d_sub (marginD sizes dims k g) (d_ofZ r))) = false -> Forall (fun n => 0 <= n)%Z sizes ->
  marginR sizes dims k (fun i => B2R (g i)) < IZR r + 1.
Proof.
  intros Hn Hr Hg Hle Hsz. set (cells := filter (fun i => idx_eqb (proj dims i) k) (all_indices sizes)).
  assert (Forall nonneg_fin (map g cells)) as Hnn.
  { apply Forall_forall. intros x Hx. apply in_map_iff in Hx as (i & <- & Hi). apply filter_In in Hi as [Hi _]. apply in_all_indices in Hi.
    destruct (Hg i Hi). now split. }
  assert (Z.of_nat (length cells) <= prodZ sizes)%Z as Hlen.
  { unfold cells. rewrite <- length_all_indices by auto. apply inj_le. generalize (all_indices sizes). induction l as [|i l IH]; simpl; [lia|]. destruct idx_eqb; simpl; lia. }
  assert (fin (d_ofZ r) (IZR r)) as Fr by (apply d_ofZ_exact; lia).
  set (S := marginD sizes dims k g) in *.
  assert (is_nan S = false) as HN.
  { unfold S, marginD. apply fold_add_notnan; [reflexivity|]. intros x Hx. rewrite Forall_forall in Hnn. apply (Hnn x Hx). }
  destruct (is_finite S) eqn:FS.
  2:{ exfalso. destruct S as [s|s| |s m e B]; try discriminate. destruct (d_ofZ r) as [s'|s'| |s' m' e' B'] eqn:Er; try (destruct Fr; discriminate); cbn in Hle; discriminate. }
  destruct (sum_err (map g cells) Hnn FS) as (H0 & _ & He).
  { rewrite map_length. nia. }
  change (fold_left d_add (map g cells) d_zero) with S in H0, He. rewrite map_length, map_map in He.
  change (sumR (map (fun i => B2R (g i)) cells)) with (marginR sizes dims k (fun i => B2R (g i))) in He.
  assert (B2R S < IZR r + / 2) as HS.
  { apply Rnot_le_lt. intros Hl. pose proof (IZR_le _ _ (proj1 Hr)) as Pr.
    assert (/ 2 <= RN (B2R S - IZR r)) as Hge by (apply RN_ge_repr; [apply (repr_p2 (-1)); lia|lra]).
    assert (RN (B2R S - IZR r) <= B2R S) as Hub by (apply RN_le_repr; [apply generic_format_B2R|lra]).
    pose proof (fin_bound S _ (fin_B2R _ FS)) as HB. rewrite Rabs_pos_eq in HB by lra.
    pose proof (d_sub_round S (d_ofZ r) _ _ (fin_B2R _ FS) Fr ltac:(rewrite Rabs_pos_eq; lra)) as Fs.
    apply d_abs_R in Fs. rewrite Rabs_pos_eq in Fs by lra.
    assert (fin d_1em8 (B2R d_1em8)) as F8 by (apply fin_B2R; reflexivity).
    assert (d_leb d_1em8 (d_abs (d_sub S (d_ofZ r))) = true) as Ht; [|congruence].
    apply (d_leb_true _ _ _ _ F8 Fs). apply Rle_trans with (/ 2); [|exact Hge].
    assert (fin (d_lit 1 (-1)) (/ 2)) as Fh by (split; [reflexivity|vm_compute; lra]).
    apply (d_leb_true _ _ _ _ F8 Fh). vm_compute. reflexivity. }
  set (T := marginR sizes dims k (fun i => B2R (g i))) in *. set (n := IZR (Z.of_nat (length cells))) in *.
  assert (0 <= T) as PT by (apply sumR_nonneg; unfold cells in *; rewrite <- (map_map g B2R); now apply nonneg_B2R).
  assert (n * (IZR r + 1) <= p2 50) as Hnr.
  { unfold n. rewrite <- plus_IZR, <- mult_IZR, <- IZR_p2 by lia. apply IZR_le. nia. }
  assert (0 <= n) as Pn by (apply IZR_le; lia). pose proof (IZR_le _ _ (proj1 Hr)) as Pr.
  assert (p2 50 * ulpr = / 8) as Eu by (rewrite <- bpow_plus; simpl; lra). pose proof ulpr_pos as [Pu _].
  apply Rabs_le_inv in He. set (nu := n * ulpr) in *.
  assert (0 <= nu) as Pnu by (apply Rmult_le_pos; lra).
  assert (nu * (IZR r + 1) <= / 8) as Hq.
  { rewrite <- Eu. unfold nu. replace (n * ulpr * (IZR r + 1)) with (n * (IZR r + 1) * ulpr) by ring. apply Rmult_le_compat_r; lra. }
  assert (nu <= / 8) as Hq1 by (apply Rle_trans with (nu * (IZR r + 1)); [|exact Hq]; rewrite <- (Rmult_1_r nu) at 1; apply Rmult_le_compat_l; lra).
  replace (2 * n * ulpr * T) with (2 * (nu * T)) in He by (unfold nu; ring).
  destruct He as [He _]. apply Rnot_le_lt. intros Hge. assert ((IZR r + 1) * (1 - 2 * nu) <= T * (1 - 2 * nu)) by (apply Rmult_le_compat_r; lra). lra.
Qed.

(** * The Python function *)
Lemma qisi_draws L fuel seed ilist mlist skips res : qisi_range ilist mlist seed -> qisi_good fuel ilist mlist seed ->
  py_qisi L fuel seed ilist mlist skips = Ok res -> qr_conv res = false ->
  let cs := cons_of ilist mlist in let sizes := shape seed in let s := entry d_zero seed in
  exists points people g p x q t, Z.of_nat (length people) = qr_pop res /\
    (forall t, (t < length people)%nat -> nth_draw (N.of_nat (length sizes)) (N.of_nat t + 1) = Ok (points t)) /\
    synthesised cs sizes s points people g /\ (forall i, index_in sizes i -> entry 0%Z (qr_pop_array res) i = occurrences i people) /\
    people = p ++ x :: q /\ refit cs sizes s (left_of p) t /\ overshoots cs sizes (left_of p) t.
Proof.
  intros Hr Hg E Hf cs sizes s. destruct (synthi_claim L fuel seed ilist mlist skips res Hr Hg E) as (points & people & g & Hl & Hpt & _ & Hs & Ho).
  fold cs sizes s in Hs, Ho, Hpt.
  exists points, people, g. enough (~ covered cs sizes s people) as Hn.
  { apply NNPP. intros H. apply Hn. intros p x q t Ep Ht Hov. apply H. exists p, x, q, t. auto 10. }
  intros Hcov. assert (qr_conv res = true); [|congruence].
  pose proof (qisi_cases L fuel seed ilist mlist skips Hr) as Hcs. cbv zeta in Hcs. rewrite E in Hcs.
  destruct Hcs as (_ & Hvc & Hfi & _ & Ht & H32 & r & Hc & Hcv & Ea & _). fold cs in Hvc, Ht, Hcv. fold sizes in Hvc, Hfi, Hc, Hcv, Ea. pose proof Hvc as (Hle & Himp & _ & Hnn & _).
  apply Hcv. intros c k Hc' Hk.
  assert (forall i, index_in sizes i -> r i = occurrences i people) as Er.
  { intros i Hi. rewrite <- Ho by auto. rewrite Ea. now rewrite entry_NDA_map. }
  assert (exists c, In c cs /\ forall i, index_in sizes i -> index_in (c_sizes c) (proj (c_dims c) i)) as H0.
  { exists c. split; auto. intros i Hi. rewrite <- (proj2 (proj2 Himp c Hc')). apply index_in_valid_proj; auto. now apply (implied_valid_dims cs). }
  assert (forall c k, In c cs -> index_in (c_sizes c) k -> (c_at c k < 2 ^ 52)%Z) as Hb.
  { intros d j Hd Hj. pose proof (le_total (c_sizes d) (c_at d) j (fun j Hj => Hnn d Hd j Hj) Hj) as H. fold (c_total d) in H. rewrite (Ht d Hd) in H. lia. }
  destruct (draws_inv cs sizes s points H0 Hb people g Hs Hcov) as (Hin & _).
  unfold rem. rewrite (margin_ext _ _ _ _ (fun i => occurrences i people)) by auto. rewrite margin_occ by auto.
  exact (draws_left cs sizes s points H0 Hb people g Hs Hcov c k Hc' Hk).
Qed.

Lemma qisi_gives_up L fuel seed ilist mlist skips res : qisi_range ilist mlist seed -> qisi_good fuel ilist mlist seed ->
  py_qisi L fuel seed ilist mlist skips = Ok res -> qr_conv res = false -> (prodZ (shape seed) * (qr_pop res + 1) <= 2 ^ 50)%Z ->
  let cs := cons_of ilist mlist in let sizes := shape seed in let s := entry d_zero seed in
  exists points people g p x q t, Z.of_nat (length people) = qr_pop res /\
    (forall t, (t < length people)%nat -> nth_draw (N.of_nat (length sizes)) (N.of_nat t + 1) = Ok (points t)) /\
    synthesised cs sizes s points people g /\ (forall i, index_in sizes i -> entry 0%Z (qr_pop_array res) i = occurrences i people) /\
    people = p ++ x :: q /\ refit cs sizes s (left_of p) t /\
    (gives_up cs sizes s (left_of p) t \/ exists i, index_in sizes i /\ (is_finite (t i) = false \/ B2R (t i) < 0)).
Proof.
  intros Hr Hg E Hf Hbig cs sizes s.
  destruct (qisi_draws L fuel seed ilist mlist skips res Hr Hg E Hf) as (points & people & g & p & x & q & t & Hl & Hpt & Hs & Ho & Ep & Ht & Hov).
  fold cs sizes s in Hpt, Hs, Ho, Ht, Hov. exists points, people, g, p, x, q, t. do 6 (split; auto).
  destruct (classic (exists i, index_in sizes i /\ (is_finite (t i) = false \/ B2R (t i) < 0))) as [Hx|Hx]; [now right|left].
  destruct Hov as [Hov|(c & k & Hc & Hk & Hov)]; [contradiction|].
  assert (forall i, index_in sizes i -> is_finite (t i) = true /\ 0 <= B2R (t i)) as Hnn.
  { intros i Hi. destruct (is_finite (t i)) eqn:F; [|exfalso; apply Hx; eauto]. split; auto.
    destruct (Rlt_le_dec (B2R (t i)) 0); auto. exfalso. apply Hx. eauto. }
  destruct Ht as (Hleft & n & Hn & Hbefore & Hlast & Hti).
  pose proof (qisi_cases L fuel seed ilist mlist skips Hr) as Hcs. cbv zeta in Hcs. rewrite E in Hcs.
  destruct Hcs as (_ & Hvc & Hfi & _ & Htot & H32 & _). fold cs in Hvc, Htot. fold sizes in Hvc, Hfi, Hbig. pose proof Hvc as (Hle & Himp & _ & Hcn & _).
  pose proof (fits_pos _ Hfi) as Hpos.
  assert (left_of p c k <= qr_pop res)%Z as Hlp.
  { pose proof (le_total (c_sizes c) (c_at c) k (fun j Hj => Hcn c Hc j Hj) Hk) as H. fold (c_total c) in H. rewrite (Htot c Hc) in H.
    unfold left_of. pose proof (tally_nn (c_dims c) k p). lia. }
  assert (1 <= prodZ sizes)%Z as Hp1 by (pose proof (prodZ_pos _ Hpos); lia).
  pose proof (Hleft c k Hc Hk) as Hl0. unfold gives_up. set (ds := map _ cs) in *.
  assert (~ fits_all sizes ds (fitted sizes ds s n)) as Hnf.
  { intros Hfa. specialize (Hfa (GC (c_dims c) (c_sizes c) (fun k => d_ofZ (left_of p c k))) k).
    assert (d_leb d_1em8 (d_abs (d_sub (marginD sizes (c_dims c) k t) (d_ofZ (left_of p c k)))) = false) as Hm.
    { replace (marginD sizes (c_dims c) k t) with (marginD sizes (c_dims c) k (fitted sizes ds s n)).
      - apply Hfa; [|exact Hk]. unfold ds. apply in_map_iff. eauto.
      - unfold marginD. f_equal. apply map_ext_in. intros i Hi. apply filter_In in Hi as [Hi _]. apply in_all_indices in Hi. now rewrite Hti. }
    apply margin_close in Hm; auto; [lra|nia|nia|]. eapply Forall_impl; [|exact Hpos]. cbn. intros; lia. }
  destruct Hlast as [Hlast| ->]; [contradiction|]. split; auto.
  intros j Hj. destruct (Nat.eq_dec j 1000) as [->|Nj]; auto. apply Hbefore. lia.
Qed.
