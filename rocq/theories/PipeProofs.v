(** C94: ipf followed by integerise. *)
From Coq Require Import ZArith Reals Lra Lia List Bool Psatz.
From Flocq Require Import Core.Core IEEE754.BinarySingleNaN.
From Verif Require Import Base Spec SpecFacts NDArray Float64 FloatProofs FloatExt RealSpec IndexProofs ArrayOps Bind Micro MicroDbl Stat Qis SynthSpec Ipf IpfSpec IpfDbl IpfClaims
  Qisi QisiClaims Integerise IntegeriseSpec IntegeriseDbl IntegeriseProofs IntegeriseNd IntegeriseClaims IntQisiSpec IntQisi ArrayProofs BindProofs IntegeriseRound QisClaims QuantProofs ArrayClaims PeopleSpec PeopleProofs PipeSpec IpfExamples IntegeriseExamples QisExamples.
Open Scope Z_scope.

(** a difference that is rounded to less than 10^-8 is less than 2^-26 *)
Lemma close_whole x z : is_finite x = true -> (0 <= B2R x <= p2 52)%R -> Z.abs z <= 2 ^ 53 ->
  d_ltb (d_abs (d_sub x (d_ofZ z))) d_1em8 = true -> (Rabs (B2R x - IZR z) < p2 (-26))%R.
Proof.
  intros F Hb Hz E. pose proof (d_ofZ_exact z Hz) as Fz.
  assert (Rabs (B2R x - IZR z) <= p2 54)%R as Hs.
  { assert (Rabs (IZR z) <= p2 53)%R. { rewrite <- abs_IZR, <- IZR_p2 by lia. now apply IZR_le. }
    assert (p2 54 = 2 * p2 53)%R as E1 by (change 54 with (1 + 53); rewrite bpow_plus; reflexivity).
    assert (p2 53 = 2 * p2 52)%R as E2 by (change 53 with (1 + 52); rewrite bpow_plus; reflexivity).
    rewrite (Rabs_minus_sym). unfold Rminus. eapply Rle_trans; [apply Rabs_triang|]. rewrite Rabs_Ropp, (Rabs_pos_eq (B2R x)) by apply Hb. lra. }
  assert (Rabs (RN (B2R x - IZR z)) < p2 1024)%R as Hr.
  { rewrite RN_abs. eapply Rle_lt_trans; [apply (RN_le_repr _ (p2 54)); [now apply repr_p2|exact Hs]|]. now apply bpow_lt. }
  pose proof (d_abs_R _ _ (d_sub_round _ _ _ _ (fin_B2R _ F) Fz Hr)) as Fa.
  apply (d_ltb_true _ _ _ _ Fa fin_1em8) in E.
  destruct (Rlt_le_dec (Rabs (B2R x - IZR z)) (p2 (-26))) as [H|H]; auto. exfalso.
  assert (p2 (-26) <= Rabs (RN (B2R x - IZR z)))%R as G. { rewrite RN_abs. apply RN_ge_repr; auto. now apply repr_p2. }
  assert (IZR 6044629098073146 * p2 (-79) < p2 (-26))%R as Hlt.
  { replace (-26) with (53 + -79) by reflexivity. rewrite bpow_plus. apply Rmult_lt_compat_r; [apply bpow_gt_0|].
    rewrite <- IZR_p2 by lia. apply IZR_lt. reflexivity. }
  lra.
Qed.

Lemma slice_marginD a d k : slice_sum a d k = marginD (shape a) [d] [k] (entry d_zero a).
Proof.
  unfold slice_sum, marginD. f_equal. f_equal. apply filter_ext. intros i. unfold proj. cbn [map].
  apply eq_true_iff_eq. rewrite idx_eqb_true, Z.eqb_eq. split; [now intros ->|congruence].
Qed.

Lemma p2_26 : (p2 (-26) = / 67108864)%R. Proof. reflexivity. Qed.

Lemma near x z z' : (Rabs (x - IZR z) < / 2)%R -> (Rabs (x - IZR z') < p2 (-26))%R -> z = z'.
Proof.
  intros H H'. rewrite p2_26 in H'. assert (Rabs (IZR z - IZR z') < 1)%R as L.
  { replace (IZR z - IZR z')%R with (- (x - IZR z) + (x - IZR z'))%R by ring. eapply Rle_lt_trans; [apply Rabs_triang|]. rewrite Rabs_Ropp. lra. }
  rewrite <- minus_IZR, <- abs_IZR in L. apply lt_IZR in L. lia.
Qed.

Section Pipe.
Context (fuel : nat) (seed : ndarray double) (ilist : list (ndarray Z)) (mlist : list (ndarray double)) (res : ipf_result double) (m : Z -> Z -> Z).
Context (Hr : d_range ilist mlist) (Hp : all_proper d_zero ilist mlist) (Hw : wf_array seed) (Hs : prodZ (shape seed) < 2 ^ 60)
  (Hf : prodZ (shape seed) < Z.of_nat fuel) (E : py_ipf fuel seed ilist mlist = Ok res) (Hc : ir_conv res = true).
Let a := ir_array res.
Context (Ha : nd_range a) (Hm : whole_axes (dcons_of ilist mlist) (shape a) m).

Lemma pipe_shape : shape a = shape seed.
Proof. unfold a. destruct (ipf_ok fuel seed ilist mlist Hr Hp Hw Hs Hf res E) as (f' & pop & _ & _ & _ & _ & -> & _). reflexivity. Qed.

Lemma pipe_close d k : 0 <= d < Z.of_nat (length (shape a)) -> 0 <= k < nth (Z.to_nat d) (shape a) 0 ->
  (Rabs (B2R (slice_sum a d k) - IZR (m d k)) < p2 (-26))%R.
Proof.
  intros Hd Hk. destruct (Hm d Hd) as (c & Hin & Ed & Es & Hat). destruct (Hat k Hk) as [Eat Hz].
  destruct (slice_range a d k Ha) as [F Hb]. apply close_whole; auto. rewrite <- Eat.
  assert (index_in (g_sizes c) [k]) as Hi by (rewrite Es; constructor; auto; constructor).
  pose proof (ipf_conv_claim fuel seed ilist mlist Hr Hp Hw Hs Hf res E c [k] Hin Hi) as H. cbv zeta in H.
  fold a in H. rewrite Ed, <- pipe_shape, <- slice_marginD in H. apply H; auto. now destruct (slice_sum a d k).
Qed.

Lemma pipe_conv L fuel' b conv rmse : py_integerise L fuel' a = Ok (b, conv, rmse) ->
  shape b = shape seed /\ (forall i, index_in (shape seed) i -> 0 <= entry 0 b i) /\
  (conv = true <-> forall d k, 0 <= d < Z.of_nat (length (shape seed)) -> 0 <= k < nth (Z.to_nat d) (shape seed) 0 ->
     margin (shape seed) [d] [k] (entry 0 b) = m d k).
Proof.
  intros Ei. destruct (nd_conv_claim L fuel' a b conv rmse Ha Ei) as (Sb & _ & Hn & _ & Hcv). rewrite <- pipe_shape. split; auto. split; auto.
  rewrite Hcv. split; intros H d k Hd Hk; specialize (H d k Hd Hk).
  - eapply near; [exact H|]. now apply pipe_close.
  - unfold rounds_to. rewrite H. pose proof (pipe_close d k Hd Hk) as X. rewrite p2_26 in X. lra.
Qed.

Lemma pipe_qisi L fuel' : let n := Z.of_nat (length (shape seed)) in
  ((forall z, (/ 10000 < Rabs (B2R (array_sum a) - IZR z))%R) /\
     py_integerise L fuel' a = Throw (RuntimeError "value is not an integer (within tolerance)")) \/
  py_integerise L fuel' a =
    (let* r := py_qisi L fuel' a (axes n) (axis_sums (shape seed) m) 0 in Ok (qr_pop_array r, qr_conv r, array_rms (qr_pop_array r) a)).
Proof.
  intros n. unfold n. rewrite <- pipe_shape. clear n. pose proof (int_qisi_claim L fuel' a Ha) as H. cbv zeta in H.
  destruct H as [(x & [->|(d & k & Hd & Hk & ->)] & Hx & Ei)|(m' & Hm' & _ & _ & Ei)].
  - left. now split.
  - exfalso. pose proof (pipe_close d k Hd Hk) as X. specialize (Hx (m d k)). rewrite p2_26 in X. lra.
  - right. rewrite Ei. replace (axis_sums (shape a) m) with (axis_sums (shape a) m'); auto.
    unfold axis_sums. apply map_ext_in. intros d Hd. apply in_zrange in Hd. cbv zeta. f_equal. apply map_ext_in. intros k Hk. apply in_zrange in Hk.
    apply (near (B2R (slice_sum a d k))); [|now apply pipe_close]. eapply Rle_lt_trans; [now apply Hm'|]. lra.
Qed.

(** the total is near an integer too, if there are few categories and the rounding of the additions is small *)
Lemma pipe_total d : 0 <= d < Z.of_nat (length (shape a)) -> nth (Z.to_nat d) (shape a) 0 <= 1024 ->
  prodZ (shape a) * (sumZ (map (m d) (zrange (nth (Z.to_nat d) (shape a) 0))) + 1) <= 2 ^ 36 ->
  exists z, (Rabs (B2R (array_sum a) - IZR z) < / 10000)%R.
Proof.
  intros Hd He HNS. set (n := nth (Z.to_nat d) (shape a) 0) in *. destruct (total_facts a Ha) as (_ & _ & Ha2 & _). cbv zeta in Ha2.
  pose proof (ext_pos a Ha d Hd) as Hpos. fold n in Hpos. pose proof (T_small a Ha) as [HT0 _]. pose proof (fits_prod _ (a_fits a Ha)) as HN.
  assert (prodZ (shape a) <= 2 ^ 40) as HN' by apply Ha. apply IZR_le in He. apply IZR_le in HNS. rewrite mult_IZR, plus_IZR in HNS.
  set (T := sumR (map B2R (flat a))) in *. set (w := (2 * IZR (prodZ (shape a)) * ulpr)%R) in *.
  assert (w <= / 2)%R as Hw2.
  { unfold w. apply Rle_trans with (p2 (-12)); [|apply Rle_trans with (p2 (-1)); [apply bpow_le; lia|simpl; lra]]. apply (p2_prod_le 2 _ 1 40); lia. }
  assert (w * T <= / 2 * T)%R as HwT by (apply Rmult_le_compat_r; auto).
  set (cells := fun k => map (entry d_zero a) (filter (fun i => nth (Z.to_nat d) i 0 =? k) (all_indices (shape a)))).
  assert (Rabs (sumR (map (fun k => IZR (m d k)) (zrange n)) - sumR (map (fun k => sumR (map B2R (cells k))) (zrange n))) <=
    w * sumR (map (fun k => sumR (map B2R (cells k))) (zrange n)) + IZR (Z.of_nat (length (zrange n))) * / 67108864)%R as Herr.
  { apply sumR_err. intros k Hk. apply in_zrange in Hk. destruct (slice_facts a Ha d k) as (_ & _ & H1 & _). cbv zeta in H1. fold (cells k) in H1. fold w in H1.
    pose proof (pipe_close d k Hd Hk) as Hrk. rewrite p2_26 in Hrk. apply Rabs_le_inv in H1. apply Rabs_lt_inv in Hrk. apply Rabs_le. lra. }
  assert (sumR (map (fun k => sumR (map B2R (cells k))) (zrange n)) = T) as Ec by exact (cells_sum a Ha d Hd). rewrite Ec, sumR_IZR in Herr.
  rewrite length_zrange, Z2Nat.id in Herr by lia. set (S := sumZ (map (m d) (zrange n))) in *. apply Rabs_le_inv in Herr.
  assert (T <= 2 * (IZR S + 1))%R as HTS by lra.
  assert (IZR (prodZ (shape a)) * T <= IZR (2 ^ 37))%R as HNT.
  { apply Rle_trans with (IZR (prodZ (shape a)) * (2 * (IZR S + 1)))%R; [apply Rmult_le_compat_l; auto; apply IZR_le; lia|].
    change (2 ^ 37) with (2 * 2 ^ 36). rewrite mult_IZR. lra. }
  assert (w * T <= / 32768)%R as HNu.
  { unfold w. replace (2 * IZR (prodZ (shape a)) * ulpr * T)%R with (2 * ulpr * (IZR (prodZ (shape a)) * T))%R by ring.
    apply Rle_trans with (2 * ulpr * IZR (2 ^ 37))%R; [apply Rmult_le_compat_l; auto; pose proof ulpr_pos; lra|].
    rewrite IZR_p2 by lia. rewrite Rmult_assoc. rewrite <- bpow_plus. change (-53 + 37) with (-16). change (p2 (-16)) with (/ 65536)%R. lra. }
  exists S. apply Rabs_le_inv in Ha2. apply Rabs_lt. lra.
Qed.

Lemma pipe_same d : 0 <= d < Z.of_nat (length (shape seed)) -> nth (Z.to_nat d) (shape seed) 0 <= 1024 ->
  prodZ (shape seed) * (sumZ (map (m d) (zrange (nth (Z.to_nat d) (shape seed) 0))) + 1) <= 2 ^ 36 -> forall L fuel',
  py_integerise L fuel' a =
    (let* r := py_qisi L fuel' a (axes (Z.of_nat (length (shape seed)))) (axis_sums (shape seed) m) 0 in
     Ok (qr_pop_array r, qr_conv r, array_rms (qr_pop_array r) a)).
Proof.
  intros Hd He HT L fuel'. destruct (pipe_qisi L fuel') as [[H _]|H]; auto. exfalso.
  rewrite <- pipe_shape in Hd, He, HT. destruct (pipe_total d Hd He HT) as (z & Hz). specialize (H z). fold a in H. lra.
Qed.
(** the people of the integer table are as many as in each of the marginals *)
Lemma pipe_count L fuel' b conv rmse : py_integerise L fuel' a = Ok (b, conv, rmse) ->
  total (shape a) (entry 0 b) < 2 ^ 61 /\ forall d, 0 <= d < Z.of_nat (length (shape a)) -> total (shape a) (entry 0 b) = sumZ (map (m d) (zrange (nth (Z.to_nat d) (shape a) 0))).
Proof.
  intros Ei. pose proof (nd_cases a Ha L fuel') as H. rewrite Ei in H. destruct H as (r & -> & _ & Hrd & _ & Ht & _). rewrite total_NDA. split.
  - assert (0 <= 0 < Z.of_nat (length (shape a))) as H0 by (destruct Ha as (_ & H2 & _); lia).
    rewrite (Ht 0 H0). eapply Z.lt_trans; [apply (m_total a Ha 0 H0)|lia].
  - intros d Hd. rewrite (Ht d Hd). f_equal. apply map_ext_in. intros k Hk. apply in_zrange in Hk.
    specialize (Hrd d k Hd Hk). destruct (checked_round_inv _ _ Hrd) as (x & [_ V] & _ & Hx). rewrite <- V in Hx.
    apply (near (B2R (slice_sum a d k))); [|now apply pipe_close]. eapply Rle_lt_trans; [exact Hx|]. lra.
Qed.

Lemma pipe_people L fuel' b conv rmse : py_integerise L fuel' a = Ok (b, conv, rmse) -> Forall (fun n => n <= 2 ^ 31) (shape seed) ->
  exists cols n, flatten b = Ok cols /\ length cols = length (shape seed) /\ Forall (fun col => Z.of_nat (length col) = n) cols /\
    (forall p, Z.of_nat p < n -> index_in (shape seed) (person cols p)) /\
    (forall d, 0 <= d < Z.of_nat (length (shape seed)) -> n = sumZ (map (m d) (zrange (nth (Z.to_nat d) (shape seed) 0)))) /\
    (conv = true <-> forall d k, 0 <= d < Z.of_nat (length (shape seed)) -> 0 <= k < nth (Z.to_nat d) (shape seed) 0 ->
       head_count cols n [d] [k] = m d k).
Proof.
  intros Ei. pose proof (pipe_count _ _ _ _ _ Ei) as [Hs61 Ht]. pose proof (pipe_conv _ _ _ _ _ Ei) as (Sb & Hn & Hcv).
  destruct (nd_conv_claim L fuel' a b conv rmse Ha Ei) as (_ & Hwb & _). rewrite pipe_shape in Hs61, Ht. rewrite <- Sb in Hs61, Ht, Hn, Hcv |- *. intros H31.
  assert (prodZ (shape b) < 2 ^ 60) as Hp60 by (apply fits_prod, (wf_fits b); auto; rewrite Sb, <- pipe_shape; destruct Ha as (_ & _ & H & _); lia).
  destruct (flatten_claim b Hwb Hp60 H31 Hn Hs61) as (rows & Ef & Hl & Hin & Hco & _). rewrite table_0 in Ef.
  exists (table 0 (length (shape b)) rows), (total (shape b) (entry 0 b)). rewrite <- Hl. split; [exact Ef|].
  split; [unfold table; now rewrite map_length, seq_length|].
  split; [unfold table; apply Forall_map, Forall_forall; intros j _; now rewrite map_length|]. split.
  - intros p Hpp. rewrite table_person, shift_0; [|eapply Forall_impl; [|exact Hin]; intros x Hx; now apply index_in_length|lia].
    apply (proj1 (Forall_forall _ _) Hin), nth_In. lia.
  - split; [intros d Hd; rewrite Hl; now apply Ht|]. rewrite Hcv.
    assert (forall d k, 0 <= d < Z.of_nat (length (shape b)) ->
      head_count (table 0 (length (shape b)) rows) (Z.of_nat (length rows)) [d] [k] = margin (shape b) [d] [k] (entry 0 b)) as Eh.
    { intros d k Hd. pose proof (table_count 0 (shape b) rows [d] [k] Hin) as X. rewrite shift_0 in X. rewrite X by (constructor; auto). now apply margin_ext. }
    split; intros H d k Hd Hk; specialize (H d k Hd Hk); [rewrite Eh by auto|rewrite Eh in H by auto]; exact H.
Qed.
End Pipe.

(** * Examples *)
Definition nd_rangeb (a : ndarray double) : bool :=
  negb (match shape a with [] | [_] => true | _ => false end) && forallb (fun n => 0 <? n) (shape a) &&
  (Z.of_nat (length (flat a)) =? prodZ (shape a)) && (prodZ (shape a) <=? 2 ^ 20) && forallb nonneg_b (flat a) &&
  forallb (fun x => d_ltb x (d_ofZ (2 ^ 20))) (flat a) && (Z.of_nat (length (shape a)) <? 2 ^ 31).

(** the call of ipf converges, its result is in the range of integerise, and what integerise makes of it passes the test *)
Definition pipe_test (seed : ndarray double) ilist mlist (test : outcome (ndarray Z * bool * double) -> bool) : bool :=
  match py_ipf 9 seed ilist mlist with
  | Ok r => ir_conv r && nd_rangeb (ir_array r) && test (py_integerise L0 40 (ir_array r))
  | _ => false
  end.
Lemma pipe_test_inv seed ilist mlist test : pipe_test seed ilist mlist test = true ->
  exists res, py_ipf 9 seed ilist mlist = Ok res /\ ir_conv res = true /\ nd_range (ir_array res) /\ test (py_integerise L0 40 (ir_array res)) = true.
Proof.
  unfold pipe_test. destruct (py_ipf 9 seed ilist mlist) as [r|e|w|]; try discriminate. rewrite !andb_true_iff. intros [[H1 H2] H3].
  exists r. split; auto. split; auto. split; auto. now apply nd_range_by.
Qed.

Definition test_cells (f : list Z) (c : bool) (x : outcome (ndarray Z * bool * double)) : bool :=
  match x with Ok (r, c', _) => idx_eqb (flat r) f && Bool.eqb c c' | _ => false end.
Lemma test_cells_inv f c x : test_cells f c x = true -> exists r rmse, x = Ok (r, c, rmse) /\ flat r = f.
Proof.
  destruct x as [[[r c'] m]|e|w|]; try discriminate. cbn [test_cells]. rewrite andb_true_iff, idx_eqb_true, eqb_true_iff. intros [H ->]. eauto.
Qed.
Definition tab (l : list (list Z)) (d k : Z) : Z := nth (Z.to_nat k) (nth (Z.to_nat d) l []) 0.
Definition margs_of (l : list (list Z)) : list (ndarray double) := map (fun x => NDA [Z.of_nat (length x)] (dz x)) l.

(** a fitted table of nine people *)
Definition exPi_s : ndarray double := NDA [2; 2] (dz [1; 2; 3; 1]).
Definition exPi_l : list (list Z) := [[7; 2]; [5; 4]].
Lemma exPi_range : d_range (axes 2) (margs_of exPi_l). Proof. apply (g_range_by _ _ _ [2; 2]); vm_compute; reflexivity. Qed.
Lemma exPi_proper : all_proper d_zero (axes 2) (margs_of exPi_l). Proof. apply (all_proper_by _ _ _ [2; 2]); vm_compute; reflexivity. Qed.
Lemma exPi_seed : wf_array exPi_s. Proof. apply shape_by. vm_compute. reflexivity. Qed.
Ltac pick_axis t := eexists; split; [t; reflexivity|split; [reflexivity|split; [reflexivity|]]].
Ltac two_categories := intros k Hk; assert (0 <= k < 2) as Hk2 by exact Hk; assert (k = 0 \/ k = 1) as [->| ->] by lia; (split; [reflexivity|apply Z.leb_le; vm_compute; reflexivity]).
Lemma exPi_axes : whole_axes (dcons_of (axes 2) (margs_of exPi_l)) [2; 2] (tab exPi_l).
Proof.
  intros d Hd. cbn [length] in Hd. assert (d = 0 \/ d = 1) as [->| ->] by lia.
  - pick_axis ltac:(left). two_categories.
  - pick_axis ltac:(right; left). two_categories.
Qed.
Lemma exPi_ex : d_range (axes 2) (margs_of exPi_l) /\ all_proper d_zero (axes 2) (margs_of exPi_l) /\ wf_array exPi_s /\
  whole_axes (dcons_of (axes 2) (margs_of exPi_l)) [2; 2] (tab exPi_l) /\
  prodZ (shape exPi_s) * (sumZ (map (tab exPi_l 0) (zrange (nth (Z.to_nat 0) (shape exPi_s) 0))) + 1) = 40 /\
  exists res b rmse, py_ipf 9 exPi_s (axes 2) (margs_of exPi_l) = Ok res /\ ir_conv res = true /\ nd_range (ir_array res) /\
    py_integerise L0 40 (ir_array res) = Ok (b, true, rmse) /\ flat b = [4; 3; 1; 1] /\
    flatten b = Ok [[0; 0; 0; 0; 0; 0; 0; 1; 1]; [0; 0; 0; 0; 1; 1; 1; 0; 1]].
Proof.
  split; [exact exPi_range|]. split; [exact exPi_proper|]. split; [exact exPi_seed|]. split; [exact exPi_axes|]. split; [vm_compute; reflexivity|].
  destruct (pipe_test_inv exPi_s (axes 2) (margs_of exPi_l) (test_cells [4; 3; 1; 1] true)) as (res & H1 & H2 & H3 & H4); [vm_compute; reflexivity|].
  apply test_cells_inv in H4 as (b & rmse & H4 & H5).
  exists res, b, rmse. split; [exact H1|]. split; [exact H2|]. split; [exact H3|]. split; [exact H4|]. split; [exact H5|].
  destruct (nd_conv_claim _ _ _ _ _ _ H3 H4) as (Sb & _).
  rewrite (pipe_shape 9 exPi_s _ _ _ exPi_range exPi_proper exPi_seed ltac:(reflexivity) ltac:(reflexivity) H1) in Sb.
  destruct b as [sh fl]. cbn [shape flat] in *. subst. vm_compute. reflexivity.
Qed.

(** seeds of halves that fit their marginals *)
Definition exPf_l : list (list Z) := [[1; 3]; [3; 1]; [2; 2]].
Definition exPr_l : list (list Z) := [[1; 2]; [2; 1]; [1; 2]].
Ltac axes3 := intros d Hd; cbn [length] in Hd; assert (d = 0 \/ d = 1 \/ d = 2) as [->|[->| ->]] by lia;
  [pick_axis ltac:(left)|pick_axis ltac:(right; left)|pick_axis ltac:(right; right; left)]; two_categories.
Lemma exPf_axes : whole_axes (dcons_of (axes 3) (margs_of exPf_l)) [2; 2; 2] (tab exPf_l). Proof. axes3. Qed.
Lemma exPr_axes : whole_axes (dcons_of (axes 3) (margs_of exPr_l)) [2; 2; 2] (tab exPr_l). Proof. axes3. Qed.

Definition fitb (seed : ndarray double) ilist mlist : bool :=
  is_ok (py_ipf 9 seed ilist mlist) &&
  forallb (fun i => is_finite (entry d_zero seed i) && negb (Bsign (entry d_zero seed i))) (all_indices (shape seed)) &&
  forallb (fun c => forallb (fun k => d_eqb (marginD (shape seed) (g_dims c) k (entry d_zero seed)) (g_at c k)) (all_indices (g_sizes c))) (dcons_of ilist mlist).
Lemma fit_inv seed ilist mlist : d_range ilist mlist -> all_proper d_zero ilist mlist -> wf_array seed -> prodZ (shape seed) < 9 ->
  fitb seed ilist mlist = true -> exists res, py_ipf 9 seed ilist mlist = Ok res /\ ir_conv res = true /\ ir_array res = seed.
Proof.
  intros Hr Hp Hw Hs. unfold fitb. rewrite !andb_true_iff. intros [[H1 H2] H3].
  destruct (py_ipf 9 seed ilist mlist) as [res|e|w|] eqn:E; try discriminate. exists res. rewrite forallb_forall in H2, H3.
  destruct (ipf_fit_claim 9 seed ilist mlist Hr Hp Hw ltac:(lia) ltac:(lia) res E) as (A & B & _); auto.
  - intros i Hi. apply in_all_indices in Hi. specialize (H2 i Hi). rewrite andb_true_iff, negb_true_iff in H2. exact H2.
  - intros c k Hc Hk. specialize (H3 c Hc). rewrite forallb_forall in H3. apply H3. now apply in_all_indices.
Qed.

Lemma pipe_refute L : exists seed l l' seed' res res' b rmse,
  (d_range (axes 3) (margs_of l) /\ all_proper d_zero (axes 3) (margs_of l) /\ wf_array seed /\
   whole_axes (dcons_of (axes 3) (margs_of l)) (shape (ir_array res)) (tab l) /\ nd_range (ir_array res) /\
   py_ipf 9 seed (axes 3) (margs_of l) = Ok res /\ ir_conv res = true /\ py_integerise L 40 (ir_array res) = Ok (b, false, rmse)) /\
  (d_range (axes 3) (margs_of l') /\ all_proper d_zero (axes 3) (margs_of l') /\ wf_array seed' /\
   whole_axes (dcons_of (axes 3) (margs_of l')) (shape (ir_array res')) (tab l') /\ nd_range (ir_array res') /\
   py_ipf 9 seed' (axes 3) (margs_of l') = Ok res' /\ ir_conv res' = true /\ py_integerise L 40 (ir_array res') = Throw (RuntimeError "pick failed")).
Proof.
  assert (d_range (axes 3) (margs_of exPf_l)) as R by (apply (g_range_by _ _ _ [2; 2; 2]); vm_compute; reflexivity).
  assert (d_range (axes 3) (margs_of exPr_l)) as R' by (apply (g_range_by _ _ _ [2; 2; 2]); vm_compute; reflexivity).
  assert (all_proper d_zero (axes 3) (margs_of exPf_l)) as P by (apply (all_proper_by _ _ _ [2; 2; 2]); vm_compute; reflexivity).
  assert (all_proper d_zero (axes 3) (margs_of exPr_l)) as P' by (apply (all_proper_by _ _ _ [2; 2; 2]); vm_compute; reflexivity).
  assert (wf_array exF) as W by (apply shape_by; vm_compute; reflexivity).
  assert (wf_array exR) as W' by (apply shape_by; vm_compute; reflexivity).
  destruct (exF_false L) as (N & _ & b & rmse & I). destruct (exR_raises L) as (N' & _ & I').
  destruct (fit_inv exF (axes 3) (margs_of exPf_l) R P W eq_refl) as (res & H1 & H2 & H3); [vm_compute; reflexivity|].
  destruct (fit_inv exR (axes 3) (margs_of exPr_l) R' P' W' eq_refl) as (res' & H1' & H2' & H3'); [vm_compute; reflexivity|].
  exists exF, exPf_l, exPr_l, exR, res, res', b, rmse. rewrite H3, H3'. split.
  - split; auto. split; auto. split; auto. split; [exact exPf_axes|]. auto.
  - split; auto. split; auto. split; auto. split; [exact exPr_axes|]. auto.
Qed.
