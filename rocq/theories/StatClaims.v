(** The claims about the reported statistics. *)
From Coq Require Import Reals Psatz.
From Flocq Require Import Core.Core IEEE754.BinarySingleNaN.
From Verif Require Import Base Spec SpecFacts NDArray IndexProofs Float64 FloatProofs FloatExt ArrayOps ArrayProofs Bind BindProofs
  Micro Stat StatSpec Qis SynthSpec MicroProofs PickProofs SampleProofs SplitProofs QisProofs StatProofs QisClaims Ipf IpfSpec Qisi QisiClaims QisExamples.
Open Scope Z_scope.

(** * NaN *)

Lemma fold_add_nan l : forall a, (is_nan a = true \/ exists x, In x l /\ is_nan x = true) -> is_nan (fold_left d_add l a) = true.
Proof.
  assert (forall x y : double, is_nan x = true \/ is_nan y = true -> is_nan (d_add x y) = true) as Ha.
  { intros x y [H|H]; destruct x as [|[]| |]; try discriminate; destruct y as [|[]| |]; try discriminate; reflexivity. }
  induction l as [|y l IH]; intros a H; simpl.
  - destruct H as [H|(x & [] & _)]; auto.
  - apply IH. destruct H as [H|(x & [<-|Hx] & Hn)]; eauto.
Qed.

Lemma nan_eq (x : double) : is_nan x = true -> x = B754_nan.
Proof. destruct x; try discriminate; auto. Qed.

Lemma chi_term_nan e : zn e = true -> is_nan (chi_term 0 e) = true.
Proof. destruct e as [s|s| |s m e' H]; try discriminate; intros _; destruct s || idtac; reflexivity. Qed.

Lemma state_value_zn cs i : (exists c, In c cs /\ c_at c (proj (c_dims c) i) = 0) -> zn (state_value cs i) = true.
Proof.
  unfold state_value. assert (forall x y, zn y = true -> zn (d_mul x y) = true) as Hm.
  { intros x y Hy. destruct y as [sy|sy| |sy my ey By]; try discriminate; destruct x as [sx|sx| |sx mx ex Bx]; reflexivity. }
  assert (forall l v, (zn v = true \/ exists c, In c l /\ c_at c (proj (c_dims c) i) = 0) ->
    zn (fold_left (fun v c => d_mul v (d_ofZ (c_at c (proj (c_dims c) i)))) l v) = true) as G; [|intros; apply G; auto].
  induction l as [|c l IH]; intros v H; cbn [fold_left].
  - destruct H as [H|(c & [] & _)]; auto.
  - apply IH. destruct H as [H|(c' & [<-|Hc] & E)]; [left; now apply zn_mul| |eauto].
    left. apply Hm. rewrite E. reflexivity.
Qed.

(** * The p-value *)

Lemma d_one_minus_zero : d_sub d_one d_zero = d_one.
Proof. apply B2SF_inj. vm_compute. reflexivity. Qed.

Lemma add_nan_l (x : double) : d_add B754_nan x = B754_nan. Proof. destruct x; reflexivity. Qed.
Lemma add_nan_r (x : double) : d_add x B754_nan = B754_nan. Proof. destruct x; reflexivity. Qed.
Lemma sub_nan_l (x : double) : d_sub B754_nan x = B754_nan. Proof. destruct x; reflexivity. Qed.
Lemma sub_nan_r (x : double) : d_sub x B754_nan = B754_nan. Proof. destruct x; reflexivity. Qed.
Lemma mul_nan_l (x : double) : d_mul B754_nan x = B754_nan. Proof. destruct x; reflexivity. Qed.
Lemma div_nan_l (x : double) : d_div B754_nan x = B754_nan. Proof. destruct x; reflexivity. Qed.
Lemma leb_nan_l (x : double) : d_leb B754_nan x = false. Proof. destruct x; reflexivity. Qed.
Lemma leb_nan_r (x : double) : d_leb x B754_nan = false. Proof. destruct x; reflexivity. Qed.
Lemma ltb_nan_l (x : double) : d_ltb B754_nan x = false. Proof. destruct x; reflexivity. Qed.

Lemma gam_frac_nan n : forall factor a term gin p0 p1 p2 p3, gam_frac n factor a B754_nan term gin p0 p1 p2 p3 = (d_zero, false).
Proof.
  induction n as [|n IH]; intros; cbn [gam_frac]; auto. cbv zeta. rewrite add_nan_l, !mul_nan_l, !sub_nan_l.
  change (d_eqb B754_nan d_zero) with false. cbn [negb]. rewrite div_nan_l, sub_nan_r.
  change (d_abs B754_nan) with (B754_nan (prec := 53) (emax := 1024)). rewrite !leb_nan_l, leb_nan_r. cbn [andb]. apply IH.
Qed.

Lemma pvalue_nan L d : fst (pvalue L d B754_nan) = d_one.
Proof.
  unfold pvalue. rewrite div_nan_l. unfold gamain.
  destruct (d_leb (d_mul (d_ofZ (u32 d)) d_half) d_zero); [apply d_one_minus_zero|].
  rewrite ltb_nan_l. change (d_eqb B754_nan d_zero) with false. cbv zeta.
  destruct (d_ltb _ (l_log L d_1em37)); [apply d_one_minus_zero|].
  rewrite leb_nan_l, ltb_nan_l. cbn [orb]. rewrite add_nan_r, !add_nan_l, gam_frac_nan. apply d_one_minus_zero.
Qed.

Lemma ln_le x y : (0 < x -> x <= y -> ln x <= ln y)%R.
Proof. intros Hx [H| ->]; [left; now apply ln_increasing|apply Rle_refl]. Qed.

Lemma ln2_le_1 : (ln 2 <= 1)%R.
Proof. rewrite <- ln_exp. apply ln_le; [lra|]. pose proof (exp_ineq1 1 ltac:(lra)). lra. Qed.

Lemma ln_p2 e : ln (p2 e) = (IZR e * ln 2)%R.
Proof. rewrite bpow_powerRZ. change (IZR radix2) with 2%R. unfold powerRZ. destruct e as [|p|p].
  - rewrite ln_1. ring.
  - rewrite ln_pow by lra. rewrite INR_IPR. reflexivity.
  - rewrite ln_Rinv by (apply pow_lt; lra). rewrite ln_pow by lra. rewrite INR_IPR. change (IZR (Z.neg p)) with (- IPR p)%R. ring.
Qed.

Lemma ln_p2_bounds v : (1 <= v < p2 1024)%R -> (0 <= ln v <= 1024)%R.
Proof.
  intros [H1 H2]. split; [rewrite <- ln_1; apply ln_le; lra|].
  apply Rle_trans with (ln (p2 1024)); [apply ln_le; lra|]. rewrite ln_p2. pose proof ln2_le_1. lra.
Qed.

Lemma fin_1em37 : exists v, fin d_1em37 v /\ (p2 (-123) <= v <= 1)%R.
Proof.
  eexists. split; [apply d_lit_exact; lia|]. split.
  - replace (-123)%Z with (52 + -175)%Z by lia. rewrite bpow_plus. apply Rmult_le_compat_r; [apply bpow_ge_0|].
    rewrite <- IZR_p2 by lia. apply IZR_le. lia.
  - apply Rle_trans with (p2 53 * p2 (-175))%R.
    + apply Rmult_le_compat_r; [apply bpow_ge_0|]. rewrite <- IZR_p2 by lia. apply IZR_le. lia.
    + rewrite <- bpow_plus. change 1%R with (p2 0). apply bpow_le. lia.
Qed.

Lemma repr_big m e : Z.abs m <= 2 ^ 53 -> 0 <= e -> repr (IZR m * p2 e).
Proof. intros. apply repr_dyadic; lia. Qed.

(** an enormous statistic gives the p-value one *)
Lemma pvalue_huge L d c : sane L -> 1 <= d < 2 ^ 32 -> is_finite c = true -> (2000 * IZR d + 1000 <= B2R c)%R ->
  fst (pvalue L d c) = d_one.
Proof.
  intros [Hlog Hlg] Hd Fc Hc. pose proof (fin_B2R c Fc) as Hcf. set (C := B2R c) in *. pose proof (fin_bound _ _ Hcf) as Hcb.
  unfold pvalue. assert (u32 d = d) as -> by (apply Z.mod_small; lia).
  assert (1 <= IZR d <= 4294967296)%R as Hdr by (split; apply IZR_le; lia).
  assert (fin (d_mul (d_ofZ d) d_half) (IZR d * / 2)) as Hk.
  { apply d_mul_exact; [apply d_ofZ_exact; lia|apply fin_half| |].
    - replace (IZR d * / 2)%R with (IZR d * p2 (-1))%R by (simpl; lra). apply repr_dyadic; lia.
    - rewrite Rabs_pos_eq by lra. apply Rle_lt_trans with (p2 32); [rewrite <- IZR_p2 by lia; change (2 ^ 32) with 4294967296; lra|apply bpow_lt; lia]. }
  set (k := d_mul (d_ofZ d) d_half) in *.
  rewrite Rabs_pos_eq in Hcb by lra.
  assert (repr (IZR (1000 * d + 500))) as Hr1 by (apply repr_Z; lia).
  assert (IZR (1000 * d + 500) = 1000 * IZR d + 500)%R as E1 by (rewrite plus_IZR, mult_IZR; reflexivity).
  assert (p2 1024 = 2 * p2 1023)%R as Ep by (change 1024 with (1 + 1023); rewrite bpow_plus; reflexivity).
  pose proof (bpow_gt_0 radix2 1023) as P1023.
  set (X := RN (C / 2)).
  assert (IZR (1000 * d + 500) <= X)%R as HX1 by (apply RN_ge_repr; auto; lra).
  assert (X <= p2 1023)%R as HX2 by (apply RN_le_repr; [apply repr_p2; lia|lra]).
  assert (fin (d_div c (d_ofZ 2)) X) as Hx.
  { apply d_div_round; [exact Hcf|apply (d_ofZ_exact 2); lia|lra|]. fold X. rewrite Rabs_pos_eq by lra. lra. }
  set (x := d_div c (d_ofZ 2)) in *.
  unfold gamain. rewrite (d_leb_R _ _ _ _ Hk fin_zero), Rle_bool_false by lra.
  rewrite (proj2 (d_ltb_false _ _ _ _ Hx fin_zero)) by lra.
  rewrite (d_eqb_R _ _ _ _ Hx fin_zero). rewrite Req_bool_false by lra.
  cbv zeta.
  destruct (Hlog x (proj1 Hx)) as [Fl Bl]; [rewrite (proj2 Hx); lra|]. rewrite (proj2 Hx) in Bl. pose proof (fin_B2R _ Fl) as Hl.
  set (l := B2R (l_log L x)) in *.
  assert (0 <= ln X <= 1024)%R as HlnX by (apply ln_p2_bounds; lra).
  assert (-1 <= l <= 1025)%R as Hlb by (apply Rabs_le_inv in Bl; lra).
  destruct (Hlg k (proj1 Hk)) as [Fg Bg]; [rewrite (proj2 Hk); change (2 ^ 31) with 2147483648; lra|]. pose proof (fin_B2R _ Fg) as Hg. set (g := B2R (l_lgamma L k)) in *.
  set (A := RN (IZR d * / 2 * l)).
  assert (- IZR d <= A)%R as HA1 by (unfold A; rewrite <- opp_IZR; apply RN_ge_repr; [apply repr_Z; lia|rewrite opp_IZR; nra]).
  assert (A <= IZR (513 * d))%R as HA2 by (apply RN_le_repr; [apply repr_Z; lia|rewrite mult_IZR; nra]).
  rewrite mult_IZR in HA2.
  assert (p2 1000 < p2 1023)%R as P1000 by (apply bpow_lt; lia).
  assert (p2 100 <= p2 1000)%R as P100 by (apply bpow_le; lia).
  assert (IZR (2 ^ 100) = p2 100) as I100 by (apply IZR_p2; lia).
  assert (4294967296 * 1000 <= p2 100)%R as J100 by (rewrite <- I100, <- mult_IZR; apply IZR_le; lia).
  assert (fin (d_mul k (l_log L x)) A) as Ha.
  { apply d_mul_round; auto. fold A. apply Rabs_def1; lra. }
  set (B := RN (A - X)).
  assert (B <= IZR (- (487 * d + 500)))%R as HB1.
  { apply RN_le_repr; [apply repr_Z; lia|]. rewrite opp_IZR, plus_IZR, mult_IZR. lra. }
  rewrite opp_IZR, plus_IZR, mult_IZR in HB1.
  assert (p2 1023 = 2 * p2 1022)%R as Ep1 by (change 1023 with (1 + 1022); rewrite bpow_plus; reflexivity).
  assert (p2 1022 = 2 * p2 1021)%R as Ep2 by (change 1022 with (1 + 1021); rewrite bpow_plus; reflexivity).
  assert (p2 1000 < p2 1021)%R as P1021 by (apply bpow_lt; lia).
  assert (- (3 * p2 1022) <= B)%R as HB2.
  { replace (- (3 * p2 1022))%R with (IZR (-3) * p2 1022)%R by lra. apply RN_ge_repr; [apply repr_big; lia|]. lra. }
  assert (fin (d_sub (d_mul k (l_log L x)) x) B) as Hb.
  { apply d_sub_round; auto. fold B. apply Rabs_def1; lra. }
  set (D := RN (B - g)).
  assert (p2 40 <= p2 1000)%R as P40 by (apply bpow_le; lia). rewrite IZR_p2 in Bg by lia.
  assert (D <= IZR (- (487 * d + 499)))%R as HD1.
  { apply RN_le_repr; [apply repr_Z; lia|]. rewrite opp_IZR, plus_IZR, mult_IZR. lra. }
  rewrite opp_IZR, plus_IZR, mult_IZR in HD1.
  assert (- (7 * p2 1021) <= D)%R as HD2.
  { replace (- (7 * p2 1021))%R with (IZR (-7) * p2 1021)%R by lra. apply RN_ge_repr; [apply repr_big; lia|]. lra. }
  assert (fin (d_sub (d_sub (d_mul k (l_log L x)) x) (l_lgamma L k)) D) as Hdd.
  { apply d_sub_round; auto. fold D. apply Rabs_def1; lra. }
  destruct fin_1em37 as (v & Hv & Hv1 & Hv2). pose proof (bpow_gt_0 radix2 (-123)) as P123.
  destruct (Hlog d_1em37 (proj1 Hv)) as [Fu Bu]; [rewrite (proj2 Hv); lra|]. rewrite (proj2 Hv) in Bu. pose proof (fin_B2R _ Fu) as Hu.
  assert (-123 <= ln v)%R as Hlv.
  { apply Rle_trans with (ln (p2 (-123))); [rewrite ln_p2; pose proof ln2_le_1; lra|apply ln_le; lra]. }
  apply Rabs_le_inv in Bu.
  rewrite (proj2 (d_ltb_true _ _ _ _ Hdd Hu)) by lra. apply d_one_minus_zero.
Qed.

(** * Chi-squared *)

(** not NaN, and not less than zero *)
Definition numb (x : double) : bool := negb (is_nan x) && nnb x.

Lemma numb_add x y : numb x = true -> numb y = true -> numb (d_add x y) = true.
Proof.
  unfold numb. rewrite !Bool.andb_true_iff. intros [Nx Sx] [Ny Sy]. split; [|now apply d_add_nn].
  destruct (is_finite y) eqn:Fy; [rewrite d_add_notnan; auto; now apply Bool.negb_true_iff|].
  destruct y as [sy|sy| |sy my ey By]; try discriminate. simpl in Sy. apply Bool.negb_true_iff in Sy. subst sy.
  destruct x as [sx|sx| |sx mx ex Bx]; try discriminate; try reflexivity. simpl in Sx. apply Bool.negb_true_iff in Sx. subst sx. reflexivity.
Qed.

Lemma numb_fold l : forall a, numb a = true -> (forall x, In x l -> numb x = true) -> numb (fold_left d_add l a) = true.
Proof.
  induction l as [|y l IH]; intros a Ha H; simpl; auto. apply IH; [|intros; apply H; now right]. apply numb_add; auto. apply H. now left.
Qed.

Lemma numb_square x : is_finite x = true -> numb (d_mul x x) = true.
Proof.
  intros Fx. pose proof (Bmult_correct 53 1024 Hprec Hemax mode_NE x x) as C. cbv zeta in C. fold (d_mul x x) in C.
  destruct (Rlt_bool _ _) in C.
  - destruct C as (_ & F & S). rewrite Fx in F. cbn [andb] in F. unfold numb.
    assert (is_nan (d_mul x x) = false) as N by (destruct (d_mul x x); try discriminate; auto). rewrite N. cbn [negb andb].
    apply nnb_sign. rewrite (S N). apply Bool.xorb_nilpotent.
  - rewrite Bool.xorb_nilpotent in C. apply overflow_inf in C. rewrite C. reflexivity.
Qed.

Lemma numb_div x y : numb x = true -> is_finite y = true -> (0 < B2R y)%R -> numb (d_div x y) = true.
Proof.
  unfold numb. rewrite !Bool.andb_true_iff. intros [Nx Sx] Fy Py.
  destruct y as [sy|sy| |sy my ey By]; try discriminate; [simpl in Py; lra|].
  assert (sy = false) as ->.
  { destruct sy; auto. exfalso. assert (B2R (@B754_finite 53 1024 true my ey By) < 0)%R; [|lra]. simpl. apply F2R_lt_0. reflexivity. }
  split; [|apply d_div_nn; auto].
  destruct x as [sx|sx| |sx mx ex Bx]; try discriminate; try reflexivity. apply Bool.negb_true_iff.
  set (x := B754_finite sx mx ex Bx) in *. set (y := B754_finite false my ey By) in *.
  pose proof (Bdiv_correct 53 1024 Hprec Hemax mode_NE x y ltac:(lra)) as C. cbv zeta in C. fold (d_div x y) in C.
  destruct (Rlt_bool _ _) in C.
  - destruct C as (_ & F & _). destruct (d_div x y); try discriminate; auto.
  - apply overflow_inf in C. rewrite C. reflexivity.
Qed.

(** a sum of positive numbers bounded by a power of two never exceeds 2^54 times that power *)
Lemma sum_cap M l : 0 <= M -> M + 54 < 1024 -> (forall x, In x l -> exists v, fin x v /\ 0 <= v <= p2 M)%R ->
  forall a v, fin a v -> (0 <= v <= p2 (M + 54))%R -> exists w, fin (fold_left d_add l a) w /\ (v <= w <= p2 (M + 54))%R.
Proof.
  intros HM HM' Hl. induction l as [|x l IH]; intros a v Ha Hv; simpl; [exists v; split; auto; lra|].
  destruct (Hl x (or_introl eq_refl)) as (y & Hy & Hy').
  assert (v <= RN (v + y))%R as H1 by (apply RN_ge_repr; [now apply (fin_repr a)|lra]).
  assert (RN (v + y) <= p2 (M + 54))%R as H2.
  { unfold RN. apply round_N_le_midp; [exact fexp_valid|apply repr_p2; lia|].
    rewrite succ_eq_pos by apply bpow_ge_0. rewrite ulp_bpow. unfold SpecFloat.fexp, SpecFloat.emin.
    replace (Z.max (M + 54 + 1 - 53) (3 - 1024 - 53)) with (M + 2) by lia. rewrite !bpow_plus in *. simpl.
    change (p2 54) with (IZR (2 ^ 54)) in *. pose proof (bpow_gt_0 radix2 M).
    change (p2 2) with 4%R. lra. }
  destruct (IH ltac:(intros; apply Hl; now right) (d_add a x) (RN (v + y))) as (w & Hw & Hw').
  - apply d_add_round; auto. rewrite Rabs_pos_eq by lra. apply Rle_lt_trans with (1 := H2). apply bpow_lt. lia.
  - lra.
  - exists w. split; auto. lra.
Qed.

Lemma state_value_bounds cs i b : 0 <= b <= 53 -> b * Z.of_nat (length cs) <= 900 ->
  (forall c, In c cs -> 1 <= c_at c (proj (c_dims c) i) <= 2 ^ b) ->
  exists v, fin (state_value cs i) v /\ (1 <= v <= p2 (b * Z.of_nat (length cs)))%R.
Proof.
  intros Hb Hk Hc. unfold state_value.
  assert (forall l n a v, (forall c, In c l -> In c cs) -> 0 <= n -> n + b * Z.of_nat (length l) <= 900 -> fin a v -> (1 <= v <= p2 n)%R ->
    exists w, fin (fold_left (fun v c => d_mul v (d_ofZ (c_at c (proj (c_dims c) i)))) l a) w /\
              (1 <= w <= p2 (n + b * Z.of_nat (length l)))%R) as G.
  { induction l as [|c l IH]; intros n a v Hin Hn Hbn Ha Hv; cbn [fold_left].
    - exists v. simpl. rewrite Z.mul_0_r, Z.add_0_r. auto.
    - cbn [length] in Hbn |- *. pose proof (Hc c (Hin c (or_introl eq_refl))) as Hx. set (x := c_at c (proj (c_dims c) i)) in *.
      assert (2 ^ b <= 2 ^ 53) by (apply Z.pow_le_mono_r; lia).
      assert (fin (d_ofZ x) (IZR x)) as Hxf by (apply d_ofZ_exact; lia).
      assert (1 <= IZR x <= p2 b)%R as Hxr by (rewrite <- IZR_p2 by lia; split; apply IZR_le; lia).
      assert (1 <= RN (v * IZR x))%R as H1 by (apply RN_ge_repr; [apply (repr_Z 1); lia|nra]).
      assert (RN (v * IZR x) <= p2 (n + b))%R as H2.
      { apply RN_le_repr; [apply repr_p2; lia|]. rewrite bpow_plus. apply Rmult_le_compat; lra. }
      assert (fin (d_mul a (d_ofZ x)) (RN (v * IZR x))) as Hm.
      { apply d_mul_round; auto. rewrite Rabs_pos_eq by lra. apply Rle_lt_trans with (1 := H2). apply bpow_lt. lia. }
      destruct (IH (n + b) _ _ ltac:(intros; apply Hin; now right) ltac:(lia) ltac:(lia) Hm (conj H1 H2)) as (w & Hw & Hw').
      exists w. split; auto. replace (n + b * Z.of_nat (S (length l))) with (n + b + b * Z.of_nat (length l)) by lia. auto. }
  destruct (G cs 0 d_one 1%R (fun c H => H) ltac:(lia) ltac:(lia) fin_one ltac:(simpl; lra)) as (w & Hw & Hw'). exists w. auto.
Qed.

(** positive marginals: every expected count is a positive finite number *)
Lemma expectation_range cs sizes pop b : fits sizes -> 1 <= pop <= 2 ^ b -> 0 <= b <= 32 -> b * Z.of_nat (length cs) <= 900 ->
  (forall c i, In c cs -> index_in sizes i -> 1 <= c_at c (proj (c_dims c) i) <= pop) ->
  forall i, index_in sizes i -> exists v, fin (expectation cs sizes pop i) v /\
    (p2 (- (b * Z.of_nat (length cs) + 54)) <= v <= p2 (b * Z.of_nat (length cs) + 32))%R.
Proof.
  intros Hf Hp Hb Hk Hc i Hi. set (B := b * Z.of_nat (length cs)) in *.
  assert (forall j, index_in sizes j -> exists v, fin (state_value cs j) v /\ (1 <= v <= p2 B)%R) as Hsv.
  { intros j Hj. apply state_value_bounds; try lia. intros c Hin. specialize (Hc c j Hin Hj). lia. }
  assert (0 <= B) as HB by lia.
  assert (exists t, fin (sv_total cs sizes) t /\ (1 <= t <= p2 (B + 54))%R) as (t & Ht & Ht').
  { unfold sv_total. assert (all_indices sizes <> []) as Hne by (intros E; apply in_all_indices in Hi; rewrite E in Hi; easy).
    destruct (all_indices sizes) as [|j l] eqn:El; [easy|]. cbn [map fold_left].
    assert (index_in sizes j) as Hj by (apply in_all_indices; rewrite El; now left).
    destruct (Hsv j Hj) as (v & Hv & Hv').
    assert (d_add d_zero (state_value cs j) = d_add d_zero (state_value cs j)) as _ by reflexivity.
    assert (fin (d_add d_zero (state_value cs j)) v) as Ha.
    { replace v with (0 + v)%R by lra. apply d_add_exact; auto; [apply fin_zero|rewrite Rplus_0_l; now apply (fin_repr (state_value cs j))|].
      rewrite Rplus_0_l. now apply (fin_bound (state_value cs j)). }
    assert (p2 B <= p2 (B + 54))%R by (apply bpow_le; lia).
    destruct (sum_cap B (map (state_value cs) l) HB ltac:(lia)) with (a := d_add d_zero (state_value cs j)) (v := v) as (w & Hw & Hw'); auto; try lra.
    - intros x Hx. apply in_map_iff in Hx as (j' & <- & Hj'). destruct (Hsv j') as (v' & Hv1 & Hv2).
      { apply in_all_indices. rewrite El. now right. } exists v'. split; auto. lra.
    - exists w. split; auto. lra. }
  assert (2 ^ b <= 2 ^ 32) by (apply Z.pow_le_mono_r; lia).
  assert (fin (d_ofZ pop) (IZR pop)) as Hpf by (apply d_ofZ_exact; lia).
  assert (1 <= IZR pop <= p2 32)%R as Hpr by (rewrite <- IZR_p2 by lia; split; apply IZR_le; lia).
  set (s := RN (IZR pop / t)).
  assert (p2 (- (B + 54)) <= s)%R as Hs1.
  { apply RN_ge_repr; [apply repr_p2; lia|]. rewrite bpow_opp. apply Rle_trans with (1 / t)%R.
    - unfold Rdiv. rewrite Rmult_1_l. apply Rinv_le; lra.
    - apply Rmult_le_compat_r; [|lra]. apply Rlt_le, Rinv_0_lt_compat. lra. }
  assert (s <= p2 32)%R as Hs2.
  { apply RN_le_repr; [apply repr_p2; lia|]. apply Rmult_le_reg_r with t; [lra|]. unfold Rdiv. rewrite Rmult_assoc, Rinv_l by lra. nra. }
  pose proof (bpow_gt_0 radix2 (- (B + 54))) as P0.
  assert (fin (d_div (d_ofZ pop) (sv_total cs sizes)) s) as Hsf.
  { apply d_div_round; auto; [lra|]. fold s. rewrite Rabs_pos_eq by lra. apply Rle_lt_trans with (1 := Hs2). apply bpow_lt. lia. }
  destruct (Hsv i Hi) as (v & Hv & Hv'). unfold expectation.
  assert (p2 (- (B + 54)) <= RN (v * s))%R as He1 by (apply RN_ge_repr; [apply repr_p2; lia|nra]).
  assert (RN (v * s) <= p2 (B + 32))%R as He2.
  { apply RN_le_repr; [apply repr_p2; lia|]. rewrite bpow_plus. apply Rmult_le_compat; lra. }
  exists (RN (v * s)). split; [|lra]. apply d_mul_round; auto. rewrite Rabs_pos_eq by lra. apply Rle_lt_trans with (1 := He2). apply bpow_lt. lia.
Qed.
Lemma expectation_pos cs sizes pop b : fits sizes -> 1 <= pop <= 2 ^ b -> 0 <= b <= 32 -> b * Z.of_nat (length cs) <= 900 ->
  (forall c i, In c cs -> index_in sizes i -> 1 <= c_at c (proj (c_dims c) i) <= pop) ->
  forall i, index_in sizes i -> exists v, fin (expectation cs sizes pop i) v /\ (0 < v <= p2 932)%R.
Proof.
  intros Hf Hp Hb Hk Hc i Hi. destruct (expectation_range cs sizes pop b Hf Hp Hb Hk Hc i Hi) as (v & Hv & H1 & H2). exists v. split; [exact Hv|]. split.
  - apply Rlt_le_trans with (2 := H1). apply bpow_gt_0.
  - apply Rle_trans with (1 := H2). apply bpow_le. lia.
Qed.

Lemma chi_numb sizes r ex : (forall i, index_in sizes i -> Z.abs (r i) <= 2 ^ 53 /\ exists v, fin (ex i) v /\ (0 < v <= p2 932)%R) ->
  numb (chi_val sizes r ex) = true.
Proof.
  intros H. unfold chi_val. apply numb_fold; [reflexivity|]. intros x Hx. apply in_map_iff in Hx as (i & <- & Hi). apply in_all_indices in Hi.
  destruct (H i Hi) as (Hr & v & Hv & Hv1 & Hv2). unfold chi_term. cbv zeta. apply numb_div; [|apply Hv|rewrite (proj2 Hv); auto].
  apply numb_square. assert (fin (d_sub (d_ofZ (r i)) (ex i)) (RN (IZR (r i) - v))) as [-> _]; auto.
  apply d_sub_round; auto; [now apply d_ofZ_exact|]. rewrite RN_abs. apply Rle_lt_trans with (p2 933); [|apply bpow_lt; lia].
  apply RN_le_repr; [apply repr_p2; lia|]. assert (Rabs (IZR (r i)) <= p2 53)%R as Ha by (rewrite <- abs_IZR, <- IZR_p2 by lia; now apply IZR_le).
  assert (p2 53 <= p2 932)%R by (apply bpow_le; lia). replace 933 with (1 + 932) by lia. rewrite bpow_plus. change (p2 1) with 2%R.
  apply Rabs_le. apply Rabs_le_inv in Ha. lra.
Qed.

(** * The claims *)

Lemma chi_nan_claim L fuel ilist mlist skips res : in_range ilist mlist -> py_qis L fuel ilist mlist skips = Ok res -> qr_conv res = true ->
  (exists c i, In c (cons_of ilist mlist) /\ index_in (shape (qr_pop_array res)) i /\ c_at c (proj (c_dims c) i) = 0) ->
  is_nan (qr_chisq res) = true /\ qr_pvalue res = d_one.
Proof.
  intros Hr E Hcv (c & i & Hc & Hi & H0).
  pose proof (overfill_claim L fuel ilist mlist skips res Hr E Hcv c i Hc Hi) as [_ Hz]. specialize (Hz H0).
  destruct (qis_ok_inv L fuel ilist mlist skips res Hr E) as (sizes & r & _ & Hf & _ & _ & _ & Ea & _ & _ & _ & _ & Ex & Ep & _).
  rewrite Ea in Hi, Hz. cbn [shape] in Hi. rewrite entry_NDA_map in Hz by auto.
  assert (is_nan (qr_chisq res) = true) as Hn.
  { rewrite Ex. unfold chi_val. apply fold_add_nan. right. exists (chi_term (r i) (expectation (cons_of ilist mlist) sizes (qr_pop res) i)). split.
    - apply in_map_iff. exists i. split; auto. now apply in_all_indices.
    - rewrite Hz. apply chi_term_nan. unfold expectation. apply zn_mul. apply state_value_zn. eauto. }
  split; auto. rewrite Ep, (nan_eq _ Hn). apply pvalue_nan.
Qed.

Lemma chi_number_claim L fuel ilist mlist skips res : in_range ilist mlist -> py_qis L fuel ilist mlist skips = Ok res ->
  (length mlist <= 28)%nat -> (forall c k, In c (cons_of ilist mlist) -> index_in (c_sizes c) k -> 0 < c_at c k) ->
  is_nan (qr_chisq res) = false /\ d_leb d_zero (qr_chisq res) = true.
Proof.
  intros Hr E Hlen Hpos. set (cs := cons_of ilist mlist) in *.
  destruct (qis_ok_inv L fuel ilist mlist skips res Hr E) as (sizes & r & Hvc & Hf & [Hrn Hrt] & _ & Ht & Ea & _ & Hp & _ & _ & Ex & _ & _).
  pose proof Hvc as (Hl2 & Himp & _). fold cs in Ex, Ht, Hl2, Himp.
  assert (forall c i, In c cs -> index_in sizes i -> 1 <= c_at c (proj (c_dims c) i) <= qr_pop res) as Hb.
  { intros c i Hc Hi. assert (index_in (c_sizes c) (proj (c_dims c) i)) as Hk by (apply (proj_in cs sizes); auto).
    rewrite <- (Ht c Hc). specialize (Hpos c _ Hc Hk) as H1. split; [lia|]. unfold c_total. apply le_total; auto.
    intros k Hk'. specialize (Hpos c k Hc Hk'). lia. }
  assert (exists i, index_in sizes i) as (i0 & Hi0).
  { exists (repeat 0 (length sizes)). destruct Hf as (_ & Hpz & _). clear - Hpz. unfold index_in. induction Hpz; simpl; constructor; auto. lia. }
  assert (1 <= qr_pop res) as Hp1.
  { destruct cs as [|c cs']; [simpl in Hl2; lia|]. specialize (Hb c i0 (or_introl eq_refl) Hi0). lia. }
  assert (numb (qr_chisq res) = true) as Hn.
  { rewrite Ex. apply chi_numb. intros i Hi. split.
    - pose proof (le_total sizes r i Hrn Hi). pose proof (Hrn i Hi). lia.
    - apply (expectation_pos cs sizes (qr_pop res) 32); auto; try lia.
      assert (length cs <= 28)%nat; [|lia]. unfold cs, cons_of. rewrite map_length, combine_length. lia. }
  unfold numb in Hn. apply Bool.andb_true_iff in Hn as [Hn Hs]. apply Bool.negb_true_iff in Hn. split; auto.
  destruct (qr_chisq res) as [s|s| |s m e H]; try discriminate; try reflexivity; simpl in Hs; apply Bool.negb_true_iff in Hs; subst; reflexivity.
Qed.

Lemma pvalue_claim L fuel ilist mlist skips res : in_range ilist mlist -> py_qis L fuel ilist mlist skips = Ok res -> sane L ->
  let d := degrees (shape (qr_pop_array res)) in 1 <= d < 2 ^ 32 -> is_finite (qr_chisq res) = true ->
  (2000 * IZR d + 1000 <= B2R (qr_chisq res))%R -> qr_pvalue res = d_one.
Proof.
  intros Hr E HL d Hd Hf Hc. destruct (qis_ok_inv L fuel ilist mlist skips res Hr E) as (sizes & r & _ & _ & _ & _ & _ & Ea & _ & _ & _ & _ & _ & Ep & _).
  unfold d in *. rewrite Ea in Hd, Hc. cbn [shape] in Hd, Hc. rewrite Ep. now apply pvalue_huge.
Qed.

(** the p-value of qisi behaves in the same way *)
Lemma pvalue_qisi_claim L fuel seed ilist mlist skips res : qisi_range ilist mlist seed -> py_qisi L fuel seed ilist mlist skips = Ok res -> sane L ->
  let d := degrees (shape (qr_pop_array res)) in 1 <= d < 2 ^ 32 ->
  (is_finite (qr_chisq res) = true /\ (2000 * IZR d + 1000 <= B2R (qr_chisq res))%R) \/ is_nan (qr_chisq res) = true -> qr_pvalue res = d_one.
Proof.
  intros Hr E HL d Hd Hc. pose proof (qisi_cases L fuel seed ilist mlist skips Hr) as H. cbv zeta in H. rewrite E in H.
  destruct H as (_ & _ & _ & _ & _ & _ & r & _ & _ & Ea & ex & _ & _ & Ep & _). unfold d in *. rewrite Ea in Hd, Hc. cbn [shape] in Hd, Hc.
  rewrite Ep. destruct Hc as [[Hf Hc]|Hn]; [now apply pvalue_huge|]. rewrite (nan_eq _ Hn). apply pvalue_nan.
Qed.

(** the hypotheses on the library can be met *)
Definition L1 : libm := {| l_lgamma := fun _ => d_zero; l_log := fun x => d_ofZ (up (ln (B2R x))); l_exp := fun x => x; l_tgamma := fun x => x |}.
Lemma L1_sane : sane L1.
Proof.
  split; intros x Fx Hx; cbn [l_log l_lgamma L1].
  - destruct (archimed (ln (B2R x))) as [A1 A2]. set (z := up (ln (B2R x))) in *.
    assert (-1074 <= ln (B2R x) <= 1024)%R as Hln.
    { pose proof ln2_le_1 as L2. assert (0 <= ln 2)%R by (rewrite <- ln_1; apply ln_le; lra). split.
      - apply Rle_trans with (ln (p2 (-1074))); [rewrite ln_p2; lra|]. apply ln_le; [apply bpow_gt_0|].
        destruct x as [|s| |s m e B]; try discriminate; [simpl in Hx; lra|]. 
        destruct s; [exfalso; assert (B2R (@B754_finite 53 1024 true m e B) < 0)%R by (simpl; apply F2R_lt_0; reflexivity); lra|].
        change (B2R (@B754_finite 53 1024 false m e B)) with (IZR (Zpos m) * p2 e)%R.
        assert (-1074 <= e) as He.
        { clear - B. unfold SpecFloat.bounded, SpecFloat.canonical_mantissa in B. apply Bool.andb_true_iff in B as [B _]. apply Zeq_bool_eq in B.
          unfold SpecFloat.fexp, SpecFloat.emin in B. lia. }
        apply Rle_trans with (1 * p2 e)%R; [rewrite Rmult_1_l; now apply bpow_le|]. apply Rmult_le_compat_r; [apply bpow_ge_0|]. apply IZR_le. lia.
      - apply Rle_trans with (ln (p2 1024)); [|rewrite ln_p2; lra]. apply ln_le; auto. pose proof (abs_B2R_lt_emax _ _ x) as H1.
        pose proof (Rle_abs (B2R x)). lra. }
    assert (-1074 < z < 1026) as Hz by (split; apply lt_IZR; lra).
    destruct (d_ofZ_exact z) as [-> ->]; [lia|]. split; auto. apply Rabs_le. lra.
  - split; auto. simpl. split; [lra|]. apply IZR_le. lia.
Qed.

(** ** Degeneracy *)

Definition exG_i : list (ndarray Z) := [NDA [1] [0]; NDA [1] [1]].
Definition exG_m : list (ndarray Z) := [NDA [2] [2; 2]; NDA [2] [2; 2]].

Lemma deg_val_2x2 L r : tgamma_at L 3 -> (forall i, index_in [2; 2] i -> r i = 1) -> B2R (deg_val L [2; 2] r) = (3 / 2)%R.
Proof.
  intros [Ft Et] Hr. unfold deg_val. change (all_indices [2; 2]) with [[0; 0]; [0; 1]; [1; 0]; [1; 1]]. cbn [fold_left fst snd].
  rewrite !Hr by (unfold index_in; repeat constructor; lia). change (1 + 1 + 1) with 3. change (factZ (3 - 1)) with 2 in Et.
  assert (l_tgamma L (d_ofZ 3) = d_ofZ 2) as ->.
  { apply B2R_Bsign_inj; auto.
    - rewrite Et. symmetry. apply (d_ofZ_exact 2). lia.
    - destruct (l_tgamma L (d_ofZ 3)) as [s|s| |s m e B]; try discriminate; [simpl in Et; lra|]. destruct s; auto. exfalso.
      assert (B2R (@B754_finite 53 1024 true m e B) < 0)%R by (simpl; apply F2R_lt_0; reflexivity). lra. }
  assert (fin (d_lit 3 (-1)) (3 / 2)) as [_ <-].
  { replace (3 / 2)%R with (IZR 3 * p2 (-1))%R by (simpl; lra). apply d_lit_exact; lia. }
  f_equal. apply B2SF_inj. vm_compute. reflexivity.
Qed.

(** the population does not depend on the library *)
Lemma py_qis_lib L L' fuel ilist mlist skips res res' : py_qis L fuel ilist mlist skips = Ok res -> py_qis L' fuel ilist mlist skips = Ok res' ->
  qr_pop_array res = qr_pop_array res'.
Proof.
  unfold py_qis. destruct (py_lists to_nd ilist mlist) as [[ix mg]| | |]; cbn [bind]; try discriminate.
  destruct (qis_new fuel ix mg skips) as [q| | |]; cbn [bind]; try discriminate. unfold qis_solve.
  destruct (nd_assign _ 0) as [arr| | |]; cbn [bind]; try discriminate. destruct (index_new _); cbn [bind]; try discriminate.
  destruct (make_mappings _ _); cbn [bind]; try discriminate. destruct (repeatM _ _ _) as [st| | |]; cbn [bind]; try discriminate.
  destruct (chisq _ _) as [c| | |]; cbn [bind]; try discriminate. destruct (dof _) as [d| | |]; cbn [bind]; try discriminate.
  destruct (degeneracy L _) as [g| | |]; cbn [bind]; try discriminate. destruct (degeneracy L' _) as [g'| | |]; cbn [bind]; try discriminate.
  destruct (from_nd (q_expect q)) as [ex| | |]; cbn [bind]; try discriminate. destruct (from_nd (q_arr st)) as [pa| | |]; cbn [bind]; try discriminate.
  intros [= <-] [= <-]. reflexivity.
Qed.

Definition pop_cells (x : outcome qis_result) : option (ndarray Z) := match x with Ok r => Some (qr_pop_array r) | _ => None end.

Lemma pop_cells_inv x a : pop_cells x = Some a -> exists r, x = Ok r /\ qr_pop_array r = a.
Proof. destruct x as [r| | |]; try discriminate. intros [= <-]. eauto. Qed.

Lemma degeneracy_claim L : tgamma_at L 3 -> exists ilist mlist res, in_range ilist mlist /\ py_qis L 40 ilist mlist 0 = Ok res /\
  flat (qr_pop_array res) = [1; 1; 1; 1] /\ multinomial (flat (qr_pop_array res)) = 24%R /\ B2R (qr_degeneracy res) = (3 / 2)%R.
Proof.
  intros HL. exists exG_i, exG_m.
  assert (in_range exG_i exG_m) as Hr by (apply (in_range_by _ _ [2; 2]); vm_compute; reflexivity).
  assert (pop_cells (py_qis L0 40 exG_i exG_m 0) = Some (NDA [2; 2] [1; 1; 1; 1])) as E0 by (vm_compute; reflexivity).
  apply pop_cells_inv in E0 as (res0 & Er0 & E0).
  destruct (valid_by exG_i exG_m Hr) as [Hvec Hval]; [vm_compute; reflexivity|vm_compute; reflexivity|].
  destruct (disjoint_claim L 40 exG_i exG_m 0 Hr Hvec Hval) as (res & Er & _).
  - apply disjoint_by. vm_compute. reflexivity.
  - intros sizes Hs. rewrite (implied_unique _ sizes [2; 2] Hs); [simpl; lia|]. apply implied_by. vm_compute. reflexivity.
  - lia.
  - intros c Hc. assert (forallb (fun c => c_total c <=? 4) (cons_of exG_i exG_m) = true) as Hb by (vm_compute; reflexivity).
    rewrite forallb_forall in Hb. specialize (Hb c Hc). apply Z.leb_le in Hb. change (Z.of_N (SobolSpec.skipped (Z.to_N 0))) with 1. lia.
  - lia.
  - exists res.
    pose proof (py_qis_lib _ _ _ _ _ _ _ _ Er Er0) as E. rewrite E0 in E. clear Er0 E0.
    split; auto. split; auto. rewrite E. split; auto. split.
    + unfold multinomial. cbn [flat]. change (factZ (sumZ [1; 1; 1; 1])) with 24. change (prodZ (map factZ [1; 1; 1; 1])) with 1. lra.
    + destruct (qis_ok_inv L 40 exG_i exG_m 0 res Hr Er) as (sizes & r & _ & _ & _ & _ & _ & Ea & _ & _ & _ & _ & _ & _ & ->).
      rewrite Ea in E. injection E as E1 E2. subst sizes. apply deg_val_2x2; auto. change (all_indices [2; 2]) with [[0; 0]; [0; 1]; [1; 0]; [1; 1]] in E2.
      cbn [map] in E2. injection E2 as H1 H2 H3 H4. intros i Hi. apply in_all_indices in Hi.
      change (all_indices [2; 2]) with [[0; 0]; [0; 1]; [1; 0]; [1; 1]] in Hi. destruct Hi as [<-|[<-|[<-|[<-|[]]]]]; auto.
Qed.
