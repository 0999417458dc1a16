(** The p-value for an odd number of degrees of freedom: the two branches put together, and the distribution itself. *)
From Coq Require Import Reals Lra Lia Psatz ZArith List Bool.
From Flocq Require Import Core.Core IEEE754.BinarySingleNaN.
From Verif Require Import Base Spec NDArray Float64 FloatProofs ArrayOps Stat GammaGen TailSpec TailOddSpec Tail TailHalf TailOdd.
Open Scope R_scope.

(** * The weight function and its limits *)

Section Weight.
Context (p c : R) (Hp : 0 < p).
Definition wt (t : R) : R := exp (p * ln t - t - c).
Lemma wt_pos t : 0 < wt t. Proof. apply exp_pos. Qed.
Lemma wt_deriv t : 0 < t -> derivable_pt_lim wt t (wt t * (p - t) / t).
Proof.
  intros Ht. assert (derivable_pt_lim (fun t => p * ln t - t - c) t (p * / t - 1 - 0)) as D.
  { apply (derivable_pt_lim_minus (fun t => p * ln t - t) (fct_cte c)); [|apply derivable_pt_lim_const].
    apply (derivable_pt_lim_minus (fun t => p * ln t) id); [|apply derivable_pt_lim_id].
    apply (derivable_pt_lim_scal ln). apply derivable_pt_lim_ln. exact Ht. }
  eapply deq; [|exact (derivable_pt_lim_comp _ exp t _ _ D (derivable_pt_lim_exp _))]. fold (wt t). field. lra.
Qed.
Lemma ln_le z : 0 < z -> ln z <= z.
Proof. intros Hz. pose proof (exp_ineq1_le (ln z)) as E. rewrite exp_ln in E by exact Hz. lra. Qed.
Lemma wt_inf : liminf wt 0.
Proof.
  intros e He. set (K := exp (p * ln (2 * p) - c)). pose proof (exp_pos (p * ln (2 * p) - c)) as PK. fold K in PK.
  exists (Rmax 1 (2 * K / e)). intros t Ht. pose proof (Rmax_l 1 (2 * K / e)). pose proof (Rmax_r 1 (2 * K / e)).
  rewrite Rminus_0_r, Rabs_pos_eq by (left; apply wt_pos).
  assert (wt t <= K * exp (- (t / 2))) as B.
  { unfold wt, K. rewrite <- exp_plus. assert (p * ln t - t - c <= p * ln (2 * p) - c + - (t / 2)) as L.
    { assert (0 < t / (2 * p)) as Pz by (apply Rdiv_lt_0_compat; lra). pose proof (ln_le _ Pz) as Lz.
      assert (ln t = ln (2 * p) + ln (t / (2 * p))) as E by (rewrite <- ln_mult by lra; f_equal; field; lra).
      assert (p * (t / (2 * p)) = t / 2) as E2 by (field; lra). assert (p * ln (t / (2 * p)) <= p * (t / (2 * p))) by (apply Rmult_le_compat_l; lra). rewrite E. lra. }
    destruct L as [L|L]; [left; apply exp_increasing; exact L|rewrite L; lra]. }
  assert (exp (- (t / 2)) * (t / 2) < 1) as E1.
  { pose proof (exp_ineq1_le (t / 2)) as E. assert (exp (- (t / 2)) * exp (t / 2) = 1) as EE by (rewrite <- exp_plus, Rplus_opp_l; apply exp_0).
    pose proof (exp_pos (- (t / 2))). nra. }
  assert (2 * K < e * t) as M.
  { assert (2 * K / e < t) as M by lra. apply (Rmult_lt_compat_l e) in M; [|exact He]. replace (e * (2 * K / e)) with (2 * K) in M by (field; lra). exact M. }
  pose proof (exp_pos (- (t / 2))). apply Rle_lt_trans with (1 := B). apply Rmult_lt_reg_r with (t / 2); [lra|]. nra.
Qed.
Lemma wt_0 : lim0 wt 0.
Proof.
  intros e He. exists (exp ((ln e + c) / p)). split; [apply exp_pos|]. intros t [Ht Hd]. rewrite Rminus_0_r, Rabs_pos_eq by (left; apply wt_pos).
  apply ln_increasing in Hd; [|exact Ht]. rewrite ln_exp in Hd. apply (Rmult_lt_compat_l p) in Hd; [|exact Hp].
  replace (p * ((ln e + c) / p)) with (ln e + c) in Hd by (field; lra). rewrite <- (exp_ln e) by exact He. apply exp_increasing. lra.
Qed.
End Weight.

Section Chi.
Context (j : nat) (gam : R) (Q : R -> R) (HQ : chi_tail (2 * j + 1) gam Q).
Notation p := (INR j + 1 / 2).
Notation w := (wt p (ln gam)).
Lemma half_p : INR (2 * j + 1) / 2 = p. Proof. rewrite plus_INR, mult_INR. cbn [INR]. field. Qed.
Lemma gam_pos : 0 < gam. Proof. apply HQ. Qed.
Lemma p_pos : 1 / 2 <= p. Proof. pose proof (pos_INR j). lra. Qed.
Lemma wt_density X : 0 < X -> X * chi_density (2 * j + 1) gam X = w (X / 2).
Proof.
  intros HX. unfold chi_density, wt. rewrite half_p. pose proof gam_pos as Pg. unfold Rminus at 2 3. rewrite !exp_plus, exp_Ropp, (exp_Ropp (ln gam)), exp_ln by exact Pg.
  change (exp (p * ln (X / 2))) with (Rpower (X / 2) p). 
  assert (Rpower X p = X * Rpower X (p - 1)) as E1.
  { rewrite <- (Rpower_1 X) at 2 by exact HX. rewrite <- Rpower_plus. f_equal. ring. }
  assert (Rpower X p = Rpower (X / 2) p * Rpower 2 p) as E2 by (rewrite Rpower_mult_distr by lra; f_equal; field).
  assert (0 < Rpower 2 p) as P2 by apply exp_pos. pose proof (exp_pos (X / 2)). 
  replace (X * (Rpower X (p - 1) * / exp (X / 2) / (Rpower 2 p * gam))) with (X * Rpower X (p - 1) * / exp (X / 2) / (Rpower 2 p * gam)) by (field; lra).
  rewrite <- E1, E2. field. lra.
Qed.
Definition Qh (t : R) : R := Q (2 * t).
Lemma Qh_deriv t : 0 < t -> derivable_pt_lim Qh t (- (w t / t)).
Proof.
  intros Ht. destruct HQ as (_ & _ & _ & _ & D). specialize (D (2 * t) ltac:(lra)).
  assert (derivable_pt_lim (fun t => 2 * t) t (2 * 1)) as D2 by (apply (derivable_pt_lim_scal id), derivable_pt_lim_id).
  eapply deq; [|exact (derivable_pt_lim_comp _ Q t _ _ D2 D)].
  pose proof (wt_density (2 * t) ltac:(lra)) as E. replace (2 * t / 2) with t in E by field. rewrite <- E. field. lra.
Qed.
Lemma Qh_inf : liminf Qh 0.
Proof.
  intros e He. destruct HQ as (_ & _ & _ & L & _). destruct (L e He) as [b Hb]. exists (Rmax b 0). intros t Ht. rewrite Rminus_0_r. apply Hb.
  pose proof (Rmax_l b 0). pose proof (Rmax_r b 0). lra.
Qed.
Lemma Qh_0 : lim0 Qh 1.
Proof.
  intros e He. destruct HQ as (_ & _ & L & _ & _). destruct (L e He) as (b & Pb & Hb). exists (b / 2). split; [lra|]. intros t Ht. apply Hb. lra.
Qed.

(** * The whole function *)
Context (Hj : (Z.of_nat j <= 9999)%Z) (lg : R -> R) (Hlg : lg p = ln gam) (X : R).
Context (acu oflo uflo : R) (Hacu : / 2 ^ 27 <= acu) (Hacu50 : (2 / 3) ^ 50 <= acu) (Ho : 0 < oflo) (Hu : 0 < uflo).
Notation Ar := (reals acu oflo uflo lg).
Notation x := (X / 2).

Lemma frac_part : 1 < x -> p <= x -> exists g, 
  frac_gen Ar (Z.to_nat 10000) (w x) (1 - p) (1 - p + x + 1) 0 ((x + 1) / (x * (1 - p + x + 1))) 1 x (x + 1) (x * (1 - p + x + 1)) = (1 - w x * g, true) /\
  Rabs (w x * g - Q X) <= 7 * acu * w x.
Proof.
  intros H1 Hpx. pose proof p_pos as Hp.
  assert (goodK w Qh x acu oflo uflo lg 7 (Z.to_nat 10000) (w x) (1 - p) (1 - p + x + 1) 0 ((x + 1) / (x * (1 - p + x + 1))) 1 x (x + 1) (x * (1 - p + x + 1))) as (g & E & B).
  { assert (0 < acu) as Pa by (apply Rlt_le_trans with (2 := Hacu), Rinv_0_lt_compat, pow_lt; lra).
    assert (forall t, 0 < t -> 0 < w t) as Hw by (intros; apply wt_pos).
    pose proof (wt_deriv p (ln gam)) as Dw. pose proof (wt_inf p (ln gam) ltac:(lra)) as Lw.
    assert (1 <= x) as Hx1 by lra.
    destruct (le_lt_dec 15 j) as [H15|H15].
    - apply (startK p w Qh Hw Dw Qh_deriv Lw Qh_inf x Hx1 Hpx Hp acu oflo uflo lg Pa Ho 7 ltac:(lra) (j - 1)); try lia.
      + rewrite minus_INR by lia. cbn [INR]. lra.
      + pose proof (u_early j p eq_refl x Hx1 Hpx ltac:(lia)) as U. apply Rle_trans with (1 := U).
        assert (4 ^ 15 <= 4 ^ j) as P4 by (apply Rle_pow; [lra|exact H15]).
        assert (2 / 4 ^ j <= 2 / 4 ^ 15) as L by (apply Rmult_le_compat_l; [lra|]; apply Rinv_le_contravar; [apply pow_lt; lra|exact P4]).
        assert (2 / 4 ^ 15 = / 2 ^ 29) as E4 by (cbn [pow]; field). assert (/ 2 ^ 29 * 4 = / 2 ^ 27) as E5 by (cbn [pow]; field).
        assert (0 < / 2 ^ 29) by (apply Rinv_0_lt_compat, pow_lt; lra). lra.
      + pose proof (u_early j p eq_refl x Hx1 Hpx ltac:(lia)) as U. replace (S (j - 1)) with j by lia.
        assert (INR j <= 2 ^ j) as Hj2 by (clear; induction j as [|i IH]; [cbn; lra|]; rewrite S_INR; cbn [pow]; pose proof (pow_R1_Rle 2 i ltac:(lra)); lra).
        assert (2 ^ 15 <= 2 ^ j) as P2 by (apply Rle_pow; [lra|exact H15]). assert (2 ^ 15 = 32768) as E15 by (cbn [pow]; ring).
        apply Rle_trans with (2 ^ j * (2 / 4 ^ j)).
        * apply Rmult_le_compat; [apply pos_INR|apply u_nonneg; lra|exact Hj2|exact U].
        * replace 4 with (2 * 2) by lra. rewrite Rpow_mult_distr. set (z := 2 ^ j) in *. replace (z * (2 / (z * z))) with (2 * / z) by (field; lra).
          replace (/ 6) with (1 * / 6) by ring. apply ratio_le; lra.
      + intros n Hn. destruct (Nat.eq_dec n (j - 1)) as [E|E].
        * right. apply (err_ratio p w Qh Hw Dw Qh_deriv Lw Qh_inf x Hx1 Hpx n (INR n) 7); [apply pos_INR| |].
          -- intros t Ht. apply (y_early j p eq_refl x Hx1 Hpx n); [lia|exact Ht].
          -- pose proof (y_high j p eq_refl x Hx1 Hpx n ltac:(lia)). pose proof (pos_INR n). assert (1 <= INR n) by (apply (le_INR 1); lia). lra.
        * left. assert (INR (n + 2) <= INR j) as L by (apply le_INR; lia). rewrite plus_INR in L. cbn [INR] in L. lra.
    - apply (startK p w Qh Hw Dw Qh_deriv Lw Qh_inf x Hx1 Hpx Hp acu oflo uflo lg Pa Ho 7 ltac:(lra) 38%nat); try lia.
      + assert (INR j <= INR 14) as L by (apply le_INR; lia). cbn [INR] in *. lra.
      + apply Rle_trans with (1 := u_tab j p eq_refl x Hx1 Hpx 38 ltac:(lia) ltac:(lia)). apply Rle_trans with (/ 2 ^ 27 / 2); [|lra].
        replace (/ 2 ^ 27 / 2) with (1 * / IZR (2 ^ 28)) by (rewrite (pow_IZR 2 27); change (2 ^ 28)%Z with (2 ^ 27 * 2)%Z; rewrite mult_IZR; change (2 ^ Z.of_nat 27)%Z with (2 ^ 27)%Z; assert (0 < IZR (2 ^ 27)) by (apply IZR_lt; reflexivity); field; lra).
        apply ratio_le; [apply IZR_lt, ud_pos|apply IZR_lt; reflexivity|]. rewrite <- !mult_IZR. apply IZR_le. vm_compute. discriminate.
      + apply Rle_trans with (INR 39 * (IZR (un 38) / IZR (ud 38))).
        * apply Rmult_le_compat_l; [apply pos_INR|]. exact (u_tab j p eq_refl x Hx1 Hpx 38 ltac:(lia) ltac:(lia)).
        * rewrite INR_IZR_INZ. unfold Rdiv. rewrite <- Rmult_assoc, <- mult_IZR. replace (/ 6) with (1 * / 6) by ring.
          apply ratio_le; [apply IZR_lt, ud_pos|lra|]. rewrite <- !mult_IZR. apply IZR_le. vm_compute. discriminate.
      + intros n Hn. destruct (le_lt_dec j (S n)) as [E|E].
        * right. apply (err_ratio p w Qh Hw Dw Qh_deriv Lw Qh_inf x Hx1 Hpx n (yr n) 7); [apply yr_pos|apply (y_tab j p eq_refl x Hx1 Hpx n)|].
          pose proof (y_high j p eq_refl x Hx1 Hpx n E) as Hy. pose proof (tab n ltac:(lia)) as T. apply andb_prop in T as [_ T]. apply Z.leb_le in T.
          apply IZR_le in T. rewrite !mult_IZR, !plus_IZR, !mult_IZR, <- INR_IZR_INZ in T. unfold yr. lra.
        * left. assert (INR (n + 2) <= INR j) as L by (apply le_INR; lia). rewrite plus_INR in L. cbn [INR] in L. lra. }
  exists g. split; [exact E|]. assert (Q X = w x * Gv w Qh x) as ->.
  { unfold Gv, Qh. replace (2 * x) with X by field. pose proof (wt_pos p (ln gam) x). field. lra. }
  rewrite <- Rmult_minus_distr_l, Rabs_mult, (Rabs_pos_eq (w x)) by (left; apply wt_pos). rewrite (Rmult_comm (7 * acu)).
  apply Rmult_le_compat_l; [left; apply wt_pos|exact B].
Qed.

Lemma series_part : 0 < x -> x <= 1 \/ x <= p -> exists g, series_gen Ar (Z.to_nat 10000) x p 1 1 = (g, true) /\ Rabs (1 - g * w x / p - Q X) <= 4 / 3 * acu * w x.
Proof.
  intros H0 Hx. pose proof p_pos as Hp. rewrite (steps10000 1) by lia.
  destruct (ser_value p Hp acu oflo uflo lg x H0 Hx (Z.to_nat 5000)) as (N & E & HN & Ht).
  - rewrite (INR_IZR_INZ (Z.to_nat 5000)), Z2Nat.id by lia. assert (INR j <= 9999) by (rewrite INR_IZR_INZ; apply (IZR_le _ 9999), Hj). lra.
  - apply Rle_trans with (2 := Hacu50). replace (Z.to_nat 5000) with (50 + Z.to_nat 4950)%nat by lia. rewrite pow_add.
    rewrite <- (Rmult_1_r ((2 / 3) ^ 50)) at 2. apply Rmult_le_compat_l; [apply pow_le; lra|].
    rewrite <- (pow1 (Z.to_nat 4950)). apply pow_incr. lra.
  - lia.
  - exists (sm p N x). split; [exact E|]. 
    pose proof (ser_bound p Hp w Qh (fun t _ => wt_pos p (ln gam) t) (wt_deriv p (ln gam)) Qh_deriv (wt_0 p (ln gam) ltac:(lra)) Qh_0 acu x H0 Hx N HN Ht) as B.
    unfold Qh in B. replace (2 * x) with X in B by field. exact B.
Qed.

Lemma pval_eqo : pvalue_gen Ar (2 * Z.of_nat j + 1) X = let '(v, e) := gamain_gen Ar x p in (1 - v, Z.eqb e 0).
Proof.
  unfold pvalue_gen. change (o_ofZ R Ar (u32 (2 * Z.of_nat j + 1))) with (IZR (u32 (2 * Z.of_nat j + 1))).
  change (o_half R Ar) with (1 / 2). change (o_mul R Ar) with Rmult.
  assert (IZR (u32 (2 * Z.of_nat j + 1)) * (1 / 2) = p) as ->; [|reflexivity].
  unfold u32. rewrite Z.mod_small by lia. rewrite plus_IZR, mult_IZR, <- INR_IZR_INZ. field.
Qed.
Lemma gam_eqo : 0 < X -> gamain_gen Ar x p =
  if Rlt_bool (w x) uflo then (0, 3%Z)
  else if Rle_bool x 1 || Rlt_bool x p
  then let '(g, ok) := series_gen Ar (Z.to_nat 10000) x p 1 1 in (g * w x / p, if ok : bool then 0%Z else 5%Z)
  else let '(v, ok) := frac_gen Ar (Z.to_nat 10000) (w x) (1 - p) (1 - p + x + 1) 0 ((x + 1) / (x * (1 - p + x + 1))) 1 x (x + 1)
         (x * (1 - p + x + 1)) in (v, if ok : bool then 0%Z else 6%Z).
Proof.
  intros P. pose proof p_pos as Hp. unfold gamain_gen.
  cbn [reals o_ofZ o_half o_acu o_oflo o_uflo o_add o_sub o_mul o_div o_abs o_leb o_ltb o_eqb o_lgamma o_log o_exp].
  rewrite (Rle_bool_false p 0) by lra. rewrite (Rlt_bool_false x 0) by lra. rewrite (Req_bool_false x 0) by lra.
  rewrite Hlg. fold (w x).
  replace (Rlt_bool (p * ln x - x - ln gam) (ln uflo)) with (Rlt_bool (w x) uflo); [reflexivity|].
  unfold wt. set (arg := p * ln x - x - ln gam).
  destruct (Rlt_bool_spec (exp arg) uflo) as [Z|Z]; symmetry; [apply Rlt_bool_true|apply Rlt_bool_false].
  - rewrite <- (ln_exp arg). apply ln_increasing; [apply exp_pos|exact Z].
  - rewrite <- (ln_exp arg). destruct Z as [Z|Z]; [left; apply ln_increasing; assumption|rewrite Z; lra].
Qed.
Lemma oddval : 0 < X -> uflo <= w x -> exists v, pvalue_gen Ar (2 * Z.of_nat j + 1) X = (v, true) /\ Rabs (v - Q X) <= 7 * acu * w x.
Proof.
  intros P W. rewrite pval_eqo, gam_eqo by exact P. rewrite Rlt_bool_false by exact W. pose proof (wt_pos p (ln gam) x) as Pw.
  assert (0 < acu) as Pa by (apply Rlt_le_trans with (2 := Hacu), Rinv_0_lt_compat, pow_lt; lra).
  destruct (Rle_bool_spec x 1) as [H1|H1]; cbn [orb]; [|destruct (Rlt_bool_spec x p) as [H2|H2]].
  - destruct (series_part ltac:(lra) (or_introl H1)) as (g & -> & B). eexists. split; [reflexivity|]. eapply Rle_trans; [exact B|]. nra.
  - destruct (series_part ltac:(lra) (or_intror (Rlt_le _ _ H2))) as (g & -> & B). eexists. split; [reflexivity|]. eapply Rle_trans; [exact B|]. nra.
  - destruct (frac_part H1 H2) as (g & -> & B). eexists. split; [reflexivity|]. replace (1 - (1 - w x * g) - Q X) with (w x * g - Q X) by ring. exact B.
Qed.
Lemma oddunder : 0 < X -> w x < uflo -> pvalue_gen Ar (2 * Z.of_nat j + 1) X = (1, false).
Proof. intros P W. rewrite pval_eqo, gam_eqo by exact P. rewrite Rlt_bool_true by exact W. cbn. f_equal. ring. Qed.
Lemma oddzero : X = 0 -> pvalue_gen Ar (2 * Z.of_nat j + 1) X = (1, true).
Proof.
  intros E. rewrite pval_eqo, E. unfold gamain_gen. pose proof p_pos.
  cbn [reals o_ofZ o_half o_acu o_oflo o_uflo o_add o_sub o_mul o_div o_abs o_leb o_ltb o_eqb o_lgamma o_log o_exp].
  replace (0 / 2) with 0 by field. rewrite Rle_bool_false by lra. rewrite Rlt_bool_false by lra. rewrite Req_bool_true by lra. cbn. f_equal. ring.
Qed.
End Chi.

Lemma acu27 : / 2 ^ 27 <= B2R d_1em8.
Proof.
  rewrite acu_val. replace (/ 2 ^ 27) with (1 * / IZR (2 ^ 27)) by (rewrite (pow_IZR 2 27), Rmult_1_l; reflexivity).
  apply ratio_le; [apply IZR_lt; reflexivity|apply IZR_lt; reflexivity|]. rewrite <- !mult_IZR. apply IZR_le. vm_compute. discriminate.
Qed.

Lemma odd_claim lg j gam Q X : (Z.of_nat j <= 9999)%Z -> chi_tail (2 * j + 1) gam Q -> lg (INR (2 * j + 1) / 2) = ln gam -> 0 <= X ->
  (0 < X -> X * chi_density (2 * j + 1) gam X < B2R d_1em37 -> pvalue_gen (real lg) (Z.of_nat (2 * j + 1)) X = (1, false)) /\
  (X = 0 \/ B2R d_1em37 <= X * chi_density (2 * j + 1) gam X ->
     exists v, pvalue_gen (real lg) (Z.of_nat (2 * j + 1)) X = (v, true) /\ Rabs (v - Q X) <= 7 * B2R d_1em8 * (X * chi_density (2 * j + 1) gam X)).
Proof.
  intros Hj HQ Hlg HX. rewrite half_p in Hlg. replace (Z.of_nat (2 * j + 1)) with (2 * Z.of_nat j + 1)%Z by lia. unfold real. split.
  - intros P W. rewrite (wt_density j gam Q HQ X P) in W. apply (oddunder j gam Hj lg Hlg X); assumption || exact uflo_pos.
  - intros W. destruct (Req_dec X 0) as [E|E].
    + exists 1. split; [apply oddzero; assumption|]. destruct HQ as (_ & Q0 & _). rewrite E, Q0, Rminus_diag_eq, Rabs_R0 by reflexivity. lra.
    + destruct W as [W|W]; [contradiction|]. assert (0 < X) as P by lra. rewrite (wt_density j gam Q HQ X P) in *.
      apply oddval; try assumption; [exact acu27|exact acu_big|exact oflo_pos|exact uflo_pos].
Qed.
