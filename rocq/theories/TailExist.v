(** The chi-squared distribution with an odd number of degrees of freedom exists and is determined by its description. *)
From Coq Require Import Reals Lra Lia Psatz ZArith.
From Verif Require Import TailSpec TailOddSpec Tail TailHalf TailOdd TailOddVal.
Open Scope R_scope.

(** * Uniqueness *)

Lemma const_zero f x z : 0 < x -> 0 < z -> (forall t, 0 < t -> derivable_pt_lim f t 0) -> f x = f z.
Proof.
  intros Hx Hz D. destruct (Rle_dec x z) as [L|L].
  - apply Rle_antisym; [apply (mono_up f (fun _ => 0)); [exact L|intros; apply D; lra|intros; lra]|].
    apply Ropp_le_cancel. apply (mono_up (fun t => - f t) (fun _ => - 0)); [exact L|intros; apply derivable_pt_lim_opp, D; lra|intros; lra].
  - apply Rle_antisym; [|apply (mono_up f (fun _ => 0)); [lra|intros; apply D; lra|intros; lra]].
    apply Ropp_le_cancel. apply (mono_up (fun t => - f t) (fun _ => - 0)); [lra|intros; apply derivable_pt_lim_opp, D; lra|intros; lra].
Qed.
Lemma chi_unique d g1 Q1 g2 Q2 : chi_tail d g1 Q1 -> chi_tail d g2 Q2 -> g1 = g2 /\ forall X, 0 <= X -> Q1 X = Q2 X.
Proof.
  intros (P1 & Z1 & L1 & I1 & D1) (P2 & Z2 & L2 & I2 & D2).
  set (f := fun X => g1 * Q1 X + - g2 * Q2 X).
  assert (forall t, 0 < t -> derivable_pt_lim f t 0) as Df.
  { intros t Ht. eapply deq; [|exact (derivable_pt_lim_plus _ _ t _ _ (derivable_pt_lim_scal Q1 g1 t _ (D1 t Ht)) (derivable_pt_lim_scal Q2 (- g2) t _ (D2 t Ht)))].
    unfold chi_density. assert (0 < Rpower 2 (INR d / 2)) by apply exp_pos. field. lra. }
  assert (liminf f 0) as Lf.
  { assert (liminf Q1 0) as LQ1 by (intros e He; destruct (I1 e He) as [b Hb]; exists b; intros; rewrite Rminus_0_r; auto).
    assert (liminf Q2 0) as LQ2 by (intros e He; destruct (I2 e He) as [b Hb]; exists b; intros; rewrite Rminus_0_r; auto).
    pose proof (liminf_plus _ _ _ _ (liminf_scal g1 _ _ LQ1) (liminf_scal (- g2) _ _ LQ2)) as L. rewrite !Rmult_0_r, Rplus_0_r in L. exact L. }
  assert (forall X, 0 < X -> f X = 0) as F0.
  { intros X HX. apply cond_eq. intros e He. destruct (Lf e He) as [M HM]. set (t := Rmax M 1 + 1).
    pose proof (Rmax_l M 1). pose proof (Rmax_r M 1). rewrite (const_zero f X t HX ltac:(unfold t; lra) Df). apply HM. unfold t. lra. }
  assert (lim0 f (g1 * 1 + - g2 * 1)) as L0 by (apply lim0_plus; apply lim0_scal; assumption).
  assert (g1 = g2) as E.
  { cut (g1 * 1 + - g2 * 1 = 0); [lra|]. apply cond_eq. intros e He. destruct (L0 e He) as (b & Pb & Hb). specialize (Hb (b / 2) ltac:(lra)).
    rewrite F0 in Hb by lra. rewrite Rabs_minus_sym in Hb. exact Hb. }
  split; [exact E|]. intros X [HX|<-]; [|lra]. specialize (F0 X HX). unfold f in F0. rewrite <- E in F0.
  apply (Rmult_eq_reg_l g1); lra.
Qed.

(** * The integral *)

Section Int.
Context (f : R -> R) (Cf : continuity f) (a : R).
Lemma int_ex s : a <= s -> Riemann_integrable f a s.
Proof. intros H. apply continuity_implies_RiemannInt; [exact H|]. intros; apply Cf. Qed.
Definition F (s : R) : R := match Rle_dec a s with left h => RiemannInt (int_ex s h) | right _ => 0 end.
Lemma F_deriv s : a < s -> derivable_pt_lim F s (f s).
Proof.
  intros Hs. assert (a <= s + 1) as h by lra.
  pose proof (RiemannInt_P27 (f := f) (x := s) h (fun x _ => Cf x) ltac:(lra)) as D. 
  assert (forall t, a <= t <= s + 1 -> F t = primitive h (FTC_P1 h (fun x _ => Cf x)) t) as E.
  { intros t Ht. unfold F, primitive. destruct (Rle_dec a t) as [h1|h1]; [|lra]. destruct (Rle_dec t (s + 1)) as [h2|h2]; [|lra]. apply RiemannInt_P5. }
  intros e He. destruct (D e He) as [d Hd]. assert (0 < Rmin d (Rmin (s - a) 1)) as Pd by (repeat apply Rmin_glb_lt; [apply cond_pos|lra|lra]).
  exists (mkposreal _ Pd). intros z Hz Hzd. cbn in Hzd.
  pose proof (Rmin_l d (Rmin (s - a) 1)). pose proof (Rmin_r d (Rmin (s - a) 1)). pose proof (Rmin_l (s - a) 1). pose proof (Rmin_r (s - a) 1).
  assert (- Rmin (s - a) 1 <= z <= Rmin (s - a) 1) by (pose proof (Rle_abs z); pose proof (Rle_abs (- z)) as RZ; rewrite Rabs_Ropp in RZ; lra). rewrite !E by lra. apply Hd; [exact Hz|lra].
Qed.
End Int.

Section Exist.
Context (j : nat).
Definition fj (s : R) : R := s ^ (2 * j) * exp (- (s * s / 2)).
Lemma fj_cont : continuity fj.
Proof.
  assert (derivable fj) as D; [|apply derivable_continuous; exact D].
  unfold fj. apply (derivable_mult (fun s => s ^ (2 * j)) (fun s => exp (- (s * s / 2)))); [apply derivable_pow|].
  apply (derivable_comp (fun s => - (s * s / 2)) exp); [|apply derivable_exp]. apply (derivable_opp (fun s => s * s / 2)).
  apply (derivable_div (fun s => s * s) (fct_cte 2)); [apply derivable_mult; apply derivable_id|apply derivable_const|]. intros x. unfold fct_cte. lra.
Qed.
Lemma fj_pos s : 0 < s -> 0 < fj s.
Proof. intros Hs. unfold fj. apply Rmult_lt_0_compat; [apply pow_lt; exact Hs|apply exp_pos]. Qed.
Notation FF := (F fj fj_cont (-1)).
Lemma FF_deriv s : -1 < s -> derivable_pt_lim FF s (fj s). Proof. apply F_deriv. Qed.

Definition Kj : R := exp 1 * (4 ^ j * INR (fact j)).
Lemma Kj_pos : 0 < Kj.
Proof. unfold Kj. apply Rmult_lt_0_compat; [apply exp_pos|]. apply Rmult_lt_0_compat; [apply pow_lt; lra|apply INR_fact_lt_0]. Qed.
Lemma fj_bound s : 0 <= s -> fj s <= Kj * exp (- s).
Proof.
  intros Hs. unfold fj, Kj. rewrite pow_mult. set (z := s * s / 4). assert (0 <= z) as Pz by (unfold z; nra).
  pose proof (pow_fact_exp j z Pz) as B. pose proof (INR_fact_lt_0 j) as PF.
  assert (s ^ 2 = 4 * z) as -> by (unfold z; cbn; field). rewrite Rpow_mult_distr.
  assert (z ^ j <= INR (fact j) * exp z) as B1 by (apply (Rmult_le_compat_l (INR (fact j))) in B; [|lra]; replace (INR (fact j) * (z ^ j / INR (fact j))) with (z ^ j) in B by (field; lra); exact B).
  assert (0 < 4 ^ j) as P4 by (apply pow_lt; lra).
  apply Rle_trans with (4 ^ j * (INR (fact j) * exp z) * exp (- (s * s / 2))).
  - apply Rmult_le_compat_r; [left; apply exp_pos|]. apply Rmult_le_compat_l; lra.
  - replace (4 ^ j * (INR (fact j) * exp z) * exp (- (s * s / 2))) with (4 ^ j * INR (fact j) * (exp z * exp (- (s * s / 2)))) by ring.
    replace (exp 1 * (4 ^ j * INR (fact j)) * exp (- s)) with (4 ^ j * INR (fact j) * (exp 1 * exp (- s))) by ring.
    apply Rmult_le_compat_l; [apply Rlt_le, Rmult_lt_0_compat; assumption|]. rewrite <- !exp_plus.
    assert (z + - (s * s / 2) <= 1 + - s) as L by (unfold z; pose proof (Rle_0_sqr (s - 2)) as S2; unfold Rsqr in S2; lra).
    destruct L as [L|L]; [left; apply exp_increasing; exact L|rewrite L; lra].
Qed.
Lemma FF_mono s t : 0 <= s <= t -> FF s <= FF t.
Proof.
  intros H. apply (mono_up FF fj); [lra|intros; apply FF_deriv; lra|]. intros c Hc. unfold fj. apply Rmult_le_pos; [apply pow_le; lra|left; apply exp_pos].
Qed.
Lemma FF_strict : FF 0 < FF 1.
Proof.
  destruct (MVT_cor2 FF fj 0 1 ltac:(lra)) as (c & E & Hc); [intros; apply FF_deriv; lra|]. pose proof (fj_pos c ltac:(lra)). lra.
Qed.
Lemma FF_bound s : 0 <= s -> FF s <= FF 0 + Kj.
Proof.
  intros Hs.
  assert (- FF 0 + - Kj * exp (- 0) <= - FF s + - Kj * exp (- s)) as M.
  { apply (mono_up (fun s => - FF s + - Kj * exp (- s)) (fun s => - fj s + - Kj * (exp (- s) * - (1)))); [exact Hs| |].
    - intros c Hc. apply (derivable_pt_lim_plus (fun s => - FF s) (fun s => - Kj * exp (- s))).
      + apply (derivable_pt_lim_opp FF), FF_deriv. lra.
      + apply (derivable_pt_lim_scal (fun s => exp (- s))). apply (derivable_pt_lim_comp (fun s => - s) exp); [|apply derivable_pt_lim_exp].
        apply (derivable_pt_lim_opp id), derivable_pt_lim_id.
    - intros c Hc. pose proof (fj_bound c ltac:(lra)). lra. }
  rewrite Ropp_0, exp_0 in M. pose proof Kj_pos. pose proof (exp_pos (- s)). nra.
Qed.

Lemma FF_limit : exists l, liminf FF l /\ FF 1 <= l.
Proof.
  destruct (completeness (fun v => exists s, 0 <= s /\ v = FF s)) as [l [U M]].
  - exists (FF 0 + Kj). intros v (s & Hs & ->). apply FF_bound, Hs.
  - exists (FF 0), 0. split; [lra|reflexivity].
  - exists l. split; [|apply U; exists 1; split; [lra|reflexivity]].
    intros e He. destruct (Classical_Prop.classic (exists s, 0 <= s /\ l - e < FF s)) as [(s & Hs & L)|N].
    + exists s. intros t Ht. pose proof (FF_mono s t ltac:(lra)). assert (FF t <= l) by (apply U; exists t; split; [lra|reflexivity]). apply Rabs_def1; lra.
    + assert (l <= l - e); [|lra]. apply M. intros v (s & Hs & ->). apply Rnot_lt_le. intros L. apply N. exists s. split; assumption.
Qed.

Lemma chi_odd_exists : exists gam Q, chi_tail (2 * j + 1) gam Q.
Proof.
  destruct FF_limit as (l & Hl & H1). pose proof FF_strict as HS. set (T := l - FF 0). assert (0 < T) as PT by (unfold T; lra).
  assert (0 < Rpower 2 (INR (2 * j + 1) / 2)) as P2 by apply exp_pos. set (gam := 2 * T / Rpower 2 (INR (2 * j + 1) / 2)).
  exists gam, (fun X => (l - FF (sqrt X)) / T). split; [apply Rdiv_lt_0_compat; lra|]. split; [rewrite sqrt_0; fold T; field; lra|]. split; [|split].
  - intros e He. assert (continuity_pt FF 0) as C0 by (apply derivable_continuous_pt; exists (fj 0); apply FF_deriv; lra).
    destruct (C0 (e * T)) as (d & Pd & Hd); [apply Rmult_lt_0_compat; lra|]. exists (d * d). split; [apply Rmult_lt_0_compat; lra|].
    intros X HX. assert (0 < sqrt X) as Ps by (apply sqrt_lt_R0; lra).
    assert (sqrt X < d) as Hs by (rewrite <- (sqrt_square d) by lra; apply sqrt_lt_1; nra).
    specialize (Hd (sqrt X)). cbn in Hd. unfold R_dist in Hd. specialize (Hd ltac:(split; [split; [exact I|lra]|rewrite Rminus_0_r, Rabs_pos_eq; lra])).
    replace ((l - FF (sqrt X)) / T - 1) with (- (FF (sqrt X) - FF 0) / T) by (unfold T; field; unfold T in PT; lra).
    unfold Rdiv. rewrite Rabs_mult, Rabs_Ropp, (Rabs_pos_eq (/ T)) by (left; apply Rinv_0_lt_compat; exact PT).
    apply Rmult_lt_reg_r with T; [exact PT|]. rewrite Rmult_assoc, Rinv_l, Rmult_1_r by lra. exact Hd.
  - intros e He. destruct (Hl (e * T)) as [M HM]; [apply Rmult_lt_0_compat; lra|]. exists (Rmax M 0 * Rmax M 0). intros X HX.
    pose proof (Rmax_l M 0). pose proof (Rmax_r M 0). assert (Rmax M 0 < sqrt X) as Hs by (rewrite <- (sqrt_square (Rmax M 0)) by lra; apply sqrt_lt_1; nra).
    specialize (HM (sqrt X) ltac:(lra)). unfold Rdiv. rewrite Rabs_mult, Rabs_minus_sym, (Rabs_pos_eq (/ T)) by (left; apply Rinv_0_lt_compat; exact PT).
    apply Rmult_lt_reg_r with T; [exact PT|]. rewrite Rmult_assoc, Rinv_l, Rmult_1_r by lra. exact HM.
  - intros X HX. assert (0 < sqrt X) as Ps by (apply sqrt_lt_R0; lra). pose proof (sqrt_sqrt X ltac:(lra)) as SS.
    pose proof (derivable_pt_lim_comp sqrt FF X _ _ (derivable_pt_lim_sqrt X HX) (FF_deriv (sqrt X) ltac:(lra))) as D.
    pose proof (derivable_pt_lim_scal _ (- / T) X _ D) as D2.
    pose proof (derivable_pt_lim_plus _ _ X _ _ (derivable_pt_lim_const (l / T) X) D2) as D3.
    eapply dext; [|eapply deq; [|exact D3]].
    + intros z. unfold plus_fct, fct_cte, mult_real_fct, comp. field. lra.
    + unfold chi_density, gam. rewrite (half_p j). unfold fj. rewrite SS, pow_mult. replace (sqrt X ^ 2) with X by (cbn [pow]; lra).
      assert (Rpower X (INR j + 1 / 2 - 1) = X ^ j / sqrt X) as ->.
      { replace (INR j + 1 / 2 - 1) with (INR j + - / 2) by field. rewrite Rpower_plus, Rpower_pow, Rpower_Ropp, Rpower_sqrt by exact HX. reflexivity. }
      rewrite (half_p j) in P2. field. repeat split; lra.
Qed.
End Exist.

(** * The description also fits the even case *)
Lemma chi_even m : (1 <= m)%nat -> chi_tail (2 * m) (INR (fact (Nat.pred m))) (tail_mass m).
Proof.
  intros Hm. pose proof (INR_fact_lt_0 (Nat.pred m)) as PF.
  assert (INR (2 * m) / 2 = INR m) as Eh by (rewrite mult_INR; cbn [INR]; field).
  split; [exact PF|]. split; [apply tail_zero; exact Hm|]. split; [|split].
  - intros e He. assert (continuity_pt (tail_mass m) 0) as C0 by (apply derivable_continuous_pt; exists (- density m 0); apply tail_deriv; exact Hm).
    destruct (C0 e He) as (d & Pd & Hd). exists d. split; [exact Pd|]. intros X HX. specialize (Hd X). cbn in Hd. unfold R_dist in Hd.
    rewrite tail_zero in Hd by exact Hm. apply Hd. split; [split; [exact I|lra]|]. rewrite Rminus_0_r, Rabs_pos_eq; lra.
  - intros e He. destruct (wt_inf (INR m) 0 ltac:(apply lt_0_INR; lia) (e / (exp 1 * INR (S m)))) as [M HM].
    { apply Rdiv_lt_0_compat; [exact He|]. apply Rmult_lt_0_compat; [apply exp_pos|apply lt_0_INR; lia]. }
    exists (2 * Rmax M 1). intros X HX. pose proof (Rmax_l M 1). pose proof (Rmax_r M 1). set (x := X / 2). assert (1 < x) as Hx by (unfold x; lra).
    specialize (HM x ltac:(unfold x; lra)). rewrite Rminus_0_r, Rabs_pos_eq in HM by (left; apply wt_pos).
    assert (0 <= tail_mass m X <= exp (- x) * (exp 1 * x ^ m)) as [B0 B1].
    { unfold tail_mass. fold x. pose proof (exp_pos (- x)) as PE. destruct m as [|k]; [lia|]. cbn [Nat.pred].
      assert (0 <= exp_upto k x <= exp 1 * x ^ S k) as [U0 U1]; [|split; [apply Rmult_le_pos; lra|apply Rmult_le_compat_l; lra]].
      split; [unfold exp_upto; apply cond_pos_sum; intros; apply term_pos; lra|].
      apply Rle_trans with (exp_upto k 1 * x ^ S k); [|apply Rmult_le_compat_r; [apply pow_le; lra|apply exp_lower; lra]].
      unfold exp_upto. rewrite <- (Rmult_comm (x ^ S k)), scal_sum. apply sum_Rle. intros n Hn. rewrite pow1. unfold Rdiv.
      rewrite Rmult_1_l, Rmult_comm. apply Rmult_le_compat_l; [left; apply Rinv_0_lt_compat, INR_fact_lt_0|]. apply Rle_pow; [lra|lia]. }
    rewrite Rabs_pos_eq by exact B0. eapply Rle_lt_trans; [exact B1|]. unfold wt in HM. rewrite Rminus_0_r in HM.
    unfold Rminus in HM. rewrite exp_plus in HM. change (exp (INR m * ln x)) with (Rpower x (INR m)) in HM. rewrite Rpower_pow in HM by lra.
    assert (1 <= INR (S m)) by (apply (le_INR 1); lia). pose proof (exp_pos 1) as PE1. set (W := x ^ m * exp (- x)) in *.
    replace (exp (- x) * (exp 1 * x ^ m)) with (exp 1 * W) by (unfold W; ring).
    assert (0 < W) by (unfold W; apply Rmult_lt_0_compat; [apply pow_lt; lra|apply exp_pos]).
    apply (Rmult_lt_compat_l (exp 1 * INR (S m))) in HM; [|apply Rmult_lt_0_compat; lra].
    replace (exp 1 * INR (S m) * (e / (exp 1 * INR (S m)))) with e in HM by (field; lra). nra.
  - intros X HX. eapply deq; [|apply tail_deriv; exact Hm]. f_equal. unfold chi_density, density. rewrite Eh, Rpower_pow by lra.
    replace (INR m - 1) with (INR (Nat.pred m)) by (destruct m; [lia|rewrite S_INR; cbn [Nat.pred]; ring]). rewrite Rpower_pow by exact HX. reflexivity.
Qed.

(** * A bound on the constant for one degree of freedom *)
Lemma gam_one gam Q : chi_tail 1 gam Q -> gam <= 7.
Proof.
  intros HQ. change 1%nat with (2 * 0 + 1)%nat in HQ. pose proof (gam_pos 0 gam Q HQ) as Pg.
  pose proof (p_pos 0) as Hp. set (p := INR 0 + 1 / 2) in *. assert (p = 1 / 2) as Ep by (unfold p; cbn; lra). set (w := wt p (ln gam)).
  assert (forall t, 0 < t -> 0 < w t) as Hw by (intros; apply wt_pos).
  pose proof (wt_deriv p (ln gam)) as Dw. pose proof (Qh_deriv 0 gam Q HQ) as DQ. fold p in DQ.
  destruct (ser_err p Hp w (Qh Q) Hw Dw DQ (wt_0 p (ln gam) ltac:(lra)) (Qh_0 0 gam Q HQ) 0 1) as [_ B]; [lra|cbn [INR]; lra|].
  pose proof (err_sign p w (Qh Q) Hw Dw DQ (wt_inf p (ln gam) ltac:(lra)) (Qh_inf 0 gam Q HQ) 0 1 (-1) ltac:(lra) ltac:(lra) ltac:(cbn; lra)) as Sg.
  rewrite A_0, q_0 in Sg. unfold Gv in Sg. replace (1 / (1 * 1)) with 1 in Sg by field. pose proof (Hw 1 ltac:(lra)) as P1. cbn [sm tm INR] in B.
  assert (Qh Q 1 <= w 1) as B2.
  { assert (Qh Q 1 / w 1 <= 1) as Z by lra. apply (Rmult_le_compat_r (w 1)) in Z; [|lra]. replace (Qh Q 1 / w 1 * w 1) with (Qh Q 1) in Z by (field; lra). lra. }
  assert (1 <= 7 * w 1) as B3.
  { replace (w 1 * (1 * 1) / (p * (p + 0 + 1 - 1))) with (4 * w 1) in B by (rewrite Ep; field). replace (w 1 * 1 / p) with (2 * w 1) in B by (rewrite Ep; field). lra. }
  unfold w, wt in B3. rewrite ln_1, Rmult_0_r in B3. unfold Rminus in B3. rewrite !exp_plus, exp_0, (exp_Ropp (ln gam)), exp_ln in B3 by exact Pg.
  assert (exp (- (1)) <= 1) as E1 by (apply Rle_trans with (exp 0); [left; apply exp_increasing; lra|rewrite exp_0; lra]).
  assert (1 <= 7 * / gam) as B4 by (pose proof (Rinv_0_lt_compat _ Pg); nra). apply (Rmult_le_compat_r gam) in B4; [|lra].
  rewrite Rmult_assoc, Rinv_l in B4; lra.
Qed.
Lemma weight_one gam Q X : chi_tail 1 gam Q -> 1 <= X <= 4 -> / 1000 <= X * chi_density 1 gam X.
Proof.
  intros HQ HX. pose proof (gam_one gam Q HQ) as G7. change 1%nat with (2 * 0 + 1)%nat in *. rewrite (wt_density 0 gam Q HQ X ltac:(lra)).
  pose proof (gam_pos 0 gam Q HQ) as Pg. unfold wt, Rminus. rewrite !exp_plus, (exp_Ropp (ln gam)), exp_ln by exact Pg.
  replace ((INR 0 + 1 / 2) * ln (X / 2)) with (/ 2 * ln (X / 2)) by (cbn; field). change (exp (/ 2 * ln (X / 2))) with (Rpower (X / 2) (/ 2)).
  rewrite Rpower_sqrt by lra.
  assert (1 / 2 <= sqrt (X / 2)) as S by (rewrite <- (sqrt_square (1 / 2)) by lra; apply sqrt_le_1; lra).
  assert (/ 9 <= exp (- (X / 2))) as E.
  { apply Rle_trans with (exp (- (2))); [|destruct (Req_dec X 4) as [->|]; [right; f_equal; field|left; apply exp_increasing; lra]].
    pose proof exp_le_3 as E1. pose proof (exp_pos 1) as P. rewrite exp_Ropp. apply Rinv_le_contravar; [apply exp_pos|].
    replace 2 with (1 + 1) by lra. rewrite exp_plus. nra. }
  assert (/ 7 <= / gam) as I by (apply Rinv_le_contravar; lra). set (a := sqrt (X / 2)) in *. set (b := exp (- (X / 2))) in *. set (c := / gam) in *.
  assert (1 / 2 * / 9 <= a * b) by (apply Rmult_le_compat; lra). assert (1 / 2 * / 9 * / 7 <= a * b * c) by (apply Rmult_le_compat; lra). lra.
Qed.
