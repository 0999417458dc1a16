(** The p-value without rounding for an odd number of degrees of freedom: both branches approximate the chi-squared tail. *)
From Coq Require Import Reals Lra Lia Psatz ZArith List Bool.
From Flocq Require Import Core.Core IEEE754.BinarySingleNaN.
From Verif Require Import Base Spec NDArray Float64 FloatProofs ArrayOps Stat GammaGen TailSpec TailOddSpec Tail TailHalf.
Open Scope R_scope.

(** * The loop of the continued fraction *)

Section Loop.
Context (p : R) (w Q : R -> R) (Hw : forall t, 0 < t -> 0 < w t) (Dw : forall t, 0 < t -> derivable_pt_lim w t (w t * (p - t) / t))
  (DQ : forall t, 0 < t -> derivable_pt_lim Q t (- (w t / t))) (Lw : liminf w 0) (LQ : liminf Q 0)
  (x : R) (Hx : 1 <= x) (Hpx : p <= x) (Hp : 1 / 2 <= p).
Notation A n := (TailHalf.A p n x).
Notation q n := (TailHalf.q p n x).
Notation C n := (A n / (x * q n)).
Notation dd := (dd p).
Notation G := (Gv w Q x).
Definition u (n : nat) : R := Rabs (dd n) / (q n * q (S n)).

Lemma qp n : 0 < q n. Proof. apply q_pos; lra. Qed.
Lemma C_diff n : C (S n) - C n = dd n / (x * q n * q (S n)).
Proof. pose proof (qp n). pose proof (qp (S n)). rewrite <- (dd_eq p n x). field. lra. Qed.
Lemma C_dist n : Rabs (C n - C (S n)) = u n / x.
Proof.
  rewrite Rabs_minus_sym, C_diff. pose proof (qp n). pose proof (qp (S n)). assert (0 < q n * q (S n)) by nra. unfold u.
  unfold Rdiv at 1. rewrite Rabs_mult, (Rabs_pos_eq (/ _)) by (apply Rlt_le, Rinv_0_lt_compat; nra). field. lra.
Qed.
Lemma u_nonneg n : 0 <= u n.
Proof. unfold u. pose proof (qp n). pose proof (qp (S n)). apply Rmult_le_pos; [apply Rabs_pos|apply Rlt_le, Rinv_0_lt_compat; nra]. Qed.

Lemma y_nonneg n t : x <= t -> 0 <= y p n t. Proof. intros. apply y_pos; lra. Qed.

Lemma G_low : 2 / 3 <= x * G.
Proof.
  assert (C 0 = / x) as E0 by (rewrite A_0, q_0; field; lra).
  destruct (Rle_dec 1 p) as [H1|H1].
  - pose proof (err_sign p w Q Hw Dw DQ Lw LQ 0 x 1 Hx Hpx ltac:(cbn; lra)) as Sg. rewrite E0 in Sg.
    assert (x * (G - / x) = x * G - 1) as E by (field; lra). assert (0 <= x * (G - / x)) by (apply Rmult_le_pos; lra). lra.
  - pose proof (err_size p w Q Hw Dw DQ Lw LQ 0 x 0 Hx Hpx ltac:(lra) (y_nonneg 0)) as Sg. rewrite E0 in Sg.
    cbn [TailHalf.dd] in Sg. rewrite (Rabs_left (p - 1)) in Sg by lra. rewrite q_0 in Sg.
    assert (- (p - 1) / (x * 1 ^ 2 * (x - p + 1 + 2 * 0)) <= / 3 * / x) as B.
    { replace (- (p - 1) / (x * 1 ^ 2 * (x - p + 1 + 2 * 0))) with ((1 - p) / (x - p + 1) * / x) by (field; lra).
      apply Rmult_le_compat_r; [apply Rlt_le, Rinv_0_lt_compat; lra|]. apply Rmult_le_reg_r with (x - p + 1); [lra|].
      unfold Rdiv. rewrite Rmult_assoc, Rinv_l; lra. }
    pose proof (Rle_abs (- (G - / x))) as T. rewrite Rabs_Ropp in T. assert (/ x - / 3 * / x <= G) as L by lra.
    apply (Rmult_le_compat_l x) in L; [|lra]. replace (x * (/ x - / 3 * / x)) with (2 / 3) in L by (field; lra). exact L.
Qed.

Lemma C_low n : p <= INR n + 2 -> INR (S n) * u n <= / 6 -> 1 / 2 <= x * C (S n).
Proof.
  intros Hn Hu. pose proof (qp n) as P0. pose proof (qp (S n)) as P1. pose proof (pos_INR (S n)) as PS.
  pose proof (err_size p w Q Hw Dw DQ Lw LQ (S n) x 0 Hx Hpx ltac:(lra) (y_nonneg (S n))) as Sg.
  assert (Rabs (dd (S n)) / (x * q (S n) ^ 2 * (x - p + 1 + 2 * 0)) <= INR (S n) * u n / x) as B.
  { unfold u. cbn [TailHalf.dd]. rewrite Rabs_mult, (Rabs_pos_eq (_ * (_ + 1 - p))) by (rewrite S_INR in *; apply Rmult_le_pos; lra).
    pose proof (Rabs_pos (dd n)) as Pd. destruct (q_grow p x n ltac:(lra) Hpx) as [_ Gq].
    apply Rmult_le_reg_r with (x * q (S n) ^ 2 * (x - p + 1)); [cbn [pow]; repeat apply Rmult_lt_0_compat; lra|].
    replace (INR (S n) * (INR (S n) + 1 - p) * Rabs (dd n) / (x * q (S n) ^ 2 * (x - p + 1 + 2 * 0)) * (x * q (S n) ^ 2 * (x - p + 1)))
      with (INR (S n) * Rabs (dd n) * (INR (S n) + 1 - p)) by (field; lra).
    replace (INR (S n) * (Rabs (dd n) / (q n * q (S n))) / x * (x * q (S n) ^ 2 * (x - p + 1)))
      with (INR (S n) * Rabs (dd n) * (q (S n) / q n * (x - p + 1))) by (field; lra).
    apply Rmult_le_compat_l; [nra|]. assert (INR n + 2 - p <= q (S n) / q n) as Z.
    { apply Rmult_le_reg_r with (1 := P0). unfold Rdiv. rewrite Rmult_assoc, Rinv_l by lra. nra. }
    rewrite S_INR. nra. }
  pose proof (Rle_abs (G - C (S n))) as T. pose proof G_low as L.
  assert (x * (INR (S n) * u n / x) = INR (S n) * u n) as E by (field; lra).
  assert (x * (G - C (S n)) <= x * (INR (S n) * u n / x)) by (apply Rmult_le_compat_l; lra). lra.
Qed.

Lemma err_between n : INR n + 2 <= p -> Rabs (C n - G) <= Rabs (C n - C (S n)).
Proof.
  intros Hn. pose proof (err_sign p w Q Hw Dw DQ Lw LQ n x) as S0. pose proof (err_sign p w Q Hw Dw DQ Lw LQ (S n) x) as S1.
  assert (0 <= - dd n * dd (S n)) as Hs.
  { cbn [TailHalf.dd]. pose proof (Rle_0_sqr (dd n)) as Sq. unfold Rsqr in Sq. pose proof (pos_INR (S n)).
    replace (- dd n * _) with (INR (S n) * (p - (INR (S n) + 1)) * (dd n * dd n)) by ring. rewrite S_INR in *.
    apply Rmult_le_pos; [apply Rmult_le_pos; lra|exact Sq]. }
  destruct (Rtotal_order (dd n) 0) as [D|[D|D]].
  - specialize (S0 (-1) Hx Hpx ltac:(lra)). specialize (S1 1 Hx Hpx ltac:(nra)).
    rewrite (Rabs_pos_eq (C n - G)) by lra. rewrite (Rabs_pos_eq (C n - C (S n))) by lra. lra.
  - pose proof (S0 1 Hx Hpx ltac:(lra)). pose proof (S0 (-1) Hx Hpx ltac:(lra)).
    replace (C n - G) with 0 by lra. rewrite Rabs_R0. apply Rabs_pos.
  - specialize (S0 1 Hx Hpx ltac:(lra)). specialize (S1 (-1) Hx Hpx ltac:(nra)).
    rewrite (Rabs_left1 (C n - G)) by lra. rewrite (Rabs_left1 (C n - C (S n))) by lra. lra.
Qed.
Lemma err_ratio n Y K : 0 <= Y -> (forall t, x <= t -> Y <= y p n t) -> x + INR n + 2 - p + y p n x <= K * (x - p + 1 + 2 * Y) ->
  Rabs (C n - G) <= K * (u n / x).
Proof.
  intros HY Hy HK. rewrite Rabs_minus_sym. eapply Rle_trans; [exact (err_size p w Q Hw Dw DQ Lw LQ n x Y Hx Hpx HY Hy)|].
  unfold u. pose proof (qp n) as P0. pose proof (qp (S n)) as P1. unfold y in HK. set (m := x - p + 1 + 2 * Y) in *. assert (0 < m) as Pm by (subst m; lra).
  apply Rmult_le_reg_r with (x * q n * m); [repeat apply Rmult_lt_0_compat; lra|].
  replace (Rabs (dd n) / (x * q n ^ 2 * m) * (x * q n * m)) with (Rabs (dd n) / (q n * q (S n)) * q (S n)) by (field; lra).
  replace (K * (Rabs (dd n) / (q n * q (S n)) / x) * (x * q n * m)) with (Rabs (dd n) / (q n * q (S n)) * (K * m * q n)) by (field; lra).
  apply Rmult_le_compat_l; [exact (u_nonneg n)|].
  apply Rle_trans with (q (S n) / q n * q n); [right; field; lra|]. apply Rmult_le_compat_r; lra.
Qed.

Context (acu oflo uflo : R) (lg : R -> R) (Hacu : 0 < acu) (Ho : 0 < oflo).
Notation Ar := (reals acu oflo uflo lg).
Definition goodK (K : R) (fuel : nat) (f a b t g p0 p1 p2 p3 : R) : Prop :=
  exists g', frac_gen Ar fuel f a b t g p0 p1 p2 p3 = (1 - f * g', true) /\ Rabs (g' - G) <= K * acu.

Context (K : R) (HK : 1 <= K) (N : nat) (HN : p <= INR N + 2) (Hstop : u N <= acu / 2) (Hst2 : INR (S N) * u N <= / 6)
  (Herr : forall n, (1 <= n <= N)%nat -> INR n + 2 <= p \/ Rabs (C n - G) <= K * (u n / x)).

Lemma loopK fuel : forall n f c, (1 <= n <= N)%nat -> (N < n + fuel)%nat -> 0 < c ->
  goodK K fuel f (INR n - p) (x + 2 * INR n - p) (INR n - 1) (C n) (A (Nat.pred n) / c) (x * q (Nat.pred n) / c) (A n / c) (x * q n / c).
Proof.
  induction fuel as [|fuel IH]; intros n f c Hn Hf Hc; [lia|]. unfold goodK. rewrite frac_S. cbv zeta.
  destruct n as [|n]; [lia|]. cbn [Nat.pred]. set (i := S n) in *.
  assert ((INR i - p + 1) * (INR i - 1 + 1) = INR i * (INR i + 1 - p)) as -> by ring.
  assert ((x + 2 * INR i - p + 2) * (A i / c) - INR i * (INR i + 1 - p) * (A n / c) = A (S i) / c) as -> by (subst i; rewrite (A_SS p n x); field; lra).
  assert ((x + 2 * INR i - p + 2) * (x * q i / c) - INR i * (INR i + 1 - p) * (x * q n / c) = x * q (S i) / c) as -> by (subst i; rewrite (q_SS p n x); field; lra).
  pose proof (qp i) as Pi. pose proof (qp (S i)) as Psi.
  rewrite Req_bool_false by (assert (0 < x * q (S i) / c) by (apply Rdiv_lt_0_compat; nra); lra). cbn [negb].
  assert (A (S i) / c / (x * q (S i) / c) = C (S i)) as -> by (field; lra). rewrite C_dist.
  assert (forall c', 0 < c' -> goodK K fuel f (INR i - p + 1) (x + 2 * INR i - p + 2) (INR i - 1 + 1) (C (S i)) (A i / c') (x * q i / c') (A (S i) / c') (x * q (S i) / c') \/ i = N) as NX.
  { intros c' Hc'. destruct (Nat.eq_dec i N) as [E|E]; [right; exact E|left].
    replace (INR i - p + 1) with (INR (S i) - p) by (rewrite S_INR; ring). replace (x + 2 * INR i - p + 2) with (x + 2 * INR (S i) - p) by (rewrite S_INR; ring).
    replace (INR i - 1 + 1) with (INR (S i) - 1) by (rewrite S_INR; ring). apply (IH (S i) f c'); [lia|lia|exact Hc']. }
  destruct (Rle_bool_spec (u i / x) acu) as [Hd|Hd]; cbn [andb];
    [destruct (Rle_bool_spec (u i / x) (acu * C (S i))) as [Hr|Hr]|].
  - exists (C i). split; [reflexivity|]. destruct (Herr i ltac:(lia)) as [H|H].
    + pose proof (err_between i H) as B. rewrite C_dist in B. nra.
    + eapply Rle_trans; [exact H|]. apply Rmult_le_compat_l; lra.
  - assert (i <> N) as NE.
    { intros ->. pose proof (C_low N HN Hst2) as L. assert (u N / x <= acu * C (S N)); [|lra].
      apply Rmult_le_reg_r with x; [lra|]. replace (u N / x * x) with (u N) by (field; lra).
      assert (acu * (x * C (S N)) >= acu * (1 / 2)) by (apply Rle_ge, Rmult_le_compat_l; lra). lra. }
    destruct (Rle_bool oflo (Rabs (A (S i) / c))).
    + destruct (NX (c * oflo) ltac:(nra)) as [Z|Z]; [|contradiction].
      replace (A i / c / oflo) with (A i / (c * oflo)) by (field; lra). replace (x * q i / c / oflo) with (x * q i / (c * oflo)) by (field; lra).
      replace (A (S i) / c / oflo) with (A (S i) / (c * oflo)) by (field; lra). replace (x * q (S i) / c / oflo) with (x * q (S i) / (c * oflo)) by (field; lra).
      exact Z.
    + destruct (NX c Hc) as [Z|Z]; [exact Z|contradiction].
  - assert (i <> N) as NE.
    { intros ->. assert (u N / x <= acu); [|lra]. apply Rmult_le_reg_r with x; [lra|]. replace (u N / x * x) with (u N) by (field; lra). nra. }
    destruct (Rle_bool oflo (Rabs (A (S i) / c))).
    + destruct (NX (c * oflo) ltac:(nra)) as [Z|Z]; [|contradiction].
      replace (A i / c / oflo) with (A i / (c * oflo)) by (field; lra). replace (x * q i / c / oflo) with (x * q i / (c * oflo)) by (field; lra).
      replace (A (S i) / c / oflo) with (A (S i) / (c * oflo)) by (field; lra). replace (x * q (S i) / c / oflo) with (x * q (S i) / (c * oflo)) by (field; lra).
      exact Z.
    + destruct (NX c Hc) as [Z|Z]; [exact Z|contradiction].
Qed.
Lemma startK f fuel : (1 <= N)%nat -> (N <= fuel)%nat ->
  goodK K fuel f (1 - p) (1 - p + x + 1) 0 ((x + 1) / (x * (1 - p + x + 1))) 1 x (x + 1) (x * (1 - p + x + 1)).
Proof.
  intros H1 H2. pose proof (loopK fuel 1 f 1 ltac:(lia) ltac:(lia) ltac:(lra)) as L. cbn [Nat.pred] in L.
  rewrite A_0, q_0, A_1, q_1, !div1 in L. change (INR 1) with 1 in L. rewrite Rmult_1_r in L.
  replace (1 - p + x + 1) with (x + 2 - p) by ring. replace (x + 2 * 1 - p) with (x + 2 - p) in L by ring. replace (1 - 1) with 0 in L by ring. rewrite Rmult_1_r in L.
  exact L.
Qed.
End Loop.

(** * How soon it stops *)

(** lower bounds, over 1024, of the ratios of consecutive denominators *)
Fixpoint yt (n : nat) : Z :=
  match n with O => 0 | S n' => let v := yt n' in (Z.of_nat n * (1024 + v) * 2048) / (2 * v + (2 * Z.of_nat n + 3) * 1024) end.
(** upper bounds of the differences of consecutive convergents times x *)
Fixpoint un (n : nat) : Z := match n with O => 1 | S k => un k * (Z.of_nat (S k) * (2 * Z.of_nat k + 3) * (1024 * 1024)) end.
Fixpoint ud (n : nat) : Z :=
  match n with O => 1 | S k => ud k * (2 * (1024 * (Z.of_nat k + 2) + yt k) * (1024 * (Z.of_nat k + 3) + yt (S k))) end.

Lemma yt_pos n : (0 <= yt n)%Z.
Proof. induction n as [|n IH]; [reflexivity|]. cbn [yt]. apply Z.div_pos; [|lia]. apply Z.mul_nonneg_nonneg; [|lia]. apply Z.mul_nonneg_nonneg; lia. Qed.
Lemma un_pos n : (0 < un n)%Z.
Proof. induction n as [|n IH]; [reflexivity|]. cbn [un]. apply Z.mul_pos_pos; [exact IH|]. lia. Qed.
Lemma ud_pos n : (0 < ud n)%Z.
Proof.
  induction n as [|n IH]; [reflexivity|]. cbn [ud]. pose proof (yt_pos n). pose proof (yt_pos (S n)).
  apply Z.mul_pos_pos; [exact IH|]. apply Z.mul_pos_pos; lia.
Qed.
Definition yr n := IZR (yt n) / 1024.
Lemma yr_pos n : 0 <= yr n.
Proof. unfold yr. pose proof (IZR_le _ _ (yt_pos n)). lra. Qed.
Lemma yr_S k : yr (S k) <= INR (S k) * (1 + yr k) / (yr k + INR k + 5 / 2).
Proof.
  pose proof (yr_pos k) as P. pose proof (pos_INR k) as Pk. unfold yr in *. cbn [yt]. set (v := yt k) in *.
  set (n := Z.of_nat (S k)). set (D := (2 * v + (2 * n + 3) * 1024)%Z). set (M := (n * (1024 + v) * 2048)%Z).
  assert (INR (S k) = IZR n) as En by apply INR_IZR_INZ. assert (INR k = IZR n - 1) as Ek by (rewrite S_INR in En; lra).
  assert (0 < D)%Z as PD by (pose proof (yt_pos k); subst D v n; lia).
  pose proof (Z.mul_div_le M D PD) as H. apply IZR_le in H. rewrite mult_IZR in H. set (d := IZR (M / D)) in *.
  assert (IZR D = 2 * IZR v + (2 * IZR n + 3) * 1024) as ED by (subst D; rewrite !plus_IZR, !mult_IZR, plus_IZR, mult_IZR; reflexivity).
  assert (IZR M = IZR n * (1024 + IZR v) * 2048) as EM by (subst M; rewrite !mult_IZR, plus_IZR; reflexivity).
  rewrite En. apply Rmult_le_reg_r with (IZR v / 1024 + INR k + 5 / 2); [lra|].
  replace (IZR n * (1 + IZR v / 1024) / (IZR v / 1024 + INR k + 5 / 2) * (IZR v / 1024 + INR k + 5 / 2)) with (IZR n * (1 + IZR v / 1024)) by (field; lra).
  rewrite Ek in *. rewrite ED, EM in H. nra.
Qed.

Section Odd.
Context (j : nat) (p : R) (Ep : p = INR j + 1 / 2) (x : R) (Hx : 1 <= x) (Hpx : p <= x).
Notation q n := (TailHalf.q p n x).
Notation dd := (dd p).
Notation u := (u p x).
Notation y := (TailHalf.y p).

Lemma Hp2 : 1 / 2 <= p. Proof. rewrite Ep. pose proof (pos_INR j). lra. Qed.
Lemma y_0 t : y 0 t = 0. Proof. unfold TailHalf.y. rewrite q_1, q_0. cbn [INR]. field. Qed.
Lemma y_tab n : forall t, x <= t -> yr n <= y n t.
Proof.
  induction n as [|n IH]; intros t Ht; [rewrite y_0; unfold yr; cbn; lra|]. specialize (IH t Ht). pose proof Hp2 as Hp.
  rewrite y_rec by lra. eapply Rle_trans; [apply yr_S|]. pose proof (yr_pos n) as P. pose proof (pos_INR n) as Pn. pose proof (pos_INR (S n)) as PS.
  set (v := yr n) in *. set (Y := y n t) in *. unfold Rdiv. rewrite !Rmult_assoc. apply Rmult_le_compat_l; [exact PS|].
  apply ratio_le; [lra|lra|]. nra.
Qed.
Lemma y_early n : (n < j)%nat -> forall t, x <= t -> INR n <= y n t.
Proof.
  intros Hn t Ht. destruct n as [|n]; [rewrite y_0; cbn; lra|]. pose proof Hp2 as Hp. rewrite y_rec by lra.
  pose proof (y_pos p n t ltac:(lra) ltac:(lra)) as PY. set (Y := y n t) in *. pose proof (pos_INR (S n)) as PS. pose proof (pos_INR n) as Pn.
  assert (INR n + 2 <= INR j) by (apply le_INR in Hn; rewrite !S_INR in Hn; lra).
  apply Rmult_le_reg_r with (t + INR n + 2 - p + Y); [lra|]. unfold Rdiv. rewrite Rmult_assoc, Rinv_l, Rmult_1_r by lra. 
  apply Rmult_le_compat_l; lra.
Qed.
Lemma y_high n : (j <= S n)%nat -> y n x <= INR n + 1 / 2.
Proof.
  intros Hn. destruct n as [|n]; [rewrite y_0; cbn; lra|]. pose proof Hp2 as Hp. rewrite y_rec by lra.
  pose proof (y_pos p n x ltac:(lra) ltac:(lra)) as PY. set (Y := y n x) in *. pose proof (pos_INR n) as Pn.
  assert (INR j <= INR n + 2) by (apply le_INR in Hn; rewrite !S_INR in Hn; lra). rewrite S_INR.
  apply Rmult_le_reg_r with (x + INR n + 2 - p + Y); [lra|]. unfold Rdiv. rewrite Rmult_assoc, Rinv_l, Rmult_1_r by lra.
  destruct (Rle_dec 0 (INR n + 2 - p)); nra.
Qed.

Lemma qpo n : 0 < q n. Proof. apply q_pos; lra. Qed.
Lemma q_ratio n Y : Y <= y n x -> (INR n + 2 + Y) * q n <= q (S n).
Proof.
  intros H. unfold TailHalf.y in H. pose proof (qpo n) as P. set (a := q n) in *. set (b := q (S n)) in *.
  replace b with (b / a * a) by (field; lra). apply Rmult_le_compat_r; lra.
Qed.
Lemma u_step k : (j <= S k)%nat ->
  u (S k) <= u k * ((INR k + 1) * (INR k + 3 / 2) / ((INR k + 2 + yr k) * (INR k + 3 + yr (S k)))).
Proof.
  intros Hk. pose proof Hp2 as Hp. pose proof (qpo k) as P0. pose proof (qpo (S k)) as P1. pose proof (qpo (S (S k))) as P2.
  pose proof (q_ratio k (yr k) (y_tab k x ltac:(lra))) as R0. pose proof (q_ratio (S k) (yr (S k)) (y_tab (S k) x ltac:(lra))) as R1.
  pose proof (yr_pos k) as Y0. pose proof (yr_pos (S k)) as Y1. pose proof (pos_INR k) as Pk. rewrite S_INR in R1.
  assert (INR j <= INR k + 1) by (apply le_INR in Hk; rewrite !S_INR in Hk; lra).
  unfold TailOdd.u. cbn [TailHalf.dd]. rewrite Rabs_mult, (Rabs_pos_eq (_ * _)) by (rewrite S_INR; apply Rmult_le_pos; lra).
  pose proof (Rabs_pos (dd k)) as Pd. rewrite S_INR. set (d := Rabs (dd k)) in *. set (a := q k) in *. set (b := q (S k)) in *. set (c := q (S (S k))) in *.
  set (r0 := INR k + 2 + yr k) in *. set (r1 := INR k + 3 + yr (S k)) in *. assert (0 < r0) by (subst r0; lra). assert (0 < r1) by (subst r1; lra).
  replace (INR k + 1 + 2 + yr (S k)) with r1 in R1 by (subst r1; ring).
  apply Rmult_le_reg_r with (b * c * (r0 * r1)); [repeat apply Rmult_lt_0_compat; lra|].
  replace ((INR k + 1) * (INR k + 1 + 1 - p) * d / (b * c) * (b * c * (r0 * r1))) with (d * (INR k + 1) * ((INR k + 2 - p) * (r0 * r1))) by (field; lra).
  replace (d / (a * b) * ((INR k + 1) * (INR k + 3 / 2) / (r0 * r1)) * (b * c * (r0 * r1))) with (d * (INR k + 1) * ((INR k + 3 / 2) * (c / a))) by (field; lra).
  apply Rmult_le_compat_l; [nra|]. apply Rmult_le_compat; [lra|nra|lra|].
  apply Rmult_le_reg_r with a; [lra|]. replace (c / a * a) with c by (field; lra). nra.
Qed.

(** up to the j-th step the denominators double *)
Lemma q_early n : (n <= j)%nat -> 2 ^ n * INR (fact n) <= q n.
Proof.
  induction n as [|n IH]; intros Hn; [rewrite q_0; cbn; lra|]. specialize (IH ltac:(lia)).
  pose proof (q_ratio n (INR n) (y_early n ltac:(lia) x ltac:(lra))) as R. pose proof (qpo n) as P. pose proof (pos_INR n) as Pn.
  change (fact (S n)) with (S n * fact n)%nat. rewrite mult_INR, S_INR. cbn [pow].
  assert ((INR n + 2 + INR n) * (2 ^ n * INR (fact n)) <= (INR n + 2 + INR n) * q n) by (apply Rmult_le_compat_l; lra). lra.
Qed.
Lemma d_early n : (n < j)%nat -> Rabs (dd n) * INR (fact (j - 1 - n)) <= INR (fact n) * INR (fact j).
Proof.
  induction n as [|n IH]; intros Hn.
  - cbn [TailHalf.dd]. assert (1 <= INR j) by (apply (le_INR 1); lia). rewrite Rabs_pos_eq by lra. replace (j - 1 - 0)%nat with (j - 1)%nat by lia.
    assert (INR (fact j) = INR j * INR (fact (j - 1))) as ->.
    { rewrite <- mult_INR. f_equal. destruct j as [|i]; [lia|]. rewrite Nat.sub_succ, Nat.sub_0_r. reflexivity. }
    pose proof (INR_fact_lt_0 (j - 1)). cbn [fact INR]. nra.
  - specialize (IH ltac:(lia)). cbn [TailHalf.dd]. rewrite Rabs_mult. pose proof (pos_INR n) as Pn.
    assert (INR n + 2 <= INR j) as Hj by (replace (INR n + 2) with (INR (S (S n))) by (rewrite !S_INR; ring); apply le_INR; lia).
    assert (INR (fact (j - 1 - n)) = (INR j - INR n - 1) * INR (fact (j - 1 - S n))) as EF.
    { replace (j - 1 - n)%nat with (S (j - 1 - S n)) by lia. change (fact (S (j - 1 - S n))) with (S (j - 1 - S n) * fact (j - 1 - S n))%nat.
      rewrite mult_INR. f_equal. rewrite S_INR, !minus_INR, !S_INR by lia. change (INR 0) with 0. ring. }
    rewrite EF in IH. change (fact (S n)) with (S n * fact n)%nat. rewrite mult_INR.
    rewrite (Rabs_left1 (INR (S n) * _)) by (rewrite S_INR; nra). rewrite S_INR in *.
    pose proof (INR_fact_lt_0 (j - 1 - S n)) as PF. set (F := INR (fact (j - 1 - S n))) in *. pose proof (Rabs_pos (dd n)) as Pd. set (d := Rabs (dd n)) in *.
    apply Rle_trans with ((INR n + 1) * (d * ((INR j - INR n - 1) * F))).
    + replace (- ((INR n + 1) * (INR n + 1 + 1 - p)) * d * F) with ((INR n + 1) * (d * ((p - INR n - 2) * F))) by ring.
      apply Rmult_le_compat_l; [lra|]. apply Rmult_le_compat_l; [lra|]. apply Rmult_le_compat_r; lra.
    + rewrite Rmult_assoc. apply Rmult_le_compat_l; lra.
Qed.
Lemma u_early : (1 <= j)%nat -> u (j - 1) <= 2 / 4 ^ j.
Proof.
  intros Hj. pose proof (d_early (j - 1) ltac:(lia)) as D. rewrite Nat.sub_diag in D. cbn [fact INR] in D. rewrite Rmult_1_r in D.
  pose proof (q_early (j - 1) ltac:(lia)) as Q0. pose proof (q_early j ltac:(lia)) as Q1. unfold TailOdd.u. replace (S (j - 1)) with j by lia.
  pose proof (INR_fact_lt_0 (j - 1)) as F0. pose proof (INR_fact_lt_0 j) as F1. set (f0 := INR (fact (j - 1))) in *. set (f1 := INR (fact j)) in *.
  assert (4 ^ j = 2 * (2 ^ (j - 1) * 2 ^ j)) as E4.
  { replace 4 with (2 * 2) by lra. rewrite Rpow_mult_distr. assert (2 * 2 ^ (j - 1) = 2 ^ j) as <- ; [|ring].
    change (2 ^ S (j - 1) = 2 ^ j). f_equal. lia. }
  assert (0 < 2 ^ (j - 1)) as T0 by (apply pow_lt; lra). assert (0 < 2 ^ j) as T1 by (apply pow_lt; lra).
  set (t0 := 2 ^ (j - 1)) in *. set (t1 := 2 ^ j) in *. rewrite E4. pose proof (qpo (j - 1)) as P0. pose proof (qpo j) as P1.
  set (a := q (j - 1)) in *. set (b := q j) in *. set (d := Rabs (dd (j - 1))) in *.
  replace (2 / (2 * (t0 * t1))) with (1 * / (t0 * t1)) by (field; lra). apply ratio_le; [nra|nra|].
  apply Rle_trans with (f0 * f1 * (t0 * t1)); [apply Rmult_le_compat_r; nra|]. rewrite Rmult_1_l.
  replace (f0 * f1 * (t0 * t1)) with ((t0 * f0) * (t1 * f1)) by ring. apply Rmult_le_compat; nra.
Qed.

Definition tab_ok (n : nat) : bool := Z.leb (2 * ud n) (un n * 4 ^ Z.of_nat (S n)) && Z.leb (1024 * (4 * Z.of_nat n + 5)) (2 * (7 * 1024 + 14 * yt n)).
Lemma tab_all : forallb tab_ok (seq 0 39) = true. Proof. vm_compute. reflexivity. Qed.
Lemma tab n : (n <= 38)%nat -> tab_ok n = true.
Proof. intros H. pose proof tab_all as T. rewrite forallb_forall in T. apply T. apply in_seq. lia. Qed.

Lemma u_tab k : (j <= S k)%nat -> (k <= 38)%nat -> u k <= IZR (un k) / IZR (ud k).
Proof.
  induction k as [|k IH]; intros Hk H14.
  - destruct (Nat.eq_dec j 0) as [E|E].
    + unfold TailOdd.u. cbn [TailHalf.dd un ud]. rewrite q_0, q_1, Ep, E. cbn [INR]. rewrite Rabs_left by lra.
      apply ratio_le; lra.
    + assert (j = 1)%nat as E1 by lia. pose proof (u_early ltac:(lia)) as U. rewrite E1 in U at 2. replace (j - 1)%nat with 0%nat in U by lia. cbn in *. lra.
  - destruct (Nat.eq_dec j (S (S k))) as [E|E].
    + pose proof (u_early ltac:(lia)) as U. replace (j - 1)%nat with (S k) in U by lia. eapply Rle_trans; [exact U|].
      pose proof (tab (S k) H14) as T. apply andb_prop in T as [T _]. apply Z.leb_le in T. apply IZR_le in T. rewrite !mult_IZR in T.
      rewrite <- E in T. apply ratio_le; [apply pow_lt; lra|apply IZR_lt, ud_pos|]. rewrite pow_IZR. exact T.
    + specialize (IH ltac:(lia) ltac:(lia)). eapply Rle_trans; [apply u_step; lia|].
      pose proof (yr_pos k) as Y0. pose proof (yr_pos (S k)) as Y1. pose proof (pos_INR k) as Pk.
      set (r := (INR k + 1) * (INR k + 3 / 2) / ((INR k + 2 + yr k) * (INR k + 3 + yr (S k)))).
      assert (0 <= r) as Pr by (unfold r; apply Rlt_le, Rdiv_lt_0_compat; apply Rmult_lt_0_compat; lra).
      apply Rle_trans with (IZR (un k) / IZR (ud k) * r); [apply Rmult_le_compat_r; assumption|]. right.
      cbn [un ud]. rewrite !mult_IZR, !plus_IZR, !mult_IZR, <- !INR_IZR_INZ, !plus_IZR, <- INR_IZR_INZ, S_INR. unfold r, yr in *.
      pose proof (IZR_lt _ _ (ud_pos k)). set (a := IZR (yt k)) in *. set (b := IZR (yt (S k))) in *. field. repeat split; lra.
Qed.
End Odd.

(** * The series *)

Section Ser.
Context (p : R) (Hp : 1 / 2 <= p) (w Q : R -> R) (Hw : forall t, 0 < t -> 0 < w t) (Dw : forall t, 0 < t -> derivable_pt_lim w t (w t * (p - t) / t))
  (DQ : forall t, 0 < t -> derivable_pt_lim Q t (- (w t / t))) (Lw : lim0 w 0) (LQ : lim0 Q 1).

(** the terms and the partial sums *)
Fixpoint tm (n : nat) (t : R) : R := match n with O => 1 | S k => tm k t * t / (p + INR k + 1) end.
Fixpoint sm (n : nat) (t : R) : R := match n with O => 1 | S k => sm k t + tm (S k) t end.

Lemma tm_pos n t : 0 < t -> 0 < tm n t.
Proof. intros Ht. induction n as [|n IH]; cbn [tm]; [lra|]. pose proof (pos_INR n). apply Rdiv_lt_0_compat; nra. Qed.
Lemma sm_pos n t : 0 < t -> 0 < sm n t.
Proof. intros Ht. induction n as [|n IH]; cbn [sm]; [lra|]. pose proof (tm_pos (S n) t Ht). lra. Qed.
Lemma tm_deriv n t : 0 < t -> derivable_pt_lim (tm n) t (INR n * tm n t / t).
Proof.
  intros Ht. induction n as [|n IH].
  - apply deq with 0; [cbn; field; lra|]. apply dext with (f := fct_cte 1); [reflexivity|]. apply derivable_pt_lim_const.
  - pose proof (pos_INR n). pose proof (derivable_pt_lim_scal _ (/ (p + INR n + 1)) t _ (derivable_pt_lim_mult (tm n) id t _ _ IH (derivable_pt_lim_id t))) as D.
    eapply dext; [|eapply deq; [|exact D]].
    + intros z. unfold mult_real_fct, mult_fct, id. cbn [tm]. field. lra.
    + unfold mult_fct, id. cbn [tm]. rewrite S_INR. field. lra.
Qed.
Lemma sm_deriv n t : 0 < t -> exists s', derivable_pt_lim (sm n) t s' /\ (p - t) * sm n t + t * s' = p - t * tm n t.
Proof.
  intros Ht. induction n as [|n (s' & D & E)].
  - exists 0. split; [apply dext with (f := fct_cte 1); [reflexivity|]; apply derivable_pt_lim_const|cbn; ring].
  - exists (s' + INR (S n) * tm (S n) t / t). split; [apply (derivable_pt_lim_plus (sm n) (tm (S n))); [exact D|apply tm_deriv; exact Ht]|].
    cbn [sm]. pose proof (pos_INR n). assert ((p + INR n + 1) * tm (S n) t = t * tm n t) as R by (cbn [tm]; field; lra).
    replace (t * (s' + INR (S n) * tm (S n) t / t)) with (t * s' + INR (S n) * tm (S n) t) by (field; lra). rewrite S_INR. lra.
Qed.
Lemma ser_deriv n t : 0 < t -> derivable_pt_lim (fun t => 1 - w t * sm n t / p - Q t) t (w t * tm n t / p).
Proof.
  intros Ht. destruct (sm_deriv n t Ht) as (s' & D & E).
  pose proof (derivable_pt_lim_scal _ (/ p) t _ (derivable_pt_lim_mult w (sm n) t _ _ (Dw t Ht) D)) as D1.
  pose proof (derivable_pt_lim_minus _ Q t _ _ (derivable_pt_lim_minus _ _ t _ _ (derivable_pt_lim_const 1 t) D1) (DQ t Ht)) as D2.
  eapply dext; [|eapply deq; [|exact D2]].
  - intros z. unfold minus_fct, mult_real_fct, mult_fct, fct_cte. field. lra.
  - assert (t * tm n t = p - ((p - t) * sm n t + t * s')) as E' by lra.
    apply Rmult_eq_reg_l with (t * p); [|assert (0 < t * p) by nra; lra].
    replace (t * p * (w t * tm n t / p)) with (w t * (t * tm n t)) by (field; lra). rewrite E'. field. lra.
Qed.
Lemma tm_mono n t s : 0 < t <= s -> tm n t <= tm n s.
Proof.
  intros Ht. induction n as [|n IH]; cbn [tm]; [lra|]. pose proof (pos_INR n). pose proof (tm_pos n t ltac:(lra)).
  apply Rmult_le_compat_r; [apply Rlt_le, Rinv_0_lt_compat; lra|]. apply Rmult_le_compat; lra.
Qed.
Lemma sm_mono n t s : 0 < t <= s -> sm n t <= sm n s.
Proof. intros Ht. induction n as [|n IH]; cbn [sm]; [lra|]. pose proof (tm_mono (S n) t s Ht). lra. Qed.
Lemma lim0_bound f K x : 0 < x -> (forall t, 0 < t <= x -> Rabs (f t) <= K * w t) -> lim0 f 0.
Proof.
  intros Hx H e He. destruct (lim0_scal K w 0 Lw e He) as (d & Pd & Hd). rewrite Rmult_0_r in Hd. exists (Rmin d x). split; [now apply Rmin_glb_lt|].
  intros t Ht. specialize (Hd t ltac:(pose proof (Rmin_l d x); lra)). specialize (H t ltac:(pose proof (Rmin_r d x); lra)). rewrite Rminus_0_r in *.
  pose proof (Rle_abs (K * w t)). lra.
Qed.
Lemma ser_err n x : 0 < x -> x < p + INR n + 1 ->
  0 <= 1 - w x * sm n x / p - Q x <= w x * (x * tm n x) / (p * (p + INR n + 1 - x)).
Proof.
  intros Hx Hn. set (m := p + INR n + 1 - x) in *. assert (0 < m) as Pm by (subst m; lra).
  assert (lim0 (fun t => 1 - w t * sm n t / p - Q t) 0) as L0.
  { assert (lim0 (fun t => w t * sm n t / p) 0) as L.
    { apply lim0_bound with (K := sm n x / p) (x := x); [exact Hx|]. intros t Ht. pose proof (Hw t ltac:(lra)) as Pt. pose proof (sm_pos n t ltac:(lra)).
      rewrite Rabs_pos_eq by (apply Rlt_le, Rdiv_lt_0_compat; nra). unfold Rdiv.
      replace (w t * sm n t * / p) with (sm n t * / p * w t) by ring. apply Rmult_le_compat_r; [lra|].
      apply Rmult_le_compat_r; [apply Rlt_le, Rinv_0_lt_compat; lra|]. apply sm_mono. lra. }
    pose proof (lim0_plus _ _ _ _ (lim0_scal (-1) _ _ L) (lim0_scal (-1) _ _ LQ)) as L2. intros e He. destruct (L2 e He) as (d & Pd & Hd).
    exists d. split; [exact Pd|]. intros t Ht. specialize (Hd t Ht). cbv beta in Hd. eapply Rle_lt_trans; [|exact Hd]. right. f_equal. ring. }
  split.
  - apply (from0 (fun t => 1 - w t * sm n t / p - Q t) (fun t => w t * tm n t / p) x Hx); [| |exact L0].
    + intros t Ht. apply ser_deriv. lra.
    + intros t Ht. pose proof (Hw t ltac:(lra)). pose proof (tm_pos n t ltac:(lra)). apply Rlt_le, Rdiv_lt_0_compat; nra.
  -
    cut (0 <= w x * (x * tm n x) / (p * m) - (1 - w x * sm n x / p - Q x)); [intros Z; lra|].
    apply (from0 (fun t => w t * (t * tm n t) / (p * m) - (1 - w t * sm n t / p - Q t))
      (fun t => w t * tm n t * (p + INR n + 1 - t) / (p * m) - w t * tm n t / p) x Hx).
    + intros t Ht. apply (derivable_pt_lim_minus (fun t => w t * (t * tm n t) / (p * m)) (fun t => 1 - w t * sm n t / p - Q t)); [|apply ser_deriv; lra].
      pose proof (derivable_pt_lim_scal _ (/ (p * m)) t _ (derivable_pt_lim_mult w _ t _ _ (Dw t ltac:(lra))
        (derivable_pt_lim_mult id (tm n) t _ _ (derivable_pt_lim_id t) (tm_deriv n t ltac:(lra))))) as D.
      eapply dext; [|eapply deq; [|exact D]].
      * intros z. unfold mult_real_fct, mult_fct, id. field. lra.
      * unfold mult_fct, id. field. lra.
    + intros t Ht. pose proof (Hw t ltac:(lra)). pose proof (tm_pos n t ltac:(lra)).
      replace (_ - _) with (w t * tm n t * (x - t) / (p * m)) by (subst m; field; lra).
      apply Rmult_le_pos; [apply Rmult_le_pos; [nra|lra]|apply Rlt_le, Rinv_0_lt_compat; nra].
    + assert (lim0 (fun t => w t * (t * tm n t) / (p * m)) 0) as L.
      { apply lim0_bound with (K := x * tm n x / (p * m)) (x := x); [exact Hx|]. intros t Ht. pose proof (Hw t ltac:(lra)) as Pt. pose proof (tm_pos n t ltac:(lra)).
        assert (0 < p * m) by nra. rewrite Rabs_pos_eq by (apply Rlt_le, Rdiv_lt_0_compat; [apply Rmult_lt_0_compat; nra|lra]). unfold Rdiv.
        replace (w t * (t * tm n t) * / (p * m)) with (t * tm n t * / (p * m) * w t) by ring. apply Rmult_le_compat_r; [lra|].
        apply Rmult_le_compat_r; [apply Rlt_le, Rinv_0_lt_compat; lra|]. pose proof (tm_mono n t x ltac:(lra)). apply Rmult_le_compat; lra. }
      pose proof (lim0_plus _ _ _ _ L (lim0_scal (-1) _ _ L0)) as L2. intros e He. destruct (L2 e He) as (d & Pd & Hd).
      exists d. split; [exact Pd|]. intros t Ht. specialize (Hd t Ht). cbv beta in Hd. eapply Rle_lt_trans; [|exact Hd]. right. f_equal. ring.
Qed.

Context (acu oflo uflo : R) (lg : R -> R).
Notation Ar := (reals acu oflo uflo lg).
Context (x : R) (Hx : 0 < x) (Hxp : x <= 1 \/ x <= p) (h : nat) (Hh : p <= 2 * INR h) (Hacu : (2 / 3) ^ h <= acu).

Lemma ser_loop n : forall fuel, (n + fuel = h + h)%nat -> (1 <= fuel)%nat -> tm n x <= 1 -> (forall i, n = (h + i)%nat -> tm n x <= (2 / 3) ^ i) ->
  exists N, series_gen Ar fuel x (p + INR n) (tm n x) (sm n x) = (sm N x, true) /\ (1 <= N)%nat /\ tm N x <= acu.
Proof.
  intros fuel. revert n. induction fuel as [|fuel IH]; intros n Hn Hf Ht1 Hti; [lia|]. rewrite series_S.
  change (tm n x * x / (p + INR n + 1)) with (tm (S n) x). change (sm n x + tm (S n) x) with (sm (S n) x).
  pose proof (pos_INR n) as Pn. pose proof (tm_pos n x Hx) as P0.
  assert (forall r, x <= r * (p + INR n + 1) -> tm (S n) x <= tm n x * r) as Hr.
  { intros r Hr. cbn [tm]. apply Rmult_le_reg_r with (p + INR n + 1); [lra|].
    replace (tm n x * x / (p + INR n + 1) * (p + INR n + 1)) with (tm n x * x) by (field; lra). nra. }
  assert (tm (S n) x <= 1) as Ht1' by (pose proof (Hr 1 ltac:(lra)); lra).
  assert (forall i, S n = (h + i)%nat -> tm (S n) x <= (2 / 3) ^ i) as Hti'.
  { intros i Ei. destruct i as [|i]; [cbn [pow]; exact Ht1'|]. specialize (Hti i ltac:(lia)).
    assert (INR h <= INR n) by (apply le_INR; lia). assert (tm (S n) x <= tm n x * (2 / 3)) by (apply Hr; lra). cbn [pow]. lra. }
  destruct (Rle_bool_spec (tm (S n) x) acu) as [Ha|Ha].
  - exists (S n). split; [reflexivity|]. split; [lia|exact Ha].
  - destruct fuel as [|fuel']; [exfalso; specialize (Hti' h ltac:(lia)); lra|].
    replace (p + INR n + 1) with (p + INR (S n)) by (rewrite S_INR; ring). apply (IH (S n)); try lia; assumption.
Qed.
Lemma ser_value : (1 <= h)%nat -> exists N, series_gen Ar (h + h) x p 1 1 = (sm N x, true) /\ (1 <= N)%nat /\ tm N x <= acu.
Proof.
  intros H1. pose proof (ser_loop 0 (h + h)) as L. cbn [INR tm sm] in L. rewrite Rplus_0_r in L. apply L; try lia; lra.
Qed.
Lemma ser_bound N : (1 <= N)%nat -> tm N x <= acu -> Rabs (1 - sm N x * w x / p - Q x) <= 4 / 3 * acu * w x.
Proof.
  intros HN Ht. assert (1 <= INR N) as H1 by (apply (le_INR 1); exact HN).
  destruct (ser_err N x Hx) as [B0 B1]; [lra|]. replace (sm N x * w x / p) with (w x * sm N x / p) by (field; lra).
  rewrite Rabs_pos_eq by exact B0. eapply Rle_trans; [exact B1|]. pose proof (Hw x Hx) as Pw. pose proof (tm_pos N x Hx) as Pt.
  set (m := p + INR N + 1 - x). assert (0 < m) as Pm by (subst m; lra).
  apply Rmult_le_reg_r with (p * m); [nra|]. replace (w x * (x * tm N x) / (p * m) * (p * m)) with (w x * (x * tm N x)) by (field; lra).
  replace (4 / 3 * acu * w x * (p * m)) with (w x * (4 / 3 * (p * m) * acu)) by ring. apply Rmult_le_compat_l; [lra|].
  apply Rmult_le_compat; [lra|lra| |exact Ht]. subst m. destruct Hxp; nra.
Qed.
End Ser.
