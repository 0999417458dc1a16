(** Rounding error of sums of non-negative doubles and of scaling them to a population. *)
From Coq Require Import ZArith Reals Lra Lia List Bool Psatz.
From Flocq Require Import Core.Core IEEE754.BinarySingleNaN Relative Plus_error.
From Verif Require Import Base Spec Float64 FloatProofs FloatExt RealSpec SpecFacts Integerise IntegeriseSpec IntegeriseProofs.
Open Scope R_scope.

Notation ulpr := (p2 (-53)).

Lemma half_p2 e : / 2 * p2 e = p2 (e - 1).
Proof. replace (e - 1)%Z with (-1 + e)%Z by lia. rewrite (bpow_plus radix2 (-1) e). reflexivity. Qed.

Lemma u_ro_val : u_ro radix2 53 = ulpr.
Proof. unfold u_ro. now rewrite half_p2. Qed.

Lemma ulpr_pos : 0 < ulpr < / 1000.
Proof. split; [apply bpow_gt_0|]. apply Rlt_trans with (p2 (-20)); [apply bpow_lt; lia|]. simpl. lra. Qed.

Lemma RN_plus_err a b : repr a -> repr b -> exists e, Rabs e <= ulpr /\ RN (a + b) = (a + b) * (1 + e).
Proof.
  intros Ha Hb. unfold RN. rewrite fx_FLT in *.
  destruct (@FLT_plus_error_N_ex radix2 (-1074) 53 eq_refl (fun x => negb (Z.even x)) a b Ha Hb) as (e & He & E).
  exists e. split; [|exact E]. eapply Rle_trans; [exact He|]. eapply Rle_trans; [apply u_rod1pu_ro_le_u_ro|]. rewrite u_ro_val. lra.
Qed.

Lemma RN_plus_err' a b : repr a -> repr b -> exists e, Rabs e <= ulpr /\ a + b = RN (a + b) * (1 + e).
Proof.
  intros Ha Hb. unfold RN. rewrite fx_FLT in *.
  destruct (@FLT_plus_error_N_round_ex radix2 (-1074) 53 eq_refl (fun x => negb (Z.even x)) a b Ha Hb) as (e & He & E).
  exists e. split; [|exact E]. now rewrite u_ro_val in He.
Qed.

Lemma RN_err x : 0 <= x -> Rabs (RN x - x) <= ulpr * x + p2 (-1075).
Proof.
  intros Hx.
  destruct (error_N_FLT radix2 (-1074) 53 eq_refl (fun x => negb (Z.even x)) x) as (e & h & He & Hh & _ & E).
  assert (RN x = x * (1 + e) + h) as -> by exact E. replace (x * (1 + e) + h - x) with (e * x + h) by ring.
  eapply Rle_trans; [apply Rabs_triang|]. apply Rplus_le_compat.
  - rewrite Rabs_mult, (Rabs_pos_eq x) by auto. apply Rmult_le_compat_r; auto. rewrite half_p2 in He. exact He.
  - rewrite half_p2 in Hh. exact Hh.
Qed.

Lemma d_add_fin x y a b : fin x a -> fin y b -> is_finite (d_add x y) = true -> fin (d_add x y) (RN (a + b)).
Proof.
  intros Hx Hy Hf. apply d_add_round; auto. destruct Hx as [Fx <-], Hy as [Fy <-].
  pose proof (Bplus_correct 53 1024 Hprec Hemax mode_NE x y Fx Fy) as C. cbv zeta in C.
  destruct (Rlt_bool_spec (Rabs (round radix2 fx (round_mode mode_NE) (B2R x + B2R y))) (p2 1024)) as [H|H]; auto.
  destruct C as [C _]. apply overflow_inf in C. fold (d_add x y) in C. rewrite C in Hf. discriminate.
Qed.

Lemma sumR_nonneg l : Forall (fun r => 0 <= r) l -> 0 <= sumR l.
Proof. induction 1; simpl; lra. Qed.

Lemma nonneg_B2R l : Forall nonneg_fin l -> Forall (fun r => 0 <= r) (map B2R l).
Proof. induction 1 as [|x l [_ H]]; simpl; constructor; auto. Qed.

(** a sum of non-negative doubles, accumulated in order without overflow *)
Lemma fold_sum_err l : forall acc T k, Forall nonneg_fin l -> nonneg_fin acc -> is_finite (fold_left d_add l acc) = true ->
  (0 <= k)%Z -> 2 * IZR (k + Z.of_nat (length l)) * ulpr <= 1 -> 0 <= T -> Rabs (B2R acc - T) <= 2 * IZR k * ulpr * T ->
  let S := B2R (fold_left d_add l acc) in
  B2R acc <= S /\ Forall (fun x => B2R x <= S) l /\
  Rabs (S - (T + sumR (map B2R l))) <= 2 * IZR (k + Z.of_nat (length l)) * ulpr * (T + sumR (map B2R l)).
Proof.
  induction l as [|x l IH]; intros acc T k Hl Ha Hf Hk Hn HT He; cbn [fold_left map sumR fold_right length].
  - rewrite Z.add_0_r, Rplus_0_r. split; [lra|]. split; [constructor|exact He].
  - inversion Hl as [|? ? Hx Hl']; subst. cbn [fold_left] in Hf.
    destruct (fold_add_finite l _ Hf) as [Hf1 _]. destruct Ha as [Fa Pa]. destruct Hx as [Fx Px].
    destruct (d_add_fin acc x _ _ (fin_B2R _ Fa) (fin_B2R _ Fx) Hf1) as [_ V].
    assert (repr (B2R acc)) as Ra by (apply (fin_repr acc); now apply fin_B2R).
    assert (repr (B2R x)) as Rx by (apply (fin_repr x); now apply fin_B2R).
    pose proof ulpr_pos as Hu. cbn [length] in Hn. rewrite Nat2Z.inj_succ in Hn |- *.
    replace (k + Z.succ (Z.of_nat (length l)))%Z with (k + 1 + Z.of_nat (length l))%Z in Hn |- * by lia.
    assert (B2R acc <= RN (B2R acc + B2R x)) as L1 by (apply RN_ge_repr; auto; lra).
    assert (B2R x <= RN (B2R acc + B2R x)) as L2 by (apply RN_ge_repr; auto; lra).
    destruct (RN_plus_err (B2R acc) (B2R x) Ra Rx) as (e & He1 & E).
    assert (2 * IZR k * ulpr <= 1) as Hk1.
    { eapply Rle_trans; [|exact Hn]. apply Rmult_le_compat_r; [lra|]. apply Rmult_le_compat_l; [lra|]. apply IZR_le. lia. }
    assert (0 <= IZR k) as Hk0 by now apply IZR_le.
    specialize (IH (d_add acc x) (T + B2R x) (k + 1)%Z Hl').
    destruct IH as (I1 & I2 & I3).
    + split; auto. rewrite V. lra.
    + exact Hf.
    + lia.
    + exact Hn.
    + lra.
    + rewrite V, E, plus_IZR. set (A := B2R acc) in *. set (X := B2R x) in *.
      replace ((A + X) * (1 + e) - (T + X)) with ((A - T) + e * (A + X)) by ring.
      eapply Rle_trans; [apply Rabs_triang|]. rewrite Rabs_mult, (Rabs_pos_eq (A + X)) by lra.
      assert (A <= T + T) as HA.
      { apply Rle_trans with (T + Rabs (A - T)); [pose proof (Rle_abs (A - T)); lra|]. nra. }
      assert (Rabs e * (A + X) <= ulpr * (2 * T + X)) as H1 by (apply Rmult_le_compat; try lra; apply Rabs_pos).
      assert (0 <= ulpr * X) as H2 by (apply Rmult_le_pos; lra).
      assert (0 <= IZR k * (ulpr * X)) as H3 by (apply Rmult_le_pos; lra).
      replace (2 * (IZR k + 1) * ulpr * (T + X)) with (2 * IZR k * ulpr * T + 2 * (ulpr * T) + 2 * (IZR k * (ulpr * X)) + 2 * (ulpr * X)) by ring.
      replace (ulpr * (2 * T + X)) with (2 * (ulpr * T) + ulpr * X) in H1 by ring. lra.
    + rewrite V in I1. split; [lra|]. split.
      * constructor; [lra|exact I2].
      * change (fold_right Rplus 0 (map B2R l)) with (sumR (map B2R l)).
        replace (T + (B2R x + sumR (map B2R l))) with (T + B2R x + sumR (map B2R l)) by ring. exact I3.
Qed.

Lemma sum_err l : Forall nonneg_fin l -> is_finite (fold_left d_add l d_zero) = true -> (Z.of_nat (length l) <= 2 ^ 52)%Z ->
  let S := B2R (fold_left d_add l d_zero) in
  0 <= S /\ Forall (fun x => B2R x <= S) l /\
  Rabs (S - sumR (map B2R l)) <= 2 * IZR (Z.of_nat (length l)) * ulpr * sumR (map B2R l).
Proof.
  intros Hl Hf Hn. destruct (fold_sum_err l d_zero 0 0%Z) as (H1 & H2 & H3); auto.
  - split; [reflexivity|simpl; lra].
  - lia.
  - rewrite Z.add_0_l. apply IZR_le in Hn. rewrite IZR_p2 in Hn by lia.
    replace 1 with (2 * p2 52 * ulpr); [apply Rmult_le_compat_r; [apply bpow_ge_0|lra]|].
    rewrite Rmult_assoc, <- bpow_plus. simpl. lra.
  - lra.
  - simpl. rewrite Rminus_0_r, Rabs_R0. lra.
  - split; [exact H1|]. split; [exact H2|]. now rewrite Z.add_0_l, Rplus_0_l in H3.
Qed.

(** one scaled value: fl(fl(a / D) * N) *)
Lemma scale_one a D N x d : fin x a -> fin d D -> 0 <= a -> 0 < D -> a <= 4 * D -> (0 <= N < 2 ^ 31)%Z ->
  let X := d_mul (d_div x d) (d_ofZ N) in
  nonneg_fin X /\ Rabs (B2R X - a * IZR N / D) <= 3 * ulpr * (a * IZR N / D) + p2 (-1000).
Proof.
  intros Hx Hd Ha HD H4 HN X. set (q := a / D). assert (0 <= q <= 4) as Hq.
  { unfold q. split; [apply Rmult_le_pos; auto; left; now apply Rinv_0_lt_compat|]. apply Rmult_le_reg_r with D; auto. unfold Rdiv. rewrite Rmult_assoc, Rinv_l; lra. }
  assert (0 <= IZR N <= p2 31) as HNR by (split; [apply IZR_le; lia|rewrite <- IZR_p2 by lia; apply IZR_le; lia]).
  assert (RN q <= 4) as Hp4 by (apply RN_le_repr; [apply (repr_Z 4); lia|lra]).
  assert (0 <= RN q) as Hp0 by (apply RN_nonneg; lra).
  assert (fin (d_div x d) (RN q)) as F1.
  { apply (d_div_round x d a D Hx Hd); [lra|]. fold q. rewrite Rabs_pos_eq by auto. apply Rle_lt_trans with (p2 2); [simpl; lra|apply bpow_lt; lia]. }
  assert (fin (d_ofZ N) (IZR N)) as F2 by (apply d_ofZ_exact; lia).
  assert (RN q * IZR N <= p2 33) as H33.
  { change 33%Z with (2 + 31)%Z. rewrite bpow_plus. apply Rmult_le_compat; try lra. simpl. lra. }
  assert (0 <= RN q * IZR N) as H0 by (apply Rmult_le_pos; lra).
  assert (fin X (RN (RN q * IZR N))) as [F3 V3].
  { apply d_mul_round; auto. rewrite Rabs_pos_eq by (now apply RN_nonneg). apply Rle_lt_trans with (p2 33); [|apply bpow_lt; lia].
    apply RN_le_repr; [apply repr_p2; lia|auto]. }
  split; [split; auto; rewrite V3; now apply RN_nonneg|]. rewrite V3.
  replace (a * IZR N / D) with (q * IZR N) by (unfold q; field; lra).
  pose proof (RN_err q ltac:(lra)) as E1. pose proof (RN_err (RN q * IZR N) H0) as E2. pose proof ulpr_pos as Hu.
  assert (0 < p2 (-1075)) as Hh by apply bpow_gt_0.
  assert (p2 34 * p2 (-1075) <= p2 (-1000)) as Hb by (rewrite <- bpow_plus; apply bpow_le; lia).
  set (u := ulpr) in *. set (h := p2 (-1075)) in *. set (p := RN q) in *. set (n := IZR N) in *. set (y := RN (p * n)) in *.
  assert (p <= q + (u * q + h)) as Hpq by (pose proof (Rle_abs (p - q)); lra).
  assert (Rabs (p - q) * n <= (u * q + h) * n) as M1 by (apply Rmult_le_compat_r; lra).
  assert (Rabs (y - q * n) <= Rabs (y - p * n) + Rabs (p - q) * n) as T1.
  { rewrite <- (Rabs_pos_eq n) at 3 by lra. rewrite <- Rabs_mult. replace (y - q * n) with ((y - p * n) + (p - q) * n) by ring. apply Rabs_triang. }
  assert (p * n <= (q + (u * q + h)) * n) as M2 by (apply Rmult_le_compat_r; lra).
  assert (u * (p * n) <= u * ((q + (u * q + h)) * n)) as M3 by (apply Rmult_le_compat_l; lra).
  assert (h * n <= h * p2 31) as M4 by (apply Rmult_le_compat_l; lra).
  assert (u * (u * (q * n)) <= u * (q * n)) as M5.
  { assert (0 <= q * n) by (apply Rmult_le_pos; lra). rewrite <- (Rmult_1_l (u * (q * n))) at 2. apply Rmult_le_compat_r; [|lra]. apply Rmult_le_pos; lra. }
  assert (u * (h * n) <= h * n) as M6.
  { assert (0 <= h * n) by (apply Rmult_le_pos; lra). rewrite <- (Rmult_1_l (h * n)) at 2. apply Rmult_le_compat_r; lra. }
  assert (h * p2 34 = 8 * (h * p2 31)) as M7.
  { change 34%Z with (3 + 31)%Z. rewrite bpow_plus. simpl (bpow radix2 3). lra. }
  assert (h <= h * p2 31) as M8.
  { rewrite <- (Rmult_1_r h) at 1. apply Rmult_le_compat_l; [lra|]. simpl. lra. }
  lra.
Qed.

Lemma sumR_err {A} (f g : A -> R) c e l : (forall i, In i l -> Rabs (f i - g i) <= c * g i + e) ->
  Rabs (sumR (map f l) - sumR (map g l)) <= c * sumR (map g l) + IZR (Z.of_nat (length l)) * e.
Proof.
  induction l as [|x l IH]; intros H.
  - change (IZR (Z.of_nat (length (@nil A)))) with 0. simpl. rewrite Rminus_0_r, Rabs_R0. lra.
  - cbn [map sumR fold_right length]. fold (sumR (map f l)) (sumR (map g l)). rewrite Nat2Z.inj_succ, succ_IZR.
    specialize (H x ltac:(now left)) as H1. specialize (IH ltac:(intros; apply H; now right)).
    replace (f x + sumR (map f l) - (g x + sumR (map g l))) with ((f x - g x) + (sumR (map f l) - sumR (map g l))) by ring.
    eapply Rle_trans; [apply Rabs_triang|]. lra.
Qed.

(** all values scaled by N / D *)
Lemma scale_all l d D N : Forall nonneg_fin l -> fin d D -> 0 < D -> Forall (fun x => B2R x <= 4 * D) l -> (0 <= N < 2 ^ 31)%Z ->
  let X := map (fun x => d_mul (d_div x d) (d_ofZ N)) l in
  let T := sumR (map B2R l) * IZR N / D in
  Forall nonneg_fin X /\ Rabs (sumR (map B2R X) - T) <= 3 * ulpr * T + IZR (Z.of_nat (length l)) * p2 (-1000).
Proof.
  intros Hl Hd HD H4 HN X T. rewrite Forall_forall in Hl, H4.
  assert (forall x, In x l -> nonneg_fin (d_mul (d_div x d) (d_ofZ N)) /\
    Rabs (B2R (d_mul (d_div x d) (d_ofZ N)) - B2R x * IZR N / D) <= 3 * ulpr * (B2R x * IZR N / D) + p2 (-1000)) as H.
  { intros x Hi. destruct (Hl x Hi) as [F P]. apply scale_one; auto; now apply fin_B2R. }
  split.
  - apply Forall_forall. intros y Hy. apply in_map_iff in Hy as (x & <- & Hi). now apply H.
  - unfold X. rewrite map_map. replace T with (sumR (map (fun x => B2R x * IZR N / D) l)).
    + apply sumR_err. intros x Hi. now apply H.
    + unfold T. rewrite (sumR_ext (fun x => B2R x * IZR N / D) (fun x => IZR N / D * B2R x)) by (intros; field; lra).
      rewrite sumR_mult. field. lra.
Qed.
