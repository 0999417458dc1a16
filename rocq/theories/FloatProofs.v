(** Working lemmas on binary64: the value of each operation as a real number. *)
From Coq Require Import ZArith Reals Lra Psatz.
From Flocq Require Import Core.Core IEEE754.BinarySingleNaN Sterbenz.
From Verif Require Import Base Float64.
Open Scope R_scope.

(** the format and its rounding *)
Notation fx := (SpecFloat.fexp 53 1024).
Notation repr := (generic_format radix2 (SpecFloat.fexp 53 1024)).
Definition RN (x : R) : R := round radix2 fx ZnearestE x.
Notation p2 := (bpow radix2).

(** [x] is finite with value [r] *)
Definition fin (x : double) (r : R) : Prop := is_finite x = true /\ B2R x = r.

#[global] Instance fexp_valid : Valid_exp fx := fexp_correct 53 1024 Hprec.
#[global] Instance fexp_mono : Monotone_exp fx := fexp_monotone 53 1024.

Lemma fx_FLT : fx = FLT_exp (-1074) 53. Proof. reflexivity. Qed.

Lemma fin_B2R x : is_finite x = true -> fin x (B2R x). Proof. now split. Qed.
Lemma fin_repr x r : fin x r -> repr r.
Proof. intros [_ <-]. apply generic_format_B2R. Qed.
Lemma fin_bound x r : fin x r -> Rabs r < p2 1024.
Proof. intros [_ <-]. apply abs_B2R_lt_emax. Qed.
Lemma fin_unique x r r' : fin x r -> fin x r' -> r = r'.
Proof. now intros [_ <-] [_ <-]. Qed.

Lemma RN_repr r : repr (RN r).
Proof. apply generic_format_round; [exact fexp_valid|apply valid_rnd_N]. Qed.
Lemma RN_id r : repr r -> RN r = r.
Proof. intros. apply round_generic; auto. apply valid_rnd_N. Qed.
Lemma RN_le x y : x <= y -> RN x <= RN y.
Proof. intros. apply round_le; auto; [exact fexp_valid|apply valid_rnd_N]. Qed.
Lemma RN_0 : RN 0 = 0.
Proof. apply round_0. apply valid_rnd_N. Qed.
Lemma RN_ge_repr x y : repr y -> y <= x -> y <= RN x.
Proof. intros H L. rewrite <- (RN_id y H). now apply RN_le. Qed.
Lemma RN_le_repr x y : repr y -> x <= y -> RN x <= y.
Proof. intros H L. rewrite <- (RN_id y H). now apply RN_le. Qed.
Lemma RN_nonneg x : 0 <= x -> 0 <= RN x.
Proof. intros. apply RN_ge_repr; auto. apply generic_format_0. Qed.
Lemma RN_opp x : RN (- x) = - RN x.
Proof. apply round_NE_opp. Qed.
Lemma RN_abs x : Rabs (RN x) = RN (Rabs x).
Proof.
  unfold Rabs. destruct (Rcase_abs x) as [H|H].
  - rewrite RN_opp. destruct (Rcase_abs (RN x)) as [|K]; auto. assert (RN x <= 0).
    { rewrite <- RN_0. apply RN_le. lra. } lra.
  - destruct (Rcase_abs (RN x)) as [K|]; auto. assert (0 <= RN x) by (apply RN_nonneg; lra). lra.
Qed.

Lemma IZR_p2 e : (0 <= e)%Z -> IZR (2 ^ e) = p2 e.
Proof. intros. now rewrite <- IZR_Zpower by auto. Qed.

(** dyadic numbers with at most 53 bits *)
Lemma repr_dyadic m e : (Z.abs m <= 2 ^ 53)%Z -> (-1074 <= e)%Z -> repr (IZR m * p2 e).
Proof.
  intros Hm He. destruct (Z.eq_dec (Z.abs m) (2 ^ 53)) as [E|N].
  - assert (repr (p2 (53 + e))) as H.
    { apply generic_format_bpow. rewrite fx_FLT. unfold FLT_exp. lia. }
    destruct (Z.abs_eq_or_opp m) as [E'|E']; rewrite E' in E.
    + rewrite E, (IZR_p2 53) by lia. now rewrite <- bpow_plus.
    + replace m with (- 2 ^ 53)%Z by lia. rewrite opp_IZR, (IZR_p2 53) by lia.
      replace (- p2 53 * p2 e) with (- p2 (53 + e)) by (rewrite bpow_plus; ring). now apply generic_format_opp.
  - rewrite fx_FLT. apply generic_format_FLT. apply (FLT_spec _ _ _ _ (Float radix2 m e)); simpl; try lia.
    reflexivity.
Qed.
Lemma repr_Z z : (Z.abs z <= 2 ^ 53)%Z -> repr (IZR z).
Proof. intros. replace (IZR z) with (IZR z * p2 0) by (simpl; ring). apply repr_dyadic; auto. lia. Qed.
Lemma repr_p2 e : (-1074 <= e)%Z -> repr (p2 e).
Proof. intros. replace (p2 e) with (IZR 1 * p2 e) by ring. apply repr_dyadic; auto. lia. Qed.
Lemma repr_0 : repr 0. Proof. apply generic_format_0. Qed.

Lemma fin_zero : fin d_zero 0. Proof. split; reflexivity. Qed.

Lemma d_lit_round m e : Rabs (RN (IZR m * p2 e)) < p2 1024 -> fin (d_lit m e) (RN (IZR m * p2 e)).
Proof.
  intros H. unfold d_lit. pose proof (binary_normalize_correct 53 1024 Hprec Hemax mode_NE m e false) as C.
  cbv zeta in C. change (round_mode mode_NE) with ZnearestE in C.
  change (F2R {| Fnum := m; Fexp := e |}) with (IZR m * p2 e) in C. fold (RN (IZR m * p2 e)) in C.
  rewrite Rlt_bool_true in C by exact H. destruct C as (E & F & _). now split.
Qed.
Lemma d_lit_exact m e : (Z.abs m <= 2 ^ 53)%Z -> (-1074 <= e)%Z -> (e <= 970)%Z -> fin (d_lit m e) (IZR m * p2 e).
Proof.
  intros Hm He He'. assert (repr (IZR m * p2 e)) as Hr by now apply repr_dyadic.
  rewrite <- (RN_id _ Hr). apply d_lit_round. rewrite RN_id by auto.
  rewrite Rabs_mult, (Rabs_pos_eq (p2 e)) by apply bpow_ge_0. rewrite <- abs_IZR.
  apply Rle_lt_trans with (p2 53 * p2 e).
  - apply Rmult_le_compat_r; [apply bpow_ge_0|]. rewrite <- IZR_p2 by lia. now apply IZR_le.
  - rewrite <- bpow_plus. apply bpow_lt. lia.
Qed.
Lemma d_ofZ_round z : (Z.abs z <= 2 ^ 1000)%Z -> fin (d_ofZ z) (RN (IZR z)).
Proof.
  intros H. replace (IZR z) with (IZR z * p2 0) by (simpl; ring). apply d_lit_round.
  replace (IZR z * p2 0) with (IZR z) by (simpl; ring). rewrite RN_abs.
  apply Rle_lt_trans with (p2 1000); [|apply bpow_lt; lia]. apply RN_le_repr; [apply repr_p2; lia|].
  rewrite <- abs_IZR, <- IZR_p2 by lia. now apply IZR_le.
Qed.
Lemma d_ofZ_exact z : (Z.abs z <= 2 ^ 53)%Z -> fin (d_ofZ z) (IZR z).
Proof.
  intros H. rewrite <- (RN_id (IZR z)) by now apply repr_Z. apply d_ofZ_round.
  apply Z.le_trans with (2 ^ 53)%Z; auto. apply Z.pow_le_mono_r; lia.
Qed.
Lemma fin_one : fin d_one 1. Proof. apply (d_ofZ_exact 1). lia. Qed.

Section Ops.
Variables (x y : double) (a b : R).
Hypotheses (Hx : fin x a) (Hy : fin y b).

Lemma d_add_round : Rabs (RN (a + b)) < p2 1024 -> fin (d_add x y) (RN (a + b)).
Proof.
  destruct Hx as [Fx Ex], Hy as [Fy Ey]. intros H. pose proof (Bplus_correct 53 1024 Hprec Hemax mode_NE x y Fx Fy) as C.
  rewrite Ex, Ey in C. change (round_mode mode_NE) with ZnearestE in C. fold (RN (a + b)) in C.
  rewrite Rlt_bool_true in C by exact H. destruct C as (E & F & _). now split.
Qed.
Lemma d_sub_round : Rabs (RN (a - b)) < p2 1024 -> fin (d_sub x y) (RN (a - b)).
Proof.
  destruct Hx as [Fx Ex], Hy as [Fy Ey]. intros H. pose proof (Bminus_correct 53 1024 Hprec Hemax mode_NE x y Fx Fy) as C.
  rewrite Ex, Ey in C. change (round_mode mode_NE) with ZnearestE in C. fold (RN (a - b)) in C.
  rewrite Rlt_bool_true in C by exact H. destruct C as (E & F & _). now split.
Qed.
Lemma d_mul_round : Rabs (RN (a * b)) < p2 1024 -> fin (d_mul x y) (RN (a * b)).
Proof.
  destruct Hx as [Fx Ex], Hy as [Fy Ey]. intros H. pose proof (Bmult_correct 53 1024 Hprec Hemax mode_NE x y) as C.
  rewrite Ex, Ey in C. change (round_mode mode_NE) with ZnearestE in C. fold (RN (a * b)) in C.
  rewrite Rlt_bool_true in C by exact H. destruct C as (E & F & _). split; [unfold d_mul; now rewrite F, Fx, Fy|exact E].
Qed.
Lemma d_div_round : b <> 0 -> Rabs (RN (a / b)) < p2 1024 -> fin (d_div x y) (RN (a / b)).
Proof.
  destruct Hx as [Fx Ex], Hy as [Fy Ey]. intros Hb H.
  pose proof (Bdiv_correct 53 1024 Hprec Hemax mode_NE x y) as C.
  rewrite Ex, Ey in C. specialize (C Hb). change (round_mode mode_NE) with ZnearestE in C. fold (RN (a / b)) in C.
  rewrite Rlt_bool_true in C by exact H. destruct C as (E & F & _). split; [unfold d_div; now rewrite F|exact E].
Qed.
Lemma d_add_exact : repr (a + b) -> Rabs (a + b) < p2 1024 -> fin (d_add x y) (a + b).
Proof. intros R H. rewrite <- (RN_id _ R). apply d_add_round. now rewrite (RN_id _ R). Qed.
Lemma d_sub_exact : repr (a - b) -> Rabs (a - b) < p2 1024 -> fin (d_sub x y) (a - b).
Proof. intros R H. rewrite <- (RN_id _ R). apply d_sub_round. now rewrite (RN_id _ R). Qed.
Lemma d_mul_exact : repr (a * b) -> Rabs (a * b) < p2 1024 -> fin (d_mul x y) (a * b).
Proof. intros R H. rewrite <- (RN_id _ R). apply d_mul_round. now rewrite (RN_id _ R). Qed.
Lemma d_div_exact : b <> 0 -> repr (a / b) -> Rabs (a / b) < p2 1024 -> fin (d_div x y) (a / b).
Proof. intros Hb R H. rewrite <- (RN_id _ R). apply d_div_round; auto. now rewrite (RN_id _ R). Qed.

Lemma d_ltb_R : d_ltb x y = Rlt_bool a b.
Proof. destruct Hx as [Fx <-], Hy as [Fy <-]. now apply Bltb_correct. Qed.
Lemma d_leb_R : d_leb x y = Rle_bool a b.
Proof. destruct Hx as [Fx <-], Hy as [Fy <-]. now apply Bleb_correct. Qed.
Lemma d_eqb_R : d_eqb x y = Req_bool a b.
Proof. destruct Hx as [Fx <-], Hy as [Fy <-]. now apply Beqb_correct. Qed.
Lemma d_abs_R : fin (d_abs x) (Rabs a).
Proof. destruct Hx as [Fx <-]. split; [unfold d_abs; now rewrite is_finite_Babs|apply B2R_Babs]. Qed.
End Ops.

Lemma d_ltb_true x y a b : fin x a -> fin y b -> d_ltb x y = true <-> a < b.
Proof.
  intros Hx Hy. rewrite (d_ltb_R x y a b Hx Hy). destruct (Rlt_bool_spec a b); split; intros; auto; try discriminate; lra.
Qed.
Lemma d_leb_true x y a b : fin x a -> fin y b -> d_leb x y = true <-> a <= b.
Proof.
  intros Hx Hy. rewrite (d_leb_R x y a b Hx Hy). destruct (Rle_bool_spec a b); split; intros; auto; try discriminate; lra.
Qed.
Lemma d_ltb_false x y a b : fin x a -> fin y b -> d_ltb x y = false <-> b <= a.
Proof.
  intros Hx Hy. rewrite (d_ltb_R x y a b Hx Hy). destruct (Rlt_bool_spec a b); split; intros; auto; try discriminate; lra.
Qed.

(** an integer strictly inside the range of 2^-32 multiples *)
Lemma scale32 u : (0 <= u < 2 ^ 32)%Z ->
  fin (d_mul (d_ofZ u) (d_lit 1 (-32))) (IZR u * p2 (-32)).
Proof.
  intros Hu. assert (fin (d_ofZ u) (IZR u)) as Hx by (apply d_ofZ_exact; lia).
  assert (fin (d_lit 1 (-32)) (p2 (-32))) as Hy.
  { replace (p2 (-32)) with (IZR 1 * p2 (-32)) by ring. apply d_lit_exact; lia. }
  apply (d_mul_exact _ _ _ _ Hx Hy).
  - apply repr_dyadic; lia.
  - rewrite Rabs_mult, (Rabs_pos_eq (p2 _)) by apply bpow_ge_0. rewrite <- abs_IZR.
    apply Rle_lt_trans with (p2 32 * p2 (-32)).
    + apply Rmult_le_compat_r; [apply bpow_ge_0|]. rewrite <- IZR_p2 by lia. apply IZR_le. lia.
    + rewrite <- bpow_plus. apply bpow_lt. lia.
Qed.

Lemma scale32_bounds u : (0 <= u < 2 ^ 32)%Z -> 0 <= IZR u * p2 (-32) < 1.
Proof.
  intros Hu. split.
  - apply Rmult_le_pos; [now apply IZR_le|apply bpow_ge_0].
  - replace 1 with (p2 32 * p2 (-32)) by (rewrite <- bpow_plus; reflexivity).
    apply Rmult_lt_compat_r; [apply bpow_gt_0|]. rewrite <- IZR_p2 by lia. apply IZR_lt. lia.
Qed.

(** * Conversion to integers *)

Lemma d_trunc x r : fin x r -> Btrunc x = Ztrunc r.
Proof.
  intros [_ <-]. apply eq_IZR. rewrite Btrunc_correct. unfold round, F2R, scaled_mantissa, cexp, FIX_exp. simpl.
  { now rewrite !Rmult_1_r. }
  exact Hemax.
Qed.

Lemma fin_half : fin d_half (/ 2).
Proof.
  replace (/ 2) with (IZR 1 * p2 (-1)) by (simpl; lra). apply d_lit_exact; simpl; lia.
Qed.

Lemma d_to_i64_ok x r : fin x r -> (- 2 ^ 63 <= Ztrunc r < 2 ^ 63)%Z -> d_to_i64 x = Ok (Ztrunc r).
Proof.
  intros Hx Hr. unfold d_to_i64. rewrite (d_trunc x r Hx). destruct Hx as [-> _]. unfold in_i64.
  rewrite (proj2 (Z.leb_le _ _)), (proj2 (Z.ltb_lt _ _)) by lia. reflexivity.
Qed.

Lemma d_to_i64_inv x z : d_to_i64 x = Ok z -> exists r, fin x r /\ z = Ztrunc r /\ (- 2 ^ 63 <= z < 2 ^ 63)%Z.
Proof.
  unfold d_to_i64. destruct (is_finite x) eqn:F; cbn [andb]; [|discriminate].
  unfold in_i64. destruct (Z.leb_spec (- 2 ^ 63) (Btrunc x)); cbn [andb]; [|discriminate].
  destruct (Z.ltb_spec (Btrunc x) (2 ^ 63)); [|discriminate]. intros [= <-].
  exists (B2R x). assert (fin x (B2R x)) as Hx by now split. split; auto. split; [now apply d_trunc|lia].
Qed.

(** rounding a non-negative integer by adding one half and truncating *)
Lemma trunc_half s : (0 <= s < 2 ^ 52)%Z ->
  fin (d_add (d_ofZ s) d_half) (IZR s + / 2) /\ Ztrunc (IZR s + / 2) = s.
Proof.
  intros Hs. split.
  - assert (fin (d_ofZ s) (IZR s)) as H1 by (apply d_ofZ_exact; lia).
    apply d_add_exact; [exact H1|apply fin_half| |].
    + replace (IZR s + / 2) with (IZR (2 * s + 1) * p2 (-1)).
      * apply repr_dyadic; lia.
      * rewrite plus_IZR, mult_IZR. simpl. lra.
    + rewrite Rabs_pos_eq.
      * apply Rlt_trans with (p2 53); [|apply bpow_lt; lia]. rewrite <- IZR_p2 by lia.
        apply Rlt_le_trans with (IZR (s + 1)); [rewrite plus_IZR; lra|]. apply IZR_le. lia.
      * apply Rplus_le_le_0_compat; [now apply IZR_le|lra].
  - rewrite Ztrunc_floor by (assert (0 <= IZR s) by (now apply IZR_le); lra). apply Zfloor_imp.
    rewrite plus_IZR. lra.
Qed.

Lemma trunc_half_big s : (2 ^ 52 <= s < 2 ^ 62)%Z ->
  exists r, fin (d_add (d_ofZ s) d_half) r /\ (2 ^ 52 <= Ztrunc r <= 2 ^ 62 + 1024)%Z.
Proof.
  intros Hs. assert (fin (d_ofZ s) (RN (IZR s))) as H1.
  { apply d_ofZ_round. apply Z.le_trans with (2 ^ 62)%Z; [lia|]. apply Z.pow_le_mono_r; lia. }
  assert (p2 52 <= RN (IZR s)) as L1.
  { apply RN_ge_repr; [apply repr_p2; lia|]. rewrite <- IZR_p2 by lia. apply IZR_le. lia. }
  assert (RN (IZR s) <= p2 62) as U1.
  { apply RN_le_repr; [apply repr_p2; lia|]. rewrite <- IZR_p2 by lia. apply IZR_le. lia. }
  assert (p2 52 <= RN (RN (IZR s) + / 2)) as L2.
  { apply RN_ge_repr; [apply repr_p2; lia|]. lra. }
  assert (RN (RN (IZR s) + / 2) <= IZR (2 ^ 62 + 1024)) as U2.
  { apply RN_le_repr.
    - replace (IZR (2 ^ 62 + 1024)) with (IZR (2 ^ 52 + 1) * p2 10); [apply repr_dyadic; lia|].
      rewrite <- IZR_p2, <- mult_IZR by lia. reflexivity.
    - rewrite plus_IZR, IZR_p2 by lia. lra. }
  exists (RN (RN (IZR s) + / 2)). split.
  - apply d_add_round; auto; [apply fin_half|].
    rewrite Rabs_pos_eq by (pose proof (bpow_ge_0 radix2 52); lra).
    eapply Rle_lt_trans; [exact U2|]. rewrite <- IZR_p2 by lia. apply IZR_lt. lia.
  - rewrite Ztrunc_floor by (pose proof (bpow_ge_0 radix2 52); lra). split.
    + apply Zfloor_lub. now rewrite IZR_p2 by lia.
    + apply le_IZR. eapply Rle_trans; [apply Zfloor_lb|exact U2].
Qed.
