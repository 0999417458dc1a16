(** Proofs about the normal distribution *)
From Coq Require Import Reals Lra Lia.
From Flocq Require Import Core.Core Sterbenz Mult_error IEEE754.BinarySingleNaN.
From Verif Require Import Base Spec NDArray Float64 FloatProofs FloatExt Normal NormSpec.
Open Scope R_scope.

(** * The range check *)

Lemma sub_cases x y a b : fin x a -> fin y b -> fin (d_sub x y) (RN (a - b)) \/ exists s, d_sub x y = B754_infinity s.
Proof.
  intros Hx Hy. destruct (Rlt_bool_spec (Rabs (RN (a - b))) (p2 1024)) as [H|H]; [left; now apply d_sub_round|right].
  destruct Hx as [Fx <-], Hy as [Fy <-].
  generalize (Bminus_correct 53 1024 Hprec Hemax mode_NE x y Fx Fy). rewrite Rlt_bool_false by exact H.
  intros [E _]. eexists. apply overflow_inf. exact E.
Qed.

Lemma fin_eps : fin d_eps (p2 (-52)).
Proof. replace (p2 (-52)) with (IZR 1 * p2 (-52)) by ring. apply d_lit_exact; lia. Qed.
Lemma fin_4eps : fin (d_mul (d_ofZ 4) d_eps) (p2 (-50)).
Proof.
  assert (fin (d_ofZ 4) 4) as H4 by (apply d_ofZ_exact; lia).
  assert (4 * p2 (-52) = p2 (-50)) as E by (replace 4 with (p2 2) by reflexivity; now rewrite <- bpow_plus).
  rewrite <- E. apply (d_mul_exact _ _ _ _ H4 fin_eps); rewrite E; [apply repr_p2; lia|].
  rewrite Rabs_pos_eq by apply bpow_ge_0. apply bpow_lt. lia.
Qed.
Lemma low_bounds : exists l, fin x_low l /\ 0 < l < 1.
Proof.
  assert (is_finite x_low = true) as F by (vm_compute; reflexivity). exists (B2R x_low). split; [now apply fin_B2R|].
  split; [apply (d_ltb_true d_zero x_low 0 _ fin_zero (fin_B2R _ F))|apply (d_ltb_true x_low d_one _ 1 (fin_B2R _ F) fin_one)];
    vm_compute; reflexivity.
Qed.
Lemma high_bounds : exists h, fin x_high h /\ 0 < h < 1.
Proof.
  assert (is_finite x_high = true) as F by (vm_compute; reflexivity). exists (B2R x_high). split; [now apply fin_B2R|].
  split; [apply (d_ltb_true d_zero x_high 0 _ fin_zero (fin_B2R _ F))|apply (d_ltb_true x_high d_one _ 1 (fin_B2R _ F) fin_one)];
    vm_compute; reflexivity.
Qed.

Lemma p2_small : 0 < p2 (-52) /\ p2 (-52) < p2 (-50) /\ p2 (-50) < 1 / 2.
Proof.
  repeat split; [apply bpow_gt_0|apply bpow_lt; lia|]. replace (1 / 2) with (p2 (-1)) by (simpl; lra). apply bpow_lt. lia.
Qed.

Lemma repr_sub x y : repr x -> repr y -> y / 2 <= x <= 2 * y -> repr (x - y).
Proof. apply (@sterbenz radix2 (FLT_exp (-1074) 53) (FLT_exp_valid _ _) (FLT_exp_monotone _ _)). Qed.

(** the first test of tail_value, for an argument outside the open interval *)
Lemma near_one x a : fin x a -> a <= 0 \/ 1 <= a ->
  d_ltb (d_abs (d_sub x d_one)) (d_mul (d_ofZ 4) d_eps) = true <-> 1 <= a < 1 + p2 (-50).
Proof.
  intros Hx Ha. destruct p2_small as (P1 & P2 & P3).
  destruct (sub_cases _ _ _ _ Hx fin_one) as [H|[s H]].
  - rewrite (d_ltb_true _ _ _ _ (d_abs_R _ _ H) fin_4eps). destruct Ha as [Ha|Ha].
    + assert (RN (a - 1) <= - (1)) as B by (apply RN_le_repr; [apply (repr_Z (-1)); lia|lra]).
      rewrite Rabs_left by lra. split; lra.
    + rewrite Rabs_pos_eq by (apply RN_nonneg; lra). split; intros Q.
      * split; [lra|]. destruct (Rlt_le_dec a (1 + p2 (-50))) as [|G]; [assumption|exfalso].
        assert (p2 (-50) <= RN (a - 1)) by (apply RN_ge_repr; [apply repr_p2; lia|lra]). lra.
      * rewrite RN_id; [lra|]. apply repr_sub; [exact (fin_repr _ _ Hx)|apply (repr_Z 1); lia|lra].
  - rewrite H. split; intros Q; [destruct s; vm_compute in Q; discriminate|exfalso].
    destruct Ha as [Ha|Ha]; [lra|].
    assert (fin (d_sub x d_one) (RN (a - 1))) as K.
    { apply (d_sub_round _ _ _ _ Hx fin_one). rewrite RN_id.
      - rewrite Rabs_pos_eq by lra. apply Rlt_trans with 1; [lra|]. replace 1 with (p2 0) by reflexivity. apply bpow_lt. lia.
      - apply repr_sub; [exact (fin_repr _ _ Hx)|apply (repr_Z 1); lia|lra]. }
    rewrite H in K. destruct K; discriminate.
Qed.

Lemma tail_border L x : borderline x -> exists s, tail_value L x = Ok (if s : bool then d_opp d_max else d_max).
Proof.
  intros [F B]. pose proof (fin_B2R _ F) as Hx. destruct p2_small as (P1 & P2 & P3). unfold tail_value.
  assert (d_leb x d_zero || d_leb d_one x = true) as E.
  { apply Bool.orb_true_iff. destruct B as [B|B]; [left; apply (d_leb_true _ _ _ _ Hx fin_zero)|right; apply (d_leb_true _ _ _ _ fin_one Hx)]; lra. }
  rewrite E. destruct B as [B|B].
  - exists true. destruct (d_ltb (d_abs (d_sub x d_one)) _) eqn:N.
    + apply (near_one _ _ Hx) in N; [lra|left; lra].
    + replace (d_ltb (d_abs x) d_eps) with true; [reflexivity|]. symmetry. apply (d_ltb_true _ _ _ _ (d_abs_R _ _ Hx) fin_eps).
      rewrite Rabs_left1 by lra. lra.
  - exists false. replace (d_ltb (d_abs (d_sub x d_one)) _) with true; [reflexivity|]. symmetry. apply (near_one _ _ Hx); [right; lra|lra].
Qed.

Lemma tail_outside L x : outside x -> tail_value L x = Throw (RuntimeError "Inverse cumulative normal: x must be in [0,1]").
Proof.
  intros [[s ->]|[F B]]; [destruct s; reflexivity|].
  pose proof (fin_B2R _ F) as Hx. destruct p2_small as (P1 & P2 & P3). unfold tail_value.
  assert (d_leb x d_zero || d_leb d_one x = true) as E.
  { apply Bool.orb_true_iff. destruct B as [B|B]; [left; apply (d_leb_true _ _ _ _ Hx fin_zero)|right; apply (d_leb_true _ _ _ _ fin_one Hx)]; lra. }
  rewrite E. destruct (d_ltb (d_abs (d_sub x d_one)) _) eqn:N.
  { apply (near_one _ _ Hx) in N; lra. }
  destruct (d_ltb (d_abs x) d_eps) eqn:M; [exfalso|reflexivity].
  apply (d_ltb_true _ _ _ _ (d_abs_R _ _ Hx) fin_eps) in M. apply Rabs_lt_inv in M. lra.
Qed.

Lemma to_tail x : outside x \/ borderline x -> d_ltb x x_low || d_ltb x_high x = true.
Proof.
  destruct low_bounds as (l & Hl & Bl), high_bounds as (h & Hh & Bh). destruct p2_small as (P1 & P2 & P3).
  intros [[[s ->]|[F B]]|[F B]]; [destruct s; vm_compute; reflexivity| |];
    apply Bool.orb_true_iff; pose proof (fin_B2R _ F) as Hx; (destruct B as [B|B];
      [left; apply (d_ltb_true _ _ _ _ Hx Hl)|right; apply (d_ltb_true _ _ _ _ Hh Hx)]; lra).
Qed.

Lemma class x : is_nan x = true \/ outside x \/ borderline x \/ is_finite x = true /\ 0 < B2R x < 1.
Proof.
  destruct (is_nan x) eqn:N; [now left|right]. destruct (is_finite x) eqn:F.
  - unfold outside, borderline. destruct p2_small as (P1 & P2 & P3).
    destruct (Rle_lt_dec (B2R x) (- p2 (-52))); [left; right; auto|].
    destruct (Rle_lt_dec (B2R x) 0); [right; left; auto|].
    destruct (Rlt_le_dec (B2R x) 1); [right; right; auto|].
    destruct (Rlt_le_dec (B2R x) (1 + p2 (-50))); [right; left; auto|left; right; auto].
  - left. left. destruct x; try discriminate. eauto.
Qed.

Lemma inv_claim L x :
  (outside x <-> inv_cum_norm L x = Throw (RuntimeError "Inverse cumulative normal: x must be in [0,1]")) /\
  (~ outside x -> exists z, inv_cum_norm L x = Ok z).
Proof.
  assert (outside x -> inv_cum_norm L x = Throw (RuntimeError "Inverse cumulative normal: x must be in [0,1]")) as H1.
  { intros O. unfold inv_cum_norm. rewrite to_tail, tail_outside by auto. reflexivity. }
  assert (~ outside x -> exists z, inv_cum_norm L x = Ok z) as H2.
  { intros O. unfold inv_cum_norm. destruct (d_ltb x x_low || d_ltb x_high x); [|eexists; reflexivity].
    destruct (class x) as [N|[O'|[B|[F B]]]]; [|contradiction| |].
    - clear O. destruct x; try discriminate N. eexists; reflexivity.
    - destruct (tail_border L x B) as [s ->]. eexists; reflexivity.
    - pose proof (fin_B2R _ F) as Hx. unfold tail_value.
      replace (d_leb x d_zero) with false by (symmetry; apply Bool.not_true_is_false; rewrite (d_leb_true _ _ _ _ Hx fin_zero); lra).
      replace (d_leb d_one x) with false by (symmetry; apply Bool.not_true_is_false; rewrite (d_leb_true _ _ _ _ fin_one Hx); lra).
      cbn [orb]. destruct (d_ltb x x_low); eexists; reflexivity. }
  split; [|exact H2]. split; [exact H1|]. intros E.
  destruct (class x) as [N|[O|[B|[F B]]]]; [|exact O| |]; exfalso;
    (destruct H2 as [z Z]; [|rewrite Z in E; discriminate]).
  - clear - N. intros [[s ->]|[F _]]; [discriminate N|destruct x; try discriminate N; discriminate F].
  - clear - B. intros [[s ->]|[_ Q]]; destruct B as [F B]; [discriminate F|destruct p2_small as (?&?&?); lra].
  - clear - F B. intros [[s ->]|[_ Q]]; [discriminate F|destruct p2_small as (?&?&?); lra].
Qed.

(** * The recovery at 0 and 1 *)

Lemma halley_nan L x (s : bool) : exp_sane (n_exp L) -> is_nan (halley L x (if s then d_opp d_max else d_max)) = true.
Proof.
  intros HE. set (z := if s then _ else _).
  assert (d_mul (d_mul d_half z) z = B754_infinity false) as E1 by (subst z; destruct s; apply B2SF_inj; vm_compute; reflexivity).
  assert (exists t m e H, d_mul d_half z = B754_finite t m e H) as (t & m & e & H & E2).
  { subst z. destruct s; [destruct (d_mul d_half (d_opp d_max)) eqn:Q|destruct (d_mul d_half d_max) eqn:Q]; eauto;
      exfalso; apply (f_equal B2SF) in Q; vm_compute in Q; discriminate. }
  unfold halley. rewrite E1, HE, E2. clearbody z.
  set (q := d_mul (d_mul (d_sub (cum_norm L z) x) sqrt_2) (sqrt_pi L)). clearbody q.
  destruct q as [[]|[]| |[] qm qe qH]; destruct t, z as [[]|[]| |[] zm ze zH]; reflexivity.
Qed.

Lemma recover_claim L x : exp_sane (n_exp L) -> borderline x -> exists z, inv_cum_norm L x = Ok z /\ is_nan z = true.
Proof.
  intros HE B. destruct (tail_border L x B) as [s E]. unfold inv_cum_norm. rewrite to_tail, E by auto.
  eexists. split; [reflexivity|]. now apply halley_nan.
Qed.

(** * cumNorm *)

Lemma add_one_bounds y : d_leb (d_ofZ (-1)) y = true -> d_leb y d_one = true ->
  fin (d_add y d_one) (RN (B2R y + 1)) /\ 0 <= RN (B2R y + 1) <= 2 /\ fin y (B2R y).
Proof.
  intros A B.
  assert (is_finite y = true) as F.
  { destruct y as [[]|[]| |[] m e H]; try reflexivity; vm_compute in A, B; discriminate. }
  pose proof (fin_B2R _ F) as Hy.
  apply (d_leb_true _ _ _ _ (d_ofZ_exact (-1) ltac:(lia)) Hy) in A. apply (d_leb_true _ _ _ _ Hy fin_one) in B.
  assert (0 <= RN (B2R y + 1) <= 2) as R.
  { split; [apply RN_nonneg; lra|apply RN_le_repr; [apply (repr_Z 2); lia|lra]]. }
  split; [|split; [exact R|exact Hy]]. apply (d_add_round _ _ _ _ Hy fin_one).
  rewrite Rabs_pos_eq by lra. apply Rle_lt_trans with 2; [lra|]. replace 2 with (p2 1) by reflexivity. apply bpow_lt. lia.
Qed.

Lemma half_bounds y a : fin y a -> 0 <= a <= 2 -> fin (d_mul d_half y) (RN (/ 2 * a)) /\ 0 <= RN (/ 2 * a) <= 1.
Proof.
  intros Hy B. assert (0 <= RN (/ 2 * a) <= 1) as R.
  { split; [apply RN_nonneg; lra|apply RN_le_repr; [apply (repr_Z 1); lia|lra]]. }
  split; [|exact R]. apply (d_mul_round _ _ _ _ fin_half Hy). rewrite Rabs_pos_eq by lra.
  apply Rle_lt_trans with 1; [lra|]. replace 1 with (p2 0) by reflexivity. apply bpow_lt. lia.
Qed.

Lemma rsqrt_facts : exists m e H, rsqrt_2 = B754_finite false m e H.
Proof. destruct rsqrt_2 as [s|s| |[] m e H] eqn:Q; eauto; exfalso; apply (f_equal B2SF) in Q; vm_compute in Q; discriminate. Qed.

Lemma mul_cases x y a b : fin x a -> fin y b ->
  fin (d_mul x y) (RN (a * b)) \/ p2 1024 <= Rabs (RN (a * b)) /\ d_mul x y = B754_infinity (xorb (Bsign x) (Bsign y)).
Proof.
  intros Hx Hy. destruct (Rlt_bool_spec (Rabs (RN (a * b))) (p2 1024)) as [H|H]; [left; now apply d_mul_round|right].
  split; [exact H|]. destruct Hx as [Fx <-], Hy as [Fy <-].
  generalize (Bmult_correct 53 1024 Hprec Hemax mode_NE x y). rewrite Rlt_bool_false by exact H.
  intros E. apply overflow_inf. exact E.
Qed.

Lemma mul_rsqrt_nan x : is_nan (d_mul x rsqrt_2) = is_nan x.
Proof.
  destruct rsqrt_facts as (m & e & H & R). destruct x as [s|s| |s mx ex Hx]; try (rewrite R; reflexivity).
  assert (is_finite rsqrt_2 = true) as F by (rewrite R; reflexivity).
  destruct (mul_cases _ _ _ _ (fin_B2R (B754_finite s mx ex Hx) eq_refl) (fin_B2R _ F)) as [[G _]|[_ ->]]; [|reflexivity].
  destruct (d_mul (B754_finite s mx ex Hx) rsqrt_2); try discriminate G; reflexivity.
Qed.

Lemma sign_B2R (x : double) : is_finite x = true -> (B2R x < 0 -> Bsign x = true) /\ (0 < B2R x -> Bsign x = false).
Proof.
  destruct x as [s|s| |[] m e H]; try discriminate; cbn; intros _; split; try lra; try reflexivity; intros Q; exfalso; revert Q.
  - assert (F2R (Float radix2 (Z.neg m) e) < 0) by now apply F2R_lt_0. cbn in *. lra.
  - assert (0 < F2R (Float radix2 (Z.pos m) e)) by now apply F2R_gt_0. cbn in *. lra.
Qed.

Lemma leb_inf_l y : is_nan y = false -> d_leb (B754_infinity true) y = true.
Proof. destruct y as [[]|[]| |[] m e H]; (discriminate || reflexivity). Qed.
Lemma leb_inf_r y : is_nan y = false -> d_leb y (B754_infinity false) = true.
Proof. destruct y as [[]|[]| |[] m e H]; (discriminate || reflexivity). Qed.
Lemma leb_notnan x y : d_leb x y = true -> is_nan x = false /\ is_nan y = false.
Proof. destruct x as [[]|[]| |[] m e H], y as [[]|[]| |[] m' e' H']; cbn; intros; try discriminate; auto. Qed.

Lemma mul_rsqrt_mono x y : d_leb x y = true -> d_leb (d_mul x rsqrt_2) (d_mul y rsqrt_2) = true.
Proof.
  intros E. destruct (leb_notnan _ _ E) as [Nx Ny]. destruct rsqrt_facts as (m & e & H & R).
  assert (is_finite rsqrt_2 = true) as F by (rewrite R; reflexivity).
  assert (Bsign rsqrt_2 = false) as S by (rewrite R; reflexivity).
  assert (0 < B2R rsqrt_2) as P by (rewrite R; now apply B2R_pos).
  assert (is_nan (d_mul x rsqrt_2) = false) as Mx by now rewrite mul_rsqrt_nan.
  assert (is_nan (d_mul y rsqrt_2) = false) as My by now rewrite mul_rsqrt_nan.
  destruct (is_finite x) eqn:Fx.
  2:{ destruct x as [s|[]| |s mx ex Hx]; try discriminate Fx; try discriminate Nx.
      - replace (d_mul (B754_infinity true) rsqrt_2) with (@B754_infinity 53 1024 true) by (rewrite R; reflexivity). now apply leb_inf_l.
      - clear Mx. destruct y as [[]|[]| |[] my ey Hy]; try discriminate E. apply leb_inf_r. exact My. }
  destruct (is_finite y) eqn:Fy.
  2:{ destruct y as [s|[]| |s my ey Hy]; try discriminate Fy; try discriminate Ny.
      - exfalso. clear - E Fx. destruct x as [[]|[]| |[] mx ex Hx]; (discriminate E || discriminate Fx).
      - replace (d_mul (B754_infinity false) rsqrt_2) with (@B754_infinity 53 1024 false) by (rewrite R; reflexivity). now apply leb_inf_r. }
  pose proof (fin_B2R _ Fx) as Hx. pose proof (fin_B2R _ Fy) as Hy. pose proof (fin_B2R _ F) as Hr.
  apply (d_leb_true _ _ _ _ Hx Hy) in E.
  assert (RN (B2R x * B2R rsqrt_2) <= RN (B2R y * B2R rsqrt_2)) as K by (apply RN_le, Rmult_le_compat_r; lra).
  assert (0 < p2 1024) as P2 by apply bpow_gt_0.
  destruct (mul_cases _ _ _ _ Hx Hr) as [Gx|[Ox Gx]], (mul_cases _ _ _ _ Hy Hr) as [Gy|[Oy Gy]].
  - apply (d_leb_true _ _ _ _ Gx Gy). exact K.
  - rewrite Gy, S, Bool.xorb_false_r. rewrite Gy in My. destruct (Bsign y) eqn:Sy; [|now apply leb_inf_r].
    exfalso. destruct Gx as [Gf GR]. pose proof (fin_bound _ _ (conj Gf GR)) as B. apply Rabs_lt_inv in B.
    destruct (sign_B2R y Fy) as [_ Q]. destruct (Rlt_le_dec 0 (B2R y)) as [U|U]; [rewrite (Q U) in Sy; discriminate|].
    assert (RN (B2R y * B2R rsqrt_2) <= 0) as V by (rewrite <- RN_0; apply RN_le; nra).
    rewrite Rabs_left1 in Oy by exact V. lra.
  - rewrite Gx, S, Bool.xorb_false_r. rewrite Gx in Mx. destruct (Bsign x) eqn:Sx; [now apply leb_inf_l|].
    exfalso. destruct Gy as [Gf GR]. pose proof (fin_bound _ _ (conj Gf GR)) as B. apply Rabs_lt_inv in B.
    destruct (sign_B2R x Fx) as [Q _]. destruct (Rlt_le_dec (B2R x) 0) as [U|U]; [rewrite (Q U) in Sx; discriminate|].
    assert (0 <= RN (B2R x * B2R rsqrt_2)) as V by (apply RN_nonneg; nra).
    rewrite Rabs_pos_eq in Ox by exact V. lra.
  - rewrite Gx, Gy, S, !Bool.xorb_false_r. destruct (Bsign x) eqn:Sx; [destruct (Bsign y); reflexivity|].
    destruct (sign_B2R x Fx) as [Q _]. destruct (Rlt_le_dec (B2R x) 0) as [U|U]; [rewrite (Q U) in Sx; discriminate|].
    destruct (Rlt_le_dec 0 (B2R y)) as [W'|W'].
    + destruct (sign_B2R y Fy) as [_ Q']. rewrite (Q' W'). reflexivity.
    + exfalso. assert (B2R y = 0) as Z by lra. rewrite Z, Rmult_0_l, RN_0, Rabs_R0 in Oy. lra.
Qed.

Lemma cum_value L x : erf_sane (n_erf L) -> is_nan x = false ->
  let y := n_erf L (d_mul x rsqrt_2) in
  fin (cum_norm L x) (RN (/ 2 * RN (B2R y + 1))) /\ 0 <= RN (/ 2 * RN (B2R y + 1)) <= 1 /\ fin y (B2R y).
Proof.
  intros (E1 & E2 & E3) N y. assert (is_nan (d_mul x rsqrt_2) = false) as M by now rewrite mul_rsqrt_nan.
  destruct (E2 _ M) as [A B]. destruct (add_one_bounds y A B) as (F & R & Fy). destruct (half_bounds _ _ F R) as [G S].
  split; [exact G|]. split; [exact S|exact Fy].
Qed.

Lemma cum_claim L : erf_sane (n_erf L) ->
  (forall x, is_nan x = false -> is_finite (cum_norm L x) = true /\ 0 <= B2R (cum_norm L x) <= 1) /\
  (forall x y, d_leb x y = true -> B2R (cum_norm L x) <= B2R (cum_norm L y)) /\
  (forall x, is_nan x = true -> is_nan (cum_norm L x) = true).
Proof.
  intros HE. split; [|split].
  - intros x N. destruct (cum_value L x HE N) as ([F V] & B & _). cbv zeta in *. now rewrite V.
  - intros x y Q. destruct (leb_notnan _ _ Q) as [Nx Ny].
    destruct (cum_value L x HE Nx) as ([_ ->] & _ & Hx). destruct (cum_value L y HE Ny) as ([_ ->] & _ & Hy).
    apply RN_le, Rmult_le_compat_l; [lra|]. apply RN_le, Rplus_le_compat_r.
    apply (d_leb_true _ _ _ _ Hx Hy). apply HE. now apply mul_rsqrt_mono.
  - intros x N. destruct HE as (E1 & _). destruct x; try discriminate.
    unfold cum_norm. change (d_mul B754_nan rsqrt_2) with (@B754_nan 53 1024). specialize (E1 B754_nan eq_refl).
    destruct (n_erf L B754_nan); try discriminate. reflexivity.
Qed.

(** * Cholesky *)

Lemma RN_err v : Rabs v <= 1 -> Rabs (RN v - v) <= p2 (-53).
Proof.
  intros B. eapply Rle_trans; [apply error_le_half_ulp; typeclasses eauto|].
  replace (p2 (-53)) with (/ 2 * p2 (-52)).
  2:{ replace (/ 2) with (p2 (-1)) by (simpl; lra). now rewrite <- bpow_plus. }
  apply Rmult_le_compat_l; [lra|].
  eapply Rle_trans; [apply (ulp_le radix2 fx v 1); rewrite Rabs_R1; exact B|].
  replace 1 with (p2 0) by reflexivity. rewrite ulp_bpow. apply Req_le. reflexivity.
Qed.

Lemma chol_new_claim rho :
  (chol_new rho = Throw (RuntimeError "correlation is not in [-1,1]") <->
     (exists s, rho = B754_infinity s) \/ is_finite rho = true /\ 1 < Rabs (B2R rho)) /\
  (is_finite rho = true -> Rabs (B2R rho) <= 1 -> exists m1, chol_new rho = Ok (rho, m1) /\ is_finite m1 = true /\
     0 <= B2R m1 <= 1 /\ Rabs (B2R rho * B2R rho + B2R m1 * B2R m1 - 1) <= p2 (-51)).
Proof.
  split.
  - unfold chol_new. destruct (is_finite rho) eqn:F.
    + pose proof (d_ltb_true _ _ _ _ fin_one (d_abs_R _ _ (fin_B2R _ F))) as Q.
      destruct (d_ltb d_one (d_abs rho)).
      * split; [intros _; right; split; [reflexivity|now apply Q]|reflexivity].
      * split; [discriminate|]. intros [[s ->]|[_ G]]; [discriminate|]. apply Q in G. discriminate.
    + destruct rho as [s|s| |s m e H]; try discriminate.
      * split; [intros _; left; eauto|destruct s; reflexivity].
      * split; [discriminate|]. intros [[s E]|[E _]]; discriminate.
  - intros F B. pose proof (fin_B2R _ F) as Hr. set (r := B2R rho) in *. unfold chol_new.
    replace (d_ltb d_one (d_abs rho)) with false
      by (symmetry; apply (d_ltb_false _ _ _ _ fin_one (d_abs_R _ _ Hr)); exact B).
    assert (0 <= r * r <= 1) as B2. { apply Rabs_le_inv in B. split; nra. }
    assert (p2 0 < p2 1024) as P by (apply bpow_lt; lia). change (p2 0) with 1 in P.
    assert (0 <= RN (r * r) <= 1) as B3 by (split; [apply RN_nonneg; lra|apply RN_le_repr; [apply (repr_Z 1); lia|lra]]).
    assert (fin (d_mul rho rho) (RN (r * r))) as H2 by (apply (d_mul_round _ _ _ _ Hr Hr); rewrite Rabs_pos_eq; lra).
    set (q := RN (r * r)) in *.
    assert (0 <= RN (1 - q) <= 1) as B4 by (split; [apply RN_nonneg; lra|apply RN_le_repr; [apply (repr_Z 1); lia|lra]]).
    assert (fin (d_sub d_one (d_mul rho rho)) (RN (1 - q))) as H3 by (apply (d_sub_round _ _ _ _ fin_one H2); rewrite Rabs_pos_eq; lra).
    set (s := RN (1 - q)) in *. set (d := d_sub d_one (d_mul rho rho)) in *.
    destruct (Bsqrt_correct 53 1024 Hprec Hemax mode_NE d) as (V & G & _). destruct H3 as [Fd Vd]. rewrite Vd in V.
    change (round radix2 (SpecFloat.fexp 53 1024) (round_mode mode_NE) (sqrt s)) with (RN (sqrt s)) in V.
    assert (is_finite (d_sqrt d) = true) as Fs.
    { unfold d_sqrt. rewrite G. destruct d as [[]|[]| |[] m e H]; try reflexivity; try discriminate Fd.
      exfalso. cbn in Vd. assert (F2R (Float radix2 (Z.neg m) e) < 0) by now apply F2R_lt_0. cbn in *. lra. }
    assert (0 <= sqrt s <= 1) as B5. { split; [apply sqrt_pos|]. rewrite <- sqrt_1. apply sqrt_le_1_alt. lra. }
    assert (0 <= RN (sqrt s) <= 1) as B6 by (split; [apply RN_nonneg; lra|apply RN_le_repr; [apply (repr_Z 1); lia|lra]]).
    exists (d_sqrt d). split; [reflexivity|]. split; [exact Fs|]. unfold d_sqrt. rewrite V. split; [exact B6|].
    pose proof (RN_err (r * r) ltac:(rewrite Rabs_pos_eq; lra)) as e1. fold q in e1.
    pose proof (RN_err (1 - q) ltac:(rewrite Rabs_pos_eq; lra)) as e2. fold s in e2.
    pose proof (RN_err (sqrt s) ltac:(rewrite Rabs_pos_eq; lra)) as e3.
    pose proof (sqrt_sqrt s ltac:(lra)) as Q. set (w := sqrt s) in *. set (m := RN w) in *.
    replace (p2 (-51)) with (4 * p2 (-53)) by (replace 4 with (p2 2) by reflexivity; now rewrite <- bpow_plus).
    set (u := p2 (-53)) in *. clearbody u m w s q r. apply Rabs_le_inv in e1, e2, e3. apply Rabs_le.
    assert (- (2 * u) <= m * m - w * w <= 2 * u) by (replace (m * m - w * w) with ((m - w) * (m + w)) by ring; split; nra). lra.
Qed.

(** division by 2^-32 and conversion *)
Lemma fin_cscale : fin chol_scale (p2 (-32)).
Proof.
  assert (fin (d_lit 1 (-32)) (p2 (-32))) as H by (replace (p2 (-32)) with (IZR 1 * p2 (-32)) by ring; apply d_lit_exact; lia).
  replace chol_scale with (d_lit 1 (-32)); [exact H|]. apply B2SF_inj. vm_compute. reflexivity.
Qed.
Lemma cscale_lit : chol_scale = d_lit 1 (-32). Proof. apply B2SF_inj. vm_compute. reflexivity. Qed.

Lemma repr_scale c : repr c -> 0 <= c <= 1 -> repr (c * p2 32).
Proof.
  intros R B. destruct (Req_dec c 0) as [->|N]; [rewrite Rmult_0_l; apply repr_0|].
  apply (mult_bpow_pos_exact_FLT radix2 (-1074) 53 c 32); [exact R|lia].
Qed.

Lemma to_u32 c a : fin c a -> 0 <= a <= 1 ->
  d_to_u32 (d_div c chol_scale) = if Rlt_bool a 1 then Ok (Zfloor (a * p2 32)) else UB "double to uint32_t out of range".
Proof.
  intros Hc B.
  assert (a / p2 (-32) = a * p2 32) as E by (unfold Rdiv; rewrite <- bpow_opp; reflexivity).
  assert (0 < p2 32) as P by apply bpow_gt_0.
  assert (0 <= a * p2 32 <= p2 32) as B' by (split; nra).
  assert (fin (d_div c chol_scale) (a * p2 32)) as H.
  { rewrite <- E. apply (d_div_exact _ _ _ _ Hc fin_cscale); [apply Rgt_not_eq, bpow_gt_0| |]; rewrite E.
    - apply repr_scale; [exact (fin_repr _ _ Hc)|exact B].
    - rewrite Rabs_pos_eq by lra. apply Rle_lt_trans with (p2 32); [lra|apply bpow_lt; lia]. }
  unfold d_to_u32. rewrite (d_trunc _ _ H). destruct H as [-> _]. rewrite Ztrunc_floor by lra. cbn [andb].
  rewrite (proj2 (Z.leb_le _ _)) by (apply Zfloor_lub; simpl; lra). cbn [andb].
  destruct (Rlt_bool_spec a 1) as [G|G].
  - rewrite (proj2 (Z.ltb_lt _ _)); [reflexivity|]. apply lt_IZR. rewrite IZR_p2 by lia.
    apply Rle_lt_trans with (a * p2 32); [apply Zfloor_lb|nra].
  - assert (a = 1) as -> by lra. rewrite Rmult_1_l, <- IZR_p2, Zfloor_IZR by lia. rewrite Z.ltb_irrefl. reflexivity.
Qed.

Lemma nan_u32 c : is_nan c = true -> d_to_u32 (d_div c chol_scale) = UB "double to uint32_t out of range".
Proof. destruct c; try discriminate. reflexivity. Qed.

Lemma inv_variate L u : (0 <= u < 2 ^ 32)%Z -> exists n, inv_cum_norm L (d_mul (d_ofZ u) chol_scale) = Ok n.
Proof.
  intros Hu. apply inv_claim. rewrite cscale_lit. destruct (scale32 u Hu) as [F V]. pose proof (scale32_bounds u Hu) as B.
  destruct p2_small as (P1 & P2 & P3).
  intros [[s E]|[_ Q]]; [rewrite E in F; discriminate|rewrite V in Q; lra].
Qed.

Lemma below_one L x : erf_sane (n_erf L) ->
  d_to_u32 (d_div (cum_norm L x) chol_scale) =
    if d_ltb (cum_norm L x) d_one then Ok (Zfloor (B2R (cum_norm L x) * p2 32)) else UB "double to uint32_t out of range".
Proof.
  intros HE. destruct (is_nan x) eqn:N.
  - pose proof (proj2 (proj2 (cum_claim L HE)) x N) as M. rewrite nan_u32 by exact M.
    destruct (cum_norm L x); try discriminate. reflexivity.
  - destruct (proj1 (cum_claim L HE) x N) as [F B]. rewrite (to_u32 _ _ (fin_B2R _ F) B).
    now rewrite (d_ltb_R _ _ _ _ (fin_B2R _ F) fin_one).
Qed.

Lemma floor_range a : 0 <= a < 1 -> (0 <= Zfloor (a * p2 32) < 2 ^ 32)%Z.
Proof.
  intros B. assert (0 < p2 32) as P by apply bpow_gt_0. split; [apply Zfloor_lub; simpl; nra|].
  apply lt_IZR. rewrite IZR_p2 by lia. apply Rle_lt_trans with (a * p2 32); [apply Zfloor_lb|nra].
Qed.

Lemma ltb_notnan x y : d_ltb x y = true -> is_nan x = false.
Proof. destruct x, y; try discriminate; reflexivity. Qed.

Lemma chol_claim L m u0 u1 : erf_sane (n_erf L) -> (0 <= u0 < 2 ^ 32)%Z -> (0 <= u1 < 2 ^ 32)%Z ->
  exists n0 n1, inv_cum_norm L (d_mul (d_ofZ u0) chol_scale) = Ok n0 /\ inv_cum_norm L (d_mul (d_ofZ u1) chol_scale) = Ok n1 /\
    let c0 := cum_norm L n0 in let c1 := cum_norm L (d_add (d_mul n0 (fst m)) (d_mul n1 (snd m))) in
    if d_ltb c0 d_one && d_ltb c1 d_one
    then exists a b, chol_call L m [u0; u1] = Ok (a, b) /\ a = Zfloor (B2R c0 * p2 32) /\ b = Zfloor (B2R c1 * p2 32) /\
           (0 <= a < 2 ^ 32)%Z /\ (0 <= b < 2 ^ 32)%Z
    else chol_call L m [u0; u1] = UB "double to uint32_t out of range".
Proof.
  intros HE H0 H1. destruct (inv_variate L u0 H0) as [n0 E0], (inv_variate L u1 H1) as [n1 E1].
  exists n0, n1. split; [exact E0|]. split; [exact E1|]. cbv zeta.
  unfold chol_call. change (vec_get [u0; u1] 0) with (Ok u0). change (vec_get [u0; u1] 1) with (Ok u1).
  cbn [bind]. rewrite E0. cbn [bind]. rewrite E1. cbn [bind]. rewrite !below_one by exact HE.
  set (n := d_add _ _).
  assert (forall x, d_ltb (cum_norm L x) d_one = true -> 0 <= B2R (cum_norm L x) < 1) as K.
  { intros x Q. destruct (is_nan x) eqn:N.
    - pose proof (proj2 (proj2 (cum_claim L HE)) x N) as M. rewrite (ltb_notnan _ _ Q) in M. discriminate.
    - destruct (proj1 (cum_claim L HE) x N) as [F B]. apply (d_ltb_true _ _ _ _ (fin_B2R _ F) fin_one) in Q. lra. }
  destruct (d_ltb (cum_norm L n0) d_one) eqn:Q0; cbn [andb bind]; [|reflexivity].
  destruct (d_ltb (cum_norm L n) d_one) eqn:Q1; cbn [bind]; [|reflexivity].
  do 2 eexists. split; [reflexivity|]. split; [reflexivity|]. split; [reflexivity|].
  split; apply floor_range, K; assumption.
Qed.

Lemma mul_nan_l x : d_mul B754_nan x = B754_nan. Proof. reflexivity. Qed.
Lemma add_nan_r x : d_add x B754_nan = B754_nan. Proof. destruct x; reflexivity. Qed.
Lemma nan_eq (x : double) : is_nan x = true -> x = B754_nan. Proof. destruct x; try discriminate; reflexivity. Qed.

Lemma chol_zero L m u0 u1 : erf_sane (n_erf L) -> exp_sane (n_exp L) -> (0 <= u0 < 2 ^ 32)%Z -> (0 <= u1 < 2 ^ 32)%Z ->
  u0 = 0%Z \/ u1 = 0%Z -> chol_call L m [u0; u1] = UB "double to uint32_t out of range".
Proof.
  intros HE HX H0 H1 Z. destruct (chol_claim L m u0 u1 HE H0 H1) as (n0 & n1 & E0 & E1 & C). cbv zeta in C.
  assert (forall u n, u = 0%Z -> inv_cum_norm L (d_mul (d_ofZ u) chol_scale) = Ok n -> n = B754_nan) as K.
  { intros u n -> E. assert (borderline (d_mul (d_ofZ 0) chol_scale)) as B.
    { rewrite cscale_lit. destruct (scale32 0 ltac:(lia)) as [F V]. split; [exact F|]. rewrite V, Rmult_0_l.
      destruct p2_small as (P1 & _). left. lra. }
    destruct (recover_claim L _ HX B) as (z & E' & N). rewrite E in E'. injection E' as <-. now apply nan_eq. }
  assert (forall x, x = B754_nan -> d_ltb (cum_norm L x) d_one = false) as N.
  { intros x ->. rewrite (nan_eq (cum_norm L B754_nan)); [reflexivity|]. now apply (proj2 (proj2 (cum_claim L HE))). }
  destruct Z as [Z|Z].
  - rewrite (N n0 (K _ _ Z E0)) in C. exact C.
  - rewrite (K _ _ Z E1), mul_nan_l, add_nan_r, (N _ eq_refl), Bool.andb_false_r in C. exact C.
Qed.

(** a library that meets the assumptions (erf is replaced by the sign, exp by one except at infinity) *)
Definition toy : nlib :=
  {| n_erf := fun x => if is_nan x then d_nan else if d_ltb x d_zero then d_ofZ (-1) else if d_ltb d_zero x then d_one else d_zero;
     n_log := fun _ => d_ofZ (-2); n_exp := fun x => if d_isfinite x then d_one else x; n_atan := fun _ => d_one |}.
Lemma toy_sane : erf_sane (n_erf toy) /\ exp_sane (n_exp toy) /\ borderline d_zero /\ borderline d_one /\
  outside (B754_infinity true) /\ outside (d_ofZ 2).
Proof.
  assert (d_leb (d_ofZ (-1)) d_zero = true /\ d_leb d_zero d_one = true /\ d_leb (d_ofZ (-1)) d_one = true /\
          d_leb (d_ofZ (-1)) (d_ofZ (-1)) = true /\ d_leb d_one d_one = true /\ d_leb d_zero d_zero = true) as (A1 & A2 & A3 & A4 & A5 & A6)
    by (vm_compute; auto 10).
  split; [|split; [|split; [|split; [|split]]]].
  - split; [|split].
    + intros x N. cbn. now rewrite N.
    + intros x N. cbn [n_erf toy]. rewrite N. destruct (d_ltb x d_zero); [auto|]. destruct (d_ltb d_zero x); auto.
    + intros x y E. destruct (leb_notnan _ _ E) as [Nx Ny]. cbn [n_erf toy]. rewrite Nx, Ny.
      destruct (d_ltb x d_zero) eqn:X; [destruct (d_ltb y d_zero); [|destruct (d_ltb d_zero y)]; assumption|].
      assert (d_ltb y d_zero = false) as ->
        by (destruct x as [[]|[]| |[] m e H], y as [[]|[]| |[] m' e' H']; first [reflexivity|discriminate X|discriminate E|discriminate Nx|discriminate Ny]).
      destruct (d_ltb d_zero x) eqn:P; [|destruct (d_ltb d_zero y); assumption].
      assert (d_ltb d_zero y = true) as ->
        by (destruct x as [[]|[]| |[] m e H], y as [[]|[]| |[] m' e' H']; first [reflexivity|discriminate P|discriminate E|discriminate Nx|discriminate Ny]).
      assumption.
  - reflexivity.
  - destruct fin_zero as [F V]. split; [exact F|]. rewrite V. destruct p2_small as (P & _). left. lra.
  - destruct fin_one as [F V]. split; [exact F|]. rewrite V. destruct p2_small as (P & P' & _). right. lra.
  - left. now exists true.
  - right. destruct (d_ofZ_exact 2 ltac:(lia)) as [F V]. split; [exact F|]. rewrite V. right. destruct p2_small as (P & P' & P3). lra.
Qed.
