(** The expected state occupancy of qis with rounding: any population, up to 31 disjoint marginals (C07). *)
From Coq Require Import Reals Psatz.
From Flocq Require Import Core.Core IEEE754.BinarySingleNaN.
From Verif Require Import Base Spec SpecFacts NDArray IndexProofs Float64 FloatProofs ArrayOps ArrayProofs Bind BindProofs
  Sobol Micro Stat Qis SynthSpec MicroProofs PickProofs SampleProofs SplitProofs QisProofs QisClaims RealSpec QisExpect IntegeriseProofs StatProofs QisExamples.
Open Scope R_scope.

(** * Relative errors *)

(** x and y agree to within k roundings *)
Definition EE : R := 1 + p2 (-52).
Definition rel (k : nat) (x y : R) : Prop := y <= x * EE ^ k /\ x <= y * EE ^ k.

Lemma p2_dbl e : p2 e * 2 = p2 (e + 1). Proof. rewrite bpow_plus. reflexivity. Qed.
Lemma EE_1 : 1 < EE. Proof. unfold EE. pose proof (bpow_gt_0 radix2 (-52)). lra. Qed.
Lemma EE_pow k : 1 <= EE ^ k. Proof. apply pow_R1_Rle. left. apply EE_1. Qed.

Lemma rel_refl k x : 0 <= x -> rel k x x.
Proof. intros H. pose proof (EE_pow k). split; nra. Qed.
Lemma rel_mono j k x y : (j <= k)%nat -> 0 <= x -> 0 <= y -> rel j x y -> rel k x y.
Proof.
  intros Hjk Hx Hy [H1 H2]. assert (EE ^ j <= EE ^ k) as H by (apply Rle_pow; [left; apply EE_1|exact Hjk]).
  split; [apply Rle_trans with (x * EE ^ j)|apply Rle_trans with (y * EE ^ j)]; auto; apply Rmult_le_compat_l; auto.
Qed.
Lemma rel_trans j k x y z : rel j x y -> rel k y z -> rel (j + k) x z.
Proof.
  intros [H1 H2] [H3 H4]. pose proof (EE_pow j). pose proof (EE_pow k). unfold rel. rewrite pow_add. split.
  - apply Rle_trans with (y * EE ^ k); auto. rewrite <- Rmult_assoc. apply Rmult_le_compat_r; lra.
  - apply Rle_trans with (y * EE ^ j); auto. rewrite (Rmult_comm (EE ^ j)), <- Rmult_assoc. apply Rmult_le_compat_r; lra.
Qed.
Lemma rel_mul j k x y z w : 0 <= x -> 0 <= y -> 0 <= z -> 0 <= w -> rel j x y -> rel k z w -> rel (j + k) (x * z) (y * w).
Proof.
  intros Hx Hy Hz Hw [H1 H2] [H3 H4]. unfold rel. rewrite pow_add. split.
  - replace (x * z * (EE ^ j * EE ^ k)) with ((x * EE ^ j) * (z * EE ^ k)) by ring. apply Rmult_le_compat; auto.
  - replace (y * w * (EE ^ j * EE ^ k)) with ((y * EE ^ j) * (w * EE ^ k)) by ring. apply Rmult_le_compat; auto.
Qed.
Lemma rel_add k x y z w : rel k x y -> rel k z w -> rel k (x + z) (y + w).
Proof. intros [H1 H2] [H3 H4]. split; lra. Qed.
Lemma rel_inv k x y : 0 < x -> 0 < y -> rel k x y -> rel k (/ x) (/ y).
Proof.
  intros Hx Hy [H1 H2]. pose proof (EE_pow k). split.
  - apply Rmult_le_reg_l with (x * y); [now apply Rmult_lt_0_compat|].
    replace (x * y * / y) with x by (field; lra). replace (x * y * (/ x * EE ^ k)) with (y * EE ^ k) by (field; lra). exact H2.
  - apply Rmult_le_reg_l with (x * y); [now apply Rmult_lt_0_compat|].
    replace (x * y * / x) with y by (field; lra). replace (x * y * (/ y * EE ^ k)) with (x * EE ^ k) by (field; lra). exact H1.
Qed.
Lemma rel_RN x : x = 0 \/ p2 (-1022) <= x -> rel 1 (RN x) x.
Proof.
  intros H. pose proof (RN_rel x H) as E. apply Rabs_le_inv in E. pose proof (bpow_gt_0 radix2 (-1022)).
  assert (0 <= x) as Hx by lra. unfold rel, EE. rewrite pow_1.
  assert (p2 (-52) = 2 * p2 (-53)) as -> by (replace 2 with (p2 1) at 1 by (simpl; lra); rewrite <- bpow_plus; reflexivity).
  assert (0 < p2 (-53) <= / 4) as Hu by (split; [apply bpow_gt_0|replace (/ 4) with (p2 (-2)) by (simpl; lra); apply bpow_le; lia]).
  set (u := p2 (-53)) in *. assert (0 <= u * x) by nra. split; [|lra].
  apply Rle_trans with ((1 - u) * x * (1 + 2 * u)); [nra|]. apply Rmult_le_compat_r; lra.
Qed.
Lemma rel_sum {A} k (f g : A -> R) l : (forall i, In i l -> rel k (f i) (g i)) -> rel k (sumR (map f l)) (sumR (map g l)).
Proof.
  induction l as [|x l IH]; intros H; cbn [map sumR fold_right]; [now apply rel_refl; right|].
  apply rel_add; [apply H; now left|]. apply IH. intros; apply H; now right.
Qed.

(** k roundings, k 2^-52 at most one half *)
Lemma EE_bound k : INR k * p2 (-52) <= / 2 -> EE ^ k <= 1 + 2 * (INR k * p2 (-52)).
Proof.
  intros Hk. assert (0 < p2 (-52)) as P by apply bpow_gt_0. set (e := p2 (-52)) in *.
  assert (forall j, INR j * e <= / 2 -> EE ^ j * (1 - INR j * e) <= 1) as G.
  { induction j as [|j IH]; intros Hj; [simpl; lra|]. rewrite S_INR in *. cbn [pow]. pose proof (pos_INR j).
    assert (0 <= INR j * e) by nra. specialize (IH ltac:(lra)).
    replace (EE * EE ^ j * (1 - (INR j + 1) * e)) with (EE ^ j * (EE * (1 - (INR j + 1) * e))) by ring.
    pose proof (EE_pow j). apply Rle_trans with (EE ^ j * (1 - INR j * e)); [|exact IH]. apply Rmult_le_compat_l; [lra|]. unfold EE. fold e. nra. }
  specialize (G k Hk). pose proof (pos_INR k). pose proof (EE_pow k). set (t := INR k * e) in *. assert (0 <= t) by (unfold t; nra).
  apply Rmult_le_reg_r with (1 - t); [lra|]. nra.
Qed.
Lemma rel_abs k x y : 0 <= y -> INR k * p2 (-52) <= / 2 -> rel k x y -> Rabs (x - y) <= y * (INR k * p2 (-51)).
Proof.
  intros Hy Hk [H1 H2]. pose proof (EE_bound k Hk) as B. pose proof (EE_pow k) as P.
  assert (p2 (-51) = 2 * p2 (-52)) as -> by (replace 2 with (p2 1) at 1 by (simpl; lra); rewrite <- bpow_plus; reflexivity).
  set (t := INR k * p2 (-52)) in *. replace (INR k * (2 * p2 (-52))) with (2 * t) by (unfold t; ring).
  apply Rabs_le. split; [|nra].
  assert (x * EE ^ k <= x * (1 + 2 * t) \/ x < 0) as [H|H] by (destruct (Rlt_dec x 0); [now right|left; nra]); [nra|exfalso; nra].
Qed.

(** * Products and sums as computed *)

Definition whole (x : R) : Prop := x = 0 \/ 1 <= x.
Lemma whole_ge x : whole x -> x = 0 \/ p2 (-1022) <= x.
Proof. intros [->|H]; [now left|right]. apply Rle_trans with (p2 0); [apply bpow_le; lia|exact H]. Qed.
Lemma whole_RN x : whole x -> whole (RN x).
Proof. intros [->|H]; [left; apply RN_0|right]. apply RN_ge_repr; [apply (repr_p2 0); lia|exact H]. Qed.
Lemma whole_IZR z : (0 <= z)%Z -> whole (IZR z).
Proof. intros H. destruct (Z.eq_dec z 0) as [->|]; [now left|right; apply IZR_le; lia]. Qed.
Lemma whole_nonneg x : whole x -> 0 <= x. Proof. intros [->|]; lra. Qed.
Lemma whole_mul x y : whole x -> whole y -> whole (x * y).
Proof. intros [->|] [->|]; [left; ring|left; ring|left; ring|right; nra]. Qed.
Lemma whole_add x y : whole x -> whole y -> whole (x + y).
Proof. intros [->|] [->|]; [left; ring|right; lra|right; lra|right; lra]. Qed.

Lemma prod_rel i cs : (forall c, In c cs -> (0 <= c_at c (proj (c_dims c) i) < 2 ^ 32)%Z) -> forall b v x P, (0 <= b)%Z ->
  (b + 32 * Z.of_nat (length cs) <= 1000)%Z -> fin v x -> whole x -> x <= p2 b -> forall k, rel k x P -> 0 <= P -> exists y,
  fin (fold_left (fun v c => d_mul v (d_ofZ (c_at c (proj (c_dims c) i)))) cs v) y /\ whole y /\
  rel (k + length cs) y (P * IZR (prodv cs i)).
Proof.
  induction cs as [|c cs IH]; intros Hc b v x P Hb0 Hb Hv Hw Hx k Hk HP; cbn [fold_left prodv fold_right length].
  - exists x. rewrite Rmult_1_r, Nat.add_0_r. auto.
  - fold (prodv cs i). pose proof (Hc c (or_introl eq_refl)) as Hn. set (n := c_at c (proj (c_dims c) i)) in *.
    cbn [length] in Hb. rewrite Nat2Z.inj_succ in Hb. assert (fin (d_ofZ n) (IZR n)) as Fn by (apply d_ofZ_exact; lia).
    assert (0 <= x) as Hx0 by now apply whole_nonneg. assert (0 <= IZR n) as Hn0 by (apply IZR_le; lia).
    assert (whole (x * IZR n)) as Hwn by (apply whole_mul; auto; apply whole_IZR; lia).
    assert (RN (x * IZR n) <= p2 (b + 32)) as Hup.
    { apply RN_le_repr; [apply repr_p2; lia|]. rewrite bpow_plus. apply Rmult_le_compat; auto. rewrite <- IZR_p2 by lia. apply IZR_le. lia. }
    assert (0 <= RN (x * IZR n)) as Hlo by (apply RN_nonneg; nra).
    destruct (IH (fun c' Hc' => Hc c' (or_intror Hc')) (b + 32)%Z (d_mul v (d_ofZ n)) (RN (x * IZR n)) (P * IZR n)) with (k := (S k)) as (y & Fy & Wy & Ry).
    + lia.
    + lia.
    + apply d_mul_round; auto. rewrite Rabs_pos_eq by exact Hlo. apply Rle_lt_trans with (1 := Hup). apply bpow_lt. lia.
    + now apply whole_RN.
    + exact Hup.
    + replace (S k) with (1 + k)%nat by lia. apply rel_trans with (x * IZR n); [apply rel_RN, whole_ge, Hwn|].
      rewrite <- (Nat.add_0_r k). apply rel_mul; auto. now apply rel_refl.
    + now apply Rmult_le_pos.
    + exists y. split; [exact Fy|]. split; [exact Wy|]. rewrite mult_IZR. replace (k + S (length cs))%nat with (S k + length cs)%nat by lia.
      rewrite <- Rmult_assoc. exact Ry.
Qed.

Lemma sum_rel {A} (v : A -> double) (x w : A -> R) k M l : (forall i, In i l -> fin (v i) (x i) /\ whole (x i) /\ rel k (x i) (w i) /\ 0 <= w i) ->
  M * EE ^ (k + length l) <= p2 1000 -> forall a y P j, fin a y -> whole y -> rel (k + j) y P -> 0 <= P -> P + sumR (map w l) <= M ->
  M * EE ^ (k + j + length l) <= p2 1000 ->
  exists z, fin (fold_left d_add (map v l) a) z /\ whole z /\ rel (k + j + length l) z (P + sumR (map w l)).
Proof.
  intros H _. induction l as [|i l IH]; intros a y P j Fa Wa Ra HP HM HB; cbn [map fold_left sumR fold_right length].
  - exists y. rewrite Rplus_0_r, Nat.add_0_r. auto.
  - cbn [map sumR fold_right length] in HM, HB. fold (sumR (map w l)) in *. destruct (H i (or_introl eq_refl)) as (Fi & Wi & Ri & Pi).
    assert (0 <= sumR (map w l)) as Hs.
    { clear - H. induction l as [|i' l IH]; cbn [map sumR fold_right]; [lra|]. fold (sumR (map w l)).
      destruct (H i' (or_intror (or_introl eq_refl))) as (_ & _ & _ & P). apply Rplus_le_le_0_compat; [exact P|].
      apply IH. intros j [<-|Hj]; apply H; [now left|right; now right]. }
    assert (rel (k + j) (y + x i) (P + w i)) as Rs.
    { apply rel_add; [exact Ra|]. apply (rel_mono k); [lia|now apply whole_nonneg|exact Pi|exact Ri]. }
    assert (whole (y + x i)) as Ws by now apply whole_add.
    assert (0 <= y + x i) as Ns by now apply whole_nonneg.
    assert (RN (y + x i) <= p2 1000) as Hup.
    { apply RN_le_repr; [apply repr_p2; lia|]. destruct Rs as [_ Rs]. apply Rle_trans with (1 := Rs). apply Rle_trans with (2 := HB).
      apply Rmult_le_compat; [lra|pose proof (EE_pow (k + j)); lra|lra|]. apply Rle_pow; [left; apply EE_1|lia]. }
    destruct (IH (fun i' Hi' => H i' (or_intror Hi')) (d_add a (v i)) (RN (y + x i)) (P + w i) (S j)) as (z & Fz & Wz & Rz).
    + apply d_add_round; auto. rewrite Rabs_pos_eq by now apply RN_nonneg. apply Rle_lt_trans with (1 := Hup). apply bpow_lt. lia.
    + now apply whole_RN.
    + replace (k + S j)%nat with (1 + (k + j))%nat by lia. apply rel_trans with (y + x i); [apply rel_RN, whole_ge, Ws|exact Rs].
    + lra.
    + lra.
    + replace (k + S j + length l)%nat with (k + j + S (length l))%nat by lia. exact HB.
    + exists z. split; [exact Fz|]. split; [exact Wz|]. replace (k + j + S (length l))%nat with (k + S j + length l)%nat by lia.
      rewrite <- Rplus_assoc. exact Rz.
Qed.

(** * The expectation *)

Section Expect.
Context (cs : list con) (sizes : list Z) (pop : Z).
Context (Himp : implied cs sizes) (Hnn : forall c, In c cs -> nonneg c) (Htot : forall c, In c cs -> c_total c = pop).
Context (Hnd : NoDup (flat_map c_dims cs)) (Hpop : (0 < pop < 2 ^ 32)%Z) (Hlen : (1 <= length cs <= 31)%nat)
        (Hsz : (Z.of_nat (length (all_indices sizes)) <= 2 ^ 50)%Z).
Let N := length (all_indices sizes).
Let T := (pop ^ Z.of_nat (length cs))%Z.

Lemma T_pos : (0 < T)%Z. Proof. apply Z.pow_pos_nonneg; lia. Qed.
Lemma T_le : IZR T <= p2 992.
Proof.
  rewrite <- IZR_p2 by lia. apply IZR_le. unfold T. apply Z.le_trans with ((2 ^ 32) ^ Z.of_nat (length cs))%Z; [apply Z.pow_le_mono_l; lia|].
  rewrite <- Z.pow_mul_r by lia. apply Z.pow_le_mono_r; lia.
Qed.

Lemma small : INR (N + 64) * p2 (-52) <= / 2.
Proof.
  rewrite plus_INR, INR_IZR_INZ. fold N in Hsz. assert (IZR (Z.of_nat N) <= p2 50) as H by (rewrite <- IZR_p2 by lia; now apply IZR_le).
  assert (INR 64 <= p2 50) as H2.
  { rewrite INR_IZR_INZ. rewrite <- IZR_p2 by lia. apply IZR_le. vm_compute. discriminate. }
  apply Rle_trans with ((p2 50 + p2 50) * p2 (-52)); [apply Rmult_le_compat_r; [apply bpow_ge_0|lra]|].
  rewrite Rmult_plus_distr_r, <- !bpow_plus. simpl. lra.
Qed.

Lemma state_rel i : index_in sizes i -> exists x, fin (state_value cs i) x /\ whole x /\ rel (length cs) x (IZR (prodv cs i)) /\ (0 <= prodv cs i)%Z.
Proof.
  intros Hi. assert (forall c, In c cs -> (0 <= c_at c (proj (c_dims c) i) < 2 ^ 32)%Z) as Hc.
  { intros c Hc. pose proof (cell_bound cs sizes pop Himp Hnn Htot ltac:(lia) ltac:(lia) c i Hc Hi). lia. }
  destruct (prod_rel i cs Hc 0 d_one 1 1 ltac:(lia) ltac:(lia) fin_one (or_intror (Rle_refl 1)) ltac:(simpl; lra) 0 (rel_refl 0 1 ltac:(lra)) ltac:(lra))
    as (x & F & W & R).
  exists x. rewrite Rmult_1_l in R. split; [exact F|]. split; [exact W|]. split; [exact R|]. clear - Hc.
  induction cs as [|c l IH]; cbn [prodv fold_right]; [lia|]. fold (prodv l i). apply Z.mul_nonneg_nonneg; [apply Hc; now left|].
  apply IH. intros; apply Hc; now right.
Qed.

Lemma total_IZR : sumR (map (fun i => IZR (prodv cs i)) (all_indices sizes)) = IZR T.
Proof.
  unfold T. rewrite <- (totals_const cs pop Htot), <- (total_prodv cs sizes Himp Hnd). unfold total. clear.
  induction (all_indices sizes) as [|i l IH]; cbn [map sumR sumZ fold_right]; [reflexivity|]. fold (sumR (map (fun i => IZR (prodv cs i)) l)).
  rewrite IH, plus_IZR. reflexivity.
Qed.

Lemma total_rel : exists z, fin (sv_total cs sizes) z /\ 1 <= z /\ rel (length cs + N) z (IZR T).
Proof.
  pose proof T_pos as HT. pose proof T_le as HT2. assert (0 < IZR T) as HT0 by (apply IZR_lt; exact HT).
  assert (IZR T * EE ^ (length cs + 0 + length (all_indices sizes)) <= p2 1000) as HB.
  { fold N. apply Rle_trans with (p2 992 * 2).
    - apply Rmult_le_compat; [lra|pose proof (EE_pow (length cs + 0 + N)); lra|exact HT2|].
      apply Rle_trans with (EE ^ (N + 64)); [apply Rle_pow; [left; apply EE_1|lia]|].
      apply Rle_trans with (1 := EE_bound _ small). pose proof small. lra.
    - rewrite p2_dbl. apply bpow_le. lia. }
  destruct (sum_rel (state_value cs) (fun i => B2R (state_value cs i)) (fun i => IZR (prodv cs i)) (length cs) (IZR T) (all_indices sizes))
    with (a := d_zero) (y := 0) (P := 0) (j := 0%nat) as (z & F & W & R).
  - intros i Hi. apply in_all_indices in Hi. destruct (state_rel i Hi) as (x & F & W & R & P). destruct F as [F <-].
    split; [now split|]. split; [exact W|]. split; [exact R|]. now apply IZR_le.
  - rewrite Nat.add_0_r in HB. exact HB.
  - apply fin_zero.
  - now left.
  - apply rel_refl. lra.
  - lra.
  - rewrite Rplus_0_l, total_IZR. lra.
  - exact HB.
  - rewrite Rplus_0_l, total_IZR, Nat.add_0_r in R. exists z. split; [exact F|]. split; [|exact R].
    destruct W as [->|W]; [|exact W]. destruct R as [R _]. lra.
Qed.

Lemma expect_rel i : index_in sizes i ->
  is_finite (expectation cs sizes pop i) = true /\ rel (N + 64) (B2R (expectation cs sizes pop i)) (IZR (prodv cs i) * (IZR pop / IZR T)).
Proof.
  intros Hi. destruct (state_rel i Hi) as (x & Fx & Wx & Rx & Px). destruct total_rel as (z & Fz & Hz & Rz).
  assert (0 < IZR T) as HT0 by (apply IZR_lt, T_pos). assert (1 <= IZR pop) as Hp by (apply IZR_le; lia). pose proof T_le as HT2.
  assert (fin (d_ofZ pop) (IZR pop)) as Fp by (apply d_ofZ_exact; lia).
  assert (z <= p2 993) as Hz2.
  { destruct Rz as [_ Rz]. apply Rle_trans with (1 := Rz). apply Rle_trans with (p2 992 * 2).
    - apply Rmult_le_compat; [lra|pose proof (EE_pow (length cs + N)); lra|exact HT2|].
      apply Rle_trans with (EE ^ (N + 64)); [apply Rle_pow; [left; apply EE_1|lia]|].
      apply Rle_trans with (1 := EE_bound _ small). pose proof small. lra.
    - rewrite p2_dbl. apply bpow_le. lia. }
  assert (IZR pop <= p2 32) as Hp2 by (rewrite <- IZR_p2 by lia; apply IZR_le; lia).
  assert (IZR (prodv cs i) <= IZR T) as HvT.
  { rewrite <- total_IZR. apply (sumR_ge1 (fun i => IZR (prodv cs i))); [|now apply in_all_indices].
    intros j Hj. apply in_all_indices in Hj. destruct (state_rel j Hj) as (_ & _ & _ & _ & Pj). now apply IZR_le. }
  set (q := IZR pop / z). assert (p2 (-993) <= q) as Hq0.
  { unfold q, Rdiv. apply Rle_trans with (1 * / p2 993); [rewrite <- bpow_opp; simpl Z.opp; lra|].
    apply Rmult_le_compat; [lra|apply Rlt_le, Rinv_0_lt_compat, bpow_gt_0|lra|]. apply Rinv_le_contravar; lra. }
  assert (q <= p2 32) as Hq1.
  { unfold q, Rdiv. apply Rle_trans with (p2 32 * 1); [|lra]. apply Rmult_le_compat; [lra|apply Rlt_le, Rinv_0_lt_compat; lra|exact Hp2|].
    rewrite <- Rinv_1. apply Rinv_le_contravar; lra. }
  assert (0 < p2 (-993)) as Hu by apply bpow_gt_0.
  assert (p2 (-993) <= RN q) as Hr0 by (apply RN_ge_repr; auto; apply repr_p2; lia).
  assert (RN q <= p2 32) as Hr1 by (apply RN_le_repr; auto; apply repr_p2; lia).
  assert (fin (d_div (d_ofZ pop) (sv_total cs sizes)) (RN q)) as Fq.
  { apply d_div_round; auto; [lra|]. fold q. rewrite Rabs_pos_eq by lra. apply Rle_lt_trans with (1 := Hr1). apply bpow_lt. lia. }
  assert (rel (1 + (length cs + N)) (RN q) (IZR pop / IZR T)) as Rq.
  { apply rel_trans with q; [apply rel_RN; right; apply Rle_trans with (2 := Hq0); apply bpow_le; lia|].
    unfold q, Rdiv. rewrite <- (Nat.add_0_l (length cs + N)). apply rel_mul; try lra; try (apply Rlt_le, Rinv_0_lt_compat; lra).
    - apply rel_refl. lra.
    - apply rel_inv; [lra|exact HT0|exact Rz]. }
  assert (0 <= x) as Hx0 by now apply whole_nonneg.
  assert (x * RN q = 0 \/ p2 (-1022) <= x * RN q) as Hm.
  { destruct Wx as [->|Wx]; [left; ring|right]. apply Rle_trans with (1 * p2 (-993)); [rewrite Rmult_1_l; apply bpow_le; lia|]. apply Rmult_le_compat; lra. }
  set (w := IZR (prodv cs i) * (IZR pop / IZR T)).
  assert (0 <= IZR (prodv cs i)) as Pv by now apply IZR_le.
  assert (0 <= IZR pop / IZR T) as Pq by (apply Rmult_le_pos; [lra|apply Rlt_le, Rinv_0_lt_compat, HT0]).
  assert (0 <= w) as Pw by now apply Rmult_le_pos.
  assert (rel (length cs + (1 + (length cs + N))) (x * RN q) w) as Rm by (apply rel_mul; auto; lra).
  assert (0 <= x * RN q) as Pm by (apply Rmult_le_pos; lra).
  assert (w <= p2 32) as Hw.
  { apply Rle_trans with (2 := Hp2). unfold w. apply Rle_trans with (IZR T * (IZR pop / IZR T)); [now apply Rmult_le_compat_r|].
    right. field. lra. }
  assert (x * RN q <= p2 33) as Hm2.
  { apply (rel_mono _ (N + 64)) in Rm; [|lia|exact Pm|exact Pw]. destruct Rm as [_ Rm]. apply Rle_trans with (1 := Rm).
    apply Rle_trans with (p2 32 * 2).
    - apply Rmult_le_compat; [exact Pw|pose proof (EE_pow (N + 64)); lra|exact Hw|].
      apply Rle_trans with (1 := EE_bound _ small). pose proof small. lra.
    - rewrite p2_dbl. apply bpow_le. lia. }
  assert (fin (expectation cs sizes pop i) (RN (x * RN q))) as [Fe Ee].
  { unfold expectation. apply d_mul_round; auto. rewrite Rabs_pos_eq by now apply RN_nonneg.
    apply Rle_lt_trans with (p2 33); [|apply bpow_lt; lia]. apply RN_le_repr; [apply repr_p2; lia|exact Hm2]. }
  split; [exact Fe|]. rewrite Ee. apply (rel_mono (1 + (length cs + (1 + (length cs + N))))); [lia|now apply RN_nonneg|exact Pw|].
  apply rel_trans with (x * RN q); [now apply rel_RN|exact Rm].
Qed.

Lemma expect_margin2 c k : In c cs -> index_in (c_sizes c) k ->
  Rabs (marginR sizes (c_dims c) k (fun i => B2R (expectation cs sizes pop i)) - IZR (c_at c k)) <= IZR (c_at c k) * (INR (N + 64) * p2 (-51)).
Proof.
  intros Hc Hk.
  assert (sumR (map (fun i => IZR (prodv cs i) * (IZR pop / IZR T)) (filter (fun i => idx_eqb (proj (c_dims c) i) k) (all_indices sizes)))
     = IZR (c_at c k)) as E.
  { rewrite sumR_scale. fold (sum_where sizes (fun i => idx_eqb (proj (c_dims c) i) k) (prodv cs)).
    fold (margin sizes (c_dims c) k (prodv cs)). apply in_split in Hc as (pre & post & Ecs).
    pose proof (margin_prodv pre c post sizes k) as M. cbv zeta in M. rewrite <- Ecs in M. rewrite M by auto.
    assert (T = totals pre * pop * totals post)%Z as ET.
    { unfold T. rewrite <- (totals_const cs pop Htot). rewrite Ecs, totals_app, totals_cons.
      rewrite Htot by (rewrite Ecs, in_app_iff; simpl; auto). lia. }
    pose proof T_pos.
    rewrite ET. rewrite !mult_IZR.
    assert (IZR (totals pre) <> 0) by (apply not_0_IZR; intros E; rewrite E in ET; lia).
    assert (IZR (totals post) <> 0) by (apply not_0_IZR; intros E; rewrite E in ET; lia).
    assert (IZR pop <> 0) by (apply not_0_IZR; lia). field. auto. }
  apply rel_abs; [apply IZR_le; now apply (Hnn c Hc)|apply small|].
  rewrite <- E. unfold marginR. apply rel_sum. intros i Hi. apply filter_In in Hi as [Hi _]. apply in_all_indices in Hi.
  now apply expect_rel.
Qed.
End Expect.

Open Scope Z_scope.
Lemma expect_round_claim L fuel ilist mlist skips res : in_range ilist mlist -> disjoint (cons_of ilist mlist) ->
  py_qis L fuel ilist mlist skips = Ok res -> (0 < qr_pop res)%Z -> (length (cons_of ilist mlist) <= 31)%nat ->
  (prodZ (shape (qr_pop_array res)) <= 2 ^ 50)%Z ->
  shape (qr_expectation res) = shape (qr_pop_array res) /\ all_finite (qr_expectation res) /\
  forall c k, In c (cons_of ilist mlist) -> index_in (c_sizes c) k ->
    (Rabs (marginR (shape (qr_expectation res)) (c_dims c) k (entryR (qr_expectation res)) - IZR (c_at c k)) <=
      IZR (c_at c k) * (IZR (prodZ (shape (qr_pop_array res)) + 64) / 2 ^ 51))%R.
Proof.
  intros Hr Hd E Hpop Hl31 Hsz. destruct (qis_ok_inv L fuel ilist mlist skips res Hr E) as (sizes & r & Hvc & Hf & Hc & _ & Ht & Ea & -> & Hp32 & _).
  rewrite Ea in *. cbn [shape] in *.
  set (cs := cons_of ilist mlist) in *. pose proof Hvc as (Hl & Himp & _ & Hnn & _).
  pose proof (disjoint_NoDup cs Hd) as Hnd. split; auto.
  assert (Z.of_nat (length (all_indices sizes)) = prodZ sizes) as EN.
  { rewrite length_all_indices by (apply positive_nonneg, (fits_pos _ Hf)). reflexivity. }
  assert (forall i, index_in sizes i -> entry d_zero (NDA sizes (map (expectation cs sizes (qr_pop res)) (all_indices sizes))) i =
     expectation cs sizes (qr_pop res) i) as Ee.
  { intros i Hi. apply entry_NDA_map; auto. }
  split.
  - intros i Hi. cbn [shape] in Hi. rewrite Ee by auto. apply expect_rel; auto; lia.
  - intros c k Hin Hk.
    assert (marginR sizes (c_dims c) k (entryR (NDA sizes (map (expectation cs sizes (qr_pop res)) (all_indices sizes)))) =
            marginR sizes (c_dims c) k (fun i => B2R (expectation cs sizes (qr_pop res) i))) as ->.
    { unfold marginR. f_equal. apply map_ext_in. intros i Hi. apply filter_In in Hi as [Hi _]. apply in_all_indices in Hi.
      unfold entryR. now rewrite Ee. }
    replace (IZR (prodZ sizes + 64) / 2 ^ 51)%R with (INR (length (all_indices sizes) + 64) * p2 (-51))%R.
    + apply expect_margin2; auto; lia.
    + unfold Rdiv. f_equal; [rewrite INR_IZR_INZ; f_equal; lia|]. rewrite <- (Rinv_inv (p2 (-51))).
      f_equal. rewrite <- bpow_opp. rewrite <- IZR_p2 by lia. rewrite pow_IZR. reflexivity.
Qed.

(** * Many marginals: 64 of one cell each and 65536 individuals *)
Definition exW_i : list (ndarray Z) := map (fun d => NDA [1] [d]) (zrange 64).
Definition exW_m : list (ndarray Z) := map (fun _ => NDA [1] [65536]) (zrange 64).
Definition exW_z : list Z := map (fun _ => 1) (zrange 64).

Lemma overflow_claim L : exists res, py_qis L 32 exW_i exW_m 0 = Ok res /\ qr_conv res = true /\ qr_pop res = 65536 /\
  (forall i, index_in (shape (qr_expectation res)) i -> is_nan (entry d_zero (qr_expectation res) i) = true) /\
  is_nan (qr_chisq res) = true.
Proof.
  assert (in_range exW_i exW_m) as Hr by (apply (in_range_by _ _ exW_z); vm_compute; reflexivity).
  destruct (valid_by exW_i exW_m Hr) as [Hv Hva]; [vm_compute; reflexivity|vm_compute; reflexivity|].
  assert (disjoint (cons_of exW_i exW_m)) as Hd by (apply disjoint_by; vm_compute; reflexivity).
  assert (implied (cons_of exW_i exW_m) exW_z) as Hi by (apply implied_by; vm_compute; reflexivity).
  assert (forall c, In c (cons_of exW_i exW_m) -> c_total c = 65536) as Ht.
  { intros c Hc. assert (forallb (fun c => c_total c =? 65536) (cons_of exW_i exW_m) = true) as G by (vm_compute; reflexivity).
    rewrite forallb_forall in G. specialize (G c Hc). lia. }
  destruct (disjoint_claim L 32 exW_i exW_m 0 Hr Hv Hva Hd) as (res & E & Hc).
  - apply (implied_dims _ exW_z); [vm_compute; reflexivity|]. apply Nat.leb_le. vm_compute. reflexivity.
  - lia.
  - intros c Hc. rewrite (Ht c Hc). vm_compute. discriminate.
  - lia.
  - exists res. split; [exact E|]. split; [exact Hc|].
    destruct (qis_ok_inv L 32 exW_i exW_m 0 res Hr E) as (sizes & r & Hvc & Hf & Hcnt & _ & Ht' & Ea & Ee & _ & _ & _ & Echi & _).
    destruct Hvc as (_ & Himp & _). rewrite (implied_unique _ _ _ Himp Hi) in *. clear sizes Himp.
    assert (qr_pop res = 65536) as Ep.
    { assert (exists c, In c (cons_of exW_i exW_m)) as (c & Hc') by (eexists; left; reflexivity). rewrite <- (Ht' c Hc'). now apply Ht. }
    rewrite Ep in *. split; [reflexivity|].
    set (z0 := map (fun _ : Z => 0) (zrange 64)).
    assert (all_indices exW_z = [z0]) as Ez by (vm_compute; reflexivity).
    assert (expectation (cons_of exW_i exW_m) exW_z 65536 z0 = B754_nan) as En by (apply B2SF_inj; vm_compute; reflexivity).
    split.
    + intros i Hi'. rewrite Ee in *. cbn [shape] in Hi'. pose proof Hi' as Hi2. apply in_all_indices in Hi2. rewrite Ez in Hi2. destruct Hi2 as [<-|[]].
      rewrite entry_NDA_map by exact Hi'. rewrite En. reflexivity.
    + rewrite Echi. unfold chi_val. rewrite Ez. cbn [map fold_left]. rewrite En. unfold chi_term. generalize (d_ofZ (r z0)). intros [ | | | ]; reflexivity.
Qed.
