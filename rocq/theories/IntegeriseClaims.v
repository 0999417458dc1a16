(** Working lemmas behind the statements of PropIntegerise.v: vectors. *)
From Coq Require Import ZArith Reals Lra Lia List Bool Psatz.
From Flocq Require Import Core.Core IEEE754.BinarySingleNaN.
From Verif Require Import Base Spec Float64 FloatProofs FloatExt RealSpec SpecFacts ArrayOps Bind Integerise IntegeriseSpec IntegeriseProofs IntegeriseDbl.
Open Scope R_scope.

Lemma p2_prod_le n k a b c : (0 <= n <= 2 ^ a)%Z -> (0 <= k <= 2 ^ b)%Z -> (0 <= a)%Z -> (0 <= b)%Z -> (a + b - 53 = c)%Z ->
  IZR n * IZR k * ulpr <= p2 c.
Proof.
  intros Hn Hk Ha Hb <-. replace (a + b - 53)%Z with (a + b + -53)%Z by lia. rewrite !bpow_plus. apply Rmult_le_compat_r; [apply bpow_ge_0|].
  rewrite <- !IZR_p2 by lia. apply Rmult_le_compat; apply IZR_le; lia.
Qed.

Lemma sum_pos l : Forall nonneg_fin l -> Exists (fun x => 0 < B2R x) l -> 0 < sumR (map B2R l).
Proof.
  intros Hl He. apply Exists_exists in He as (x & Hi & Hp). eapply Rlt_le_trans; [exact Hp|].
  apply (sumR_ge1 B2R); auto. intros j Hj. rewrite Forall_forall in Hl. now apply Hl.
Qed.

(** admissible fractions: non-negative, not all zero, at most 2^20 of them, the sum not overflowing *)
Definition fractions (frac : list double) : Prop :=
  Forall nonneg_fin frac /\ Exists (fun x => 0 < B2R x) frac /\ (Z.of_nat (length frac) <= 2 ^ 20)%Z /\
  is_finite (fold_left d_add frac d_zero) = true.

Lemma frac_sum frac : fractions frac -> let S := B2R (fold_left d_add frac d_zero) in let T := sumR (map B2R frac) in
  let n := IZR (Z.of_nat (length frac)) in
  0 < T /\ 0 < S /\ Forall (fun x => B2R x <= S) frac /\ 2 * n * ulpr <= p2 (-32) /\ Rabs (S - T) <= 2 * n * ulpr * T /\ T <= 2 * S.
Proof.
  intros (Hl & He & Hn & Hf) S T n. destruct (sum_err frac Hl Hf ltac:(lia)) as (H0 & H1 & H2). fold S T n in H0, H1, H2.
  pose proof (sum_pos frac Hl He) as HT. fold T in HT.
  assert (2 * n * ulpr <= p2 (-32)) as Hnu.
  { apply (p2_prod_le 2 _ 1 20); try lia. }
  assert (p2 (-32) <= / 2) as H32 by (apply Rle_trans with (p2 (-1)); [apply bpow_le; lia|right; reflexivity]).
  assert (Rabs (S - T) <= / 2 * T) as H3 by (eapply Rle_trans; [exact H2|]; apply Rmult_le_compat_r; lra).
  assert (T / 2 <= S) as H4 by (rewrite Rabs_minus_sym in H3; pose proof (Rle_abs (T - S)); lra).
  repeat (split; auto); lra.
Qed.

Lemma scaled_sum frac pop : fractions frac -> (0 <= pop < 2 ^ 31)%Z ->
  Forall nonneg_fin (scaled frac pop) /\ Rabs (sumR (map B2R (scaled frac pop)) - IZR pop) < 1.
Proof.
  intros Hfr Hp. destruct (frac_sum frac Hfr) as (HT & HS & Hle & Hnu & Herr & H2). destruct Hfr as (Hl & _ & Hn & Hf).
  set (S := B2R (fold_left d_add frac d_zero)) in *. set (T := sumR (map B2R frac)) in *. set (n := IZR (Z.of_nat (length frac))) in *.
  destruct (scale_all frac (fold_left d_add frac d_zero) S pop) as [Hnn He]; auto.
  { now apply fin_B2R. }
  { apply Forall_forall. rewrite Forall_forall in Hle. intros x Hx. specialize (Hle x Hx). lra. }
  split; [exact Hnn|]. change (map (fun x => d_mul (d_div x (fold_left d_add frac d_zero)) (d_ofZ pop)) frac) with (scaled frac pop) in He.
  set (W := sumR (map B2R (scaled frac pop))) in *. fold T in He. fold n in He.
  assert (0 <= IZR pop <= p2 31) as HN by (split; [apply IZR_le; lia|rewrite <- IZR_p2 by lia; apply IZR_le; lia]).
  set (t := T / S). assert (T * IZR pop / S = t * IZR pop) as Et by (unfold t; field; lra). rewrite Et in He.
  assert (0 <= t <= 2) as Ht.
  { unfold t. split; [apply Rmult_le_pos; [lra|left; now apply Rinv_0_lt_compat]|]. apply Rmult_le_reg_r with S; auto. unfold Rdiv. rewrite Rmult_assoc, Rinv_l; lra. }
  assert (Rabs (t - 1) <= 2 * n * ulpr * t) as Ht1.
  { apply Rmult_le_reg_r with S; auto. rewrite <- (Rabs_pos_eq S) at 1 by lra. rewrite <- Rabs_mult. unfold t.
    replace ((T / S - 1) * S) with (T - S) by (field; lra). replace (2 * n * ulpr * (T / S) * S) with (2 * n * ulpr * T) by (field; lra).
    now rewrite Rabs_minus_sym. }
  assert (0 <= 2 * n * ulpr) as Hc0.
  { apply Rmult_le_pos; [|apply bpow_ge_0]. apply Rmult_le_pos; [lra|]. unfold n. apply IZR_le. lia. }
  assert (t <= 1 + p2 (-31)) as Ht2.
  { assert (2 * n * ulpr * t <= p2 (-32) * 2) as H by (apply Rmult_le_compat; lra).
    change (-31)%Z with (-32 + 1)%Z. rewrite bpow_plus. simpl (bpow radix2 1). pose proof (Rle_abs (t - 1)). lra. }
  assert (Rabs (t * IZR pop - IZR pop) <= (/ 2) * (1 + p2 (-31))) as H3.
  { replace (t * IZR pop - IZR pop) with ((t - 1) * IZR pop) by ring. rewrite Rabs_mult, (Rabs_pos_eq (IZR pop)) by lra.
    apply Rle_trans with (2 * n * ulpr * t * IZR pop); [apply Rmult_le_compat_r; lra|].
    replace (2 * n * ulpr * t * IZR pop) with ((n * IZR pop * ulpr) * 2 * t) by ring.
    assert (n * IZR pop * ulpr <= p2 (-2)) as H by (apply (p2_prod_le _ _ 20 31); lia).
    assert (p2 (-2) = / 4) as E4 by reflexivity. rewrite E4 in H.
    assert (0 <= n * IZR pop * ulpr) by (apply Rmult_le_pos; [|apply bpow_ge_0]; apply Rmult_le_pos; [unfold n; apply IZR_le; lia|lra]).
    apply Rmult_le_compat; try lra. }
  assert (3 * ulpr * (t * IZR pop) <= p2 (-19)) as H4.
  { apply Rle_trans with (p2 2 * ulpr * (p2 1 * p2 31)).
    - assert (3 <= p2 2) by (simpl; lra). assert (t <= p2 1) by (simpl; lra). pose proof (bpow_ge_0 radix2 (-53)).
      apply Rmult_le_compat; [apply Rmult_le_pos; lra|apply Rmult_le_pos; lra|apply Rmult_le_compat_r; lra|apply Rmult_le_compat; lra].
    - rewrite <- !bpow_plus. apply bpow_le. lia. }
  assert (n * p2 (-1000) <= p2 (-19)) as H5.
  { apply Rle_trans with (p2 20 * p2 (-1000)); [apply Rmult_le_compat_r; [apply bpow_ge_0|rewrite <- IZR_p2 by lia; apply IZR_le; lia]|].
    rewrite <- bpow_plus. apply bpow_le. lia. }
  assert (p2 (-31) <= / 100) as H31 by (apply Rle_trans with (p2 (-19)); [apply bpow_le; lia|simpl; lra]).
  assert (p2 (-19) <= / 100) as H19 by (simpl; lra).
  replace (W - IZR pop) with ((W - t * IZR pop) + (t * IZR pop - IZR pop)) by ring.
  eapply Rle_lt_trans; [apply Rabs_triang|]. lra.
Qed.

Lemma integerise1d_claim fuel frac pop : fractions frac -> (0 <= pop < 2 ^ 31)%Z -> (length frac < fuel)%nat ->
  exists f, py_integerise1d fuel (NDA [Z.of_nat (length frac)] frac) pop = Ok (f, rms_diff (scaled frac pop) f) /\
    length f = length frac /\ Forall (fun k => 0 <= k)%Z f /\ sumZ f = pop /\ closest f (map B2R (scaled frac pop)).
Proof.
  intros Hfr Hp Hfuel. unfold py_integerise1d. destruct (Z.ltb_spec pop 0) as [Hneg|_]; [lia|]. cbn [to_vector shape length Nat.eqb bind flat].
  destruct (scaled_sum frac pop Hfr Hp) as [Hnn Hs]. set (sm := fold_left d_add frac d_zero).
  pose proof (integerise_dist_ok fuel (map (fun p => d_div p sm) frac) pop Hp) as H. cbv zeta in H.
  replace (map (fun y => d_mul y (d_ofZ pop)) (map (fun p => d_div p sm) frac)) with (scaled frac pop) in H
    by (unfold scaled; now rewrite map_map).
  rewrite map_length in H. destruct (H Hfuel Hnn Hs) as (f & E & Hl & H1 & H2 & H3). exists f. auto.
Qed.

Lemma sum_to_pop_claim fuel frac pop : fractions frac -> (0 <= pop < 2 ^ 31)%Z -> (length frac < fuel)%nat ->
  exists f rmse, py_integerise1d fuel (NDA [Z.of_nat (length frac)] frac) pop = Ok (f, rmse) /\
    length f = length frac /\ Forall (fun k => 0 <= k)%Z f /\ sumZ f = pop.
Proof. intros H1 H2 H3. destruct (integerise1d_claim fuel frac pop H1 H2 H3) as (f & E & H). exists f. eexists. split; [exact E|tauto]. Qed.

Lemma closest_claim fuel frac pop f rmse : fractions frac -> (0 <= pop < 2 ^ 31)%Z -> (length frac < fuel)%nat ->
  py_integerise1d fuel (NDA [Z.of_nat (length frac)] frac) pop = Ok (f, rmse) -> closest f (map B2R (scaled frac pop)).
Proof. intros H1 H2 H3 E. destruct (integerise1d_claim fuel frac pop H1 H2 H3) as (f' & E' & H). rewrite E' in E. injection E as <- _. tauto. Qed.

Lemma rmse_claim fuel frac pop f rmse : fractions frac -> (0 <= pop < 2 ^ 31)%Z -> (length frac < fuel)%nat ->
  py_integerise1d fuel (NDA [Z.of_nat (length frac)] frac) pop = Ok (f, rmse) -> rmse = rms_diff (scaled frac pop) f.
Proof. intros H1 H2 H3 E. destruct (integerise1d_claim fuel frac pop H1 H2 H3) as (f' & E' & H). rewrite E' in E. now injection E as <- <-. Qed.

(** the scaled doubles against the exact proportions *)
Lemma accuracy_claim frac pop i : fractions frac -> (0 <= pop < 2 ^ 31)%Z -> (i < length frac)%nat ->
  let e := IZR pop * B2R (nth i frac d_zero) / sumR (map B2R frac) in
  Rabs (B2R (nth i (scaled frac pop) d_zero) - e) <= e * (2 * IZR (Z.of_nat (length frac)) + 4) * p2 (-53) + p2 (-1000).
Proof.
  intros Hfr Hp Hi e. destruct (frac_sum frac Hfr) as (HT & HS & Hle & Hnu & Herr & H2). destruct Hfr as (Hl & _ & Hn & Hf).
  set (S := B2R (fold_left d_add frac d_zero)) in *. set (T := sumR (map B2R frac)) in *. set (n := IZR (Z.of_nat (length frac))) in *.
  unfold scaled. rewrite (nth_indep _ d_zero (d_mul (d_div d_zero (fold_left d_add frac d_zero)) (d_ofZ pop))) by now rewrite map_length.
  rewrite (map_nth (fun x => d_mul (d_div x (fold_left d_add frac d_zero)) (d_ofZ pop))). set (x := nth i frac d_zero) in *.
  rewrite Forall_forall in Hl, Hle. assert (In x frac) as Hx by now apply nth_In. destruct (Hl x Hx) as [Fx Px]. specialize (Hle x Hx).
  destruct (scale_one (B2R x) S pop x (fold_left d_add frac d_zero)) as [_ H1]; auto; [now apply fin_B2R|now apply fin_B2R|lra|].
  set (W := B2R (d_mul _ _)) in *. set (t := T / S). assert (0 <= IZR pop) as HN by (apply IZR_le; lia).
  assert (B2R x * IZR pop / S = t * e) as Et by (unfold t, e; field; lra). rewrite Et in H1.
  assert (0 <= e) as He by (unfold e; apply Rmult_le_pos; [now apply Rmult_le_pos|left; now apply Rinv_0_lt_compat]).
  assert (0 <= t <= 2) as Ht.
  { unfold t. split; [apply Rmult_le_pos; [lra|left; now apply Rinv_0_lt_compat]|]. apply Rmult_le_reg_r with S; auto. unfold Rdiv. rewrite Rmult_assoc, Rinv_l; lra. }
  assert (Rabs (t - 1) <= 2 * n * ulpr * t) as Ht1.
  { apply Rmult_le_reg_r with S; auto. rewrite <- (Rabs_pos_eq S) at 1 by lra. rewrite <- Rabs_mult. unfold t.
    replace ((T / S - 1) * S) with (T - S) by (field; lra). replace (2 * n * ulpr * (T / S) * S) with (2 * n * ulpr * T) by (field; lra).
    now rewrite Rabs_minus_sym. }
  assert (0 <= n <= p2 20) as Hn0 by (split; [apply IZR_le; lia|rewrite <- IZR_p2 by lia; apply IZR_le; lia]).
  pose proof (bpow_gt_0 radix2 (-53)) as Hu.
  assert (t <= 1 + p2 (-31)) as Ht2.
  { assert (2 * n * ulpr * t <= p2 (-32) * 2) as H by (apply Rmult_le_compat; try lra; apply Rmult_le_pos; lra).
    change (-31)%Z with (-32 + 1)%Z. rewrite bpow_plus. simpl (bpow radix2 1). pose proof (Rle_abs (t - 1)). lra. }
  assert (t * (2 * n + 3) <= 2 * n + 4) as Hk.
  { assert (p2 (-31) * (2 * n + 3) <= 1) as Hs.
    { apply Rle_trans with (p2 (-31) * p2 22); [apply Rmult_le_compat_l; [apply bpow_ge_0|]|].
      - change 22%Z with (20 + 2)%Z. rewrite bpow_plus. simpl (bpow radix2 2). assert (3 <= p2 20) by (simpl; lra). lra.
      - rewrite <- bpow_plus. simpl. lra. }
    assert (t * (2 * n + 3) <= (1 + p2 (-31)) * (2 * n + 3)) by (apply Rmult_le_compat_r; lra). lra. }
  assert (Rabs (t * e - e) <= 2 * n * ulpr * t * e) as H3.
  { replace (t * e - e) with ((t - 1) * e) by ring. rewrite Rabs_mult, (Rabs_pos_eq e) by auto. now apply Rmult_le_compat_r. }
  assert (e * ulpr * (t * (2 * n + 3)) <= e * ulpr * (2 * n + 4)) as H4 by (apply Rmult_le_compat_l; [apply Rmult_le_pos; lra|auto]).
  replace (W - e) with ((W - t * e) + (t * e - e)) by ring. eapply Rle_trans; [apply Rabs_triang|].
  replace (e * (2 * n + 4) * ulpr) with (e * ulpr * (2 * n + 4)) by ring.
  replace (e * ulpr * (t * (2 * n + 3))) with (3 * ulpr * (t * e) + 2 * n * ulpr * t * e) in H4 by ring. lra.
Qed.
