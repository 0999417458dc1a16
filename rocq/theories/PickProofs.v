(** Proofs about the sampling primitives of src/QIS.cpp: pick, recursive_sample and sample. *)
From Coq Require Import Reals Psatz.
From Flocq Require Import Core.Core IEEE754.BinarySingleNaN Relative.
From Verif Require Import Base Spec SpecFacts NDArray IndexProofs Float64 FloatProofs ArrayOps ArrayProofs Bind BindProofs
  SobolSpec Sobol Micro Stat Qis SynthSpec MicroProofs.
Open Scope Z_scope.

(** * pick *)

Definition sum_abs (l : list Z) : Z := sumZ (map Z.abs l).

Lemma sum_abs_nonneg l : 0 <= sum_abs l.
Proof. apply sumZ_nonneg. intros x Hx. apply in_map_iff in Hx as (y & <- & _). lia. Qed.

Lemma pick_loop_safe dist r : forall i run, Z.abs run + sum_abs dist < 2 ^ 63 ->
  (exists k, pick_loop dist r i run = Ok k /\ i <= k < i + Z.of_nat (length dist)) \/
  exists e, pick_loop dist r i run = Throw e.
Proof.
  induction dist as [|x dist IH]; intros i run H; cbn [pick_loop]; [right; eauto|].
  unfold sum_abs in H. simpl in H. fold (sum_abs dist) in H. pose proof (sum_abs_nonneg dist).
  rewrite i64_ok by lia. cbn [bind]. destruct d_ltb.
  - left. exists i. split; auto. simpl length. lia.
  - destruct (IH (i + 1) (run + x)) as [(k & E & Hk)|(e & E)]; [lia| |]; [left; exists k; split; auto; simpl length; lia|right; eauto].
Qed.

Lemma pick_safe dist r : sum_abs dist < 2 ^ 63 ->
  (exists k, pick dist r = Ok k /\ 0 <= k < Z.of_nat (length dist)) \/ exists e, pick dist r = Throw e.
Proof. intros H. unfold pick. apply pick_loop_safe. simpl. lia. Qed.

Lemma total_double dist : forall a acc, (forall x, In x dist -> 0 <= x) -> 0 <= acc -> acc + sumZ dist <= 2 ^ 53 ->
  fin a (IZR acc) -> fin (fold_left (fun a x => d_add a (d_ofZ x)) dist a) (IZR (acc + sumZ dist)).
Proof.
  induction dist as [|x dist IH]; intros a acc Hn Ha Hb Hf; simpl in *.
  - now rewrite Z.add_0_r.
  - assert (0 <= x) by auto. assert (0 <= sumZ dist) by (apply sumZ_nonneg; auto).
    rewrite Z.add_assoc. apply IH; auto; try lia.
    rewrite plus_IZR. apply (d_add_exact _ _ _ _ Hf (d_ofZ_exact x ltac:(lia))).
    + rewrite <- plus_IZR. apply repr_Z. lia.
    + rewrite <- plus_IZR. apply (fin_bound (d_ofZ (acc + x))). apply d_ofZ_exact. lia.
Qed.

(** the threshold lies below the total *)
Lemma threshold u s y : 0 <= u < 2 ^ 32 -> 0 < s <= 2 ^ 53 -> fin y (IZR s) ->
  exists r, fin (d_mul (d_mul (d_ofZ u) (d_lit 1 (-32))) y) r /\ (0 <= r < IZR s)%R.
Proof.
  intros Hu Hs Hy. set (x := (IZR u * p2 (-32) * IZR s)%R).
  assert (0 < IZR s)%R as Hs0 by (apply IZR_lt; lia).
  destruct (scale32_bounds u Hu) as [H0 H1].
  assert (0 <= x)%R as Hx0 by (unfold x; apply Rmult_le_pos; lra).
  assert (x <= IZR s * (1 - p2 (-32)))%R as Hx1.
  { unfold x. assert (IZR u * p2 (-32) <= 1 - p2 (-32))%R; [|rewrite Rmult_comm; apply Rmult_le_compat_l; lra].
    assert (IZR u <= IZR (2 ^ 32 - 1))%R as Hu' by (apply IZR_le; lia).
    rewrite minus_IZR, IZR_p2 in Hu' by lia. assert (0 < p2 (-32))%R by apply bpow_gt_0.
    assert (p2 32 * p2 (-32) = 1)%R by (rewrite <- bpow_plus; reflexivity). nra. }
  assert (0 <= RN x < IZR s)%R as Hr.
  { split; [now apply RN_nonneg|]. destruct (Z.eq_dec u 0) as [->|Hu0].
    - unfold x. rewrite !Rmult_0_l, RN_0. auto.
    - assert (p2 (-32) <= x)%R as Hlow.
      { unfold x. assert (1 <= IZR u)%R by (apply IZR_le; lia). assert (1 <= IZR s)%R by (apply IZR_le; lia).
        assert (0 < p2 (-32))%R by apply bpow_gt_0. nra. }
      pose proof (relative_error_N_FLT radix2 (-1074) 53 eq_refl (fun z => negb (Z.even z)) x) as E.
      rewrite <- fx_FLT in E. fold (RN x) in E.
      assert (Rabs (RN x - x) <= / 2 * p2 (-53 + 1) * Rabs x)%R as E'.
      { apply E. rewrite Rabs_pos_eq by auto. apply Rle_trans with (2 := Hlow). apply bpow_le. simpl. lia. }
      rewrite (Rabs_pos_eq x) in E' by auto. apply Rabs_le_inv in E'.
      assert (/ 2 * p2 (-53 + 1) = p2 (-53))%R as E2.
      { replace (/ 2)%R with (p2 (-1)) by (simpl; lra). rewrite <- bpow_plus. reflexivity. }
      rewrite E2 in E'.
      assert (p2 (-53) < p2 (-32))%R by (apply bpow_lt; lia). assert (0 < p2 (-53))%R by apply bpow_gt_0.
      assert (x * (1 + p2 (-53)) < IZR s)%R; [|lra].
      apply Rle_lt_trans with (IZR s * (1 - p2 (-32)) * (1 + p2 (-53)))%R; nra. }
  exists (RN x). split; auto. apply d_mul_round; [now apply scale32|exact Hy|].
  fold x. rewrite Rabs_pos_eq by lra. apply Rlt_le_trans with (IZR s); [lra|].
  apply Rle_trans with (IZR (2 ^ 53)); [apply IZR_le; lia|]. rewrite IZR_p2 by lia. apply bpow_le. lia.
Qed.

Lemma pick_loop_pos dist th r : fin th r -> forall i run, (forall x, In x dist -> 0 <= x) -> 0 <= run -> run + sumZ dist <= 2 ^ 53 ->
  (IZR run <= r < IZR (run + sumZ dist))%R ->
  exists k, pick_loop dist th i run = Ok (i + Z.of_nat k) /\ (k < length dist)%nat /\ 0 < nth k dist 0.
Proof.
  intros Hth. induction dist as [|x dist IH]; intros i run Hn Hr Hb Hlt; simpl in *.
  - rewrite Z.add_0_r in Hlt. lra.
  - assert (0 <= x) by auto. assert (0 <= sumZ dist) by (apply sumZ_nonneg; auto).
    rewrite i64_ok by lia. cbn [bind].
    pose proof (d_ltb_true _ _ _ _ Hth (d_ofZ_exact (run + x) ltac:(lia))) as Ht.
    destruct (d_ltb th (d_ofZ (run + x))) eqn:E.
    + exists 0%nat. split; [f_equal; lia|]. split; [lia|].
      apply proj1 in Ht. specialize (Ht eq_refl). assert (IZR run < IZR (run + x))%R as Hl by lra. apply lt_IZR in Hl. lia.
    + apply (d_ltb_false _ _ _ _ Hth (d_ofZ_exact (run + x) ltac:(lia))) in E.
      destruct (IH (i + 1) (run + x)) as (k & Ek & Hk & Hp); auto; try lia.
      { rewrite Z.add_assoc in Hlt. lra. }
      exists (S k). split; [rewrite Ek; f_equal; lia|]. split; [lia|auto].
Qed.

Lemma qis_scale_lit : qis_scale = d_lit 1 (-32).
Proof. apply B2SF_inj. vm_compute. reflexivity. Qed.

Lemma pick_pos dist u : (forall x, In x dist -> 0 <= x) -> 0 < sumZ dist <= 2 ^ 53 -> (u < 2 ^ 32)%N ->
  exists k, pick dist (unit_of u) = Ok (Z.of_nat k) /\ (k < length dist)%nat /\ 0 < nth k dist 0.
Proof.
  intros Hn Hs Hu. unfold pick, unit_of. rewrite qis_scale_lit.
  pose proof (total_double dist d_zero 0 Hn ltac:(lia) ltac:(lia) fin_zero) as Ht. rewrite Z.add_0_l in Ht.
  destruct (threshold (Z.of_N u) (sumZ dist) _ ltac:(lia) ltac:(lia) Ht) as (r' & Hr' & Hb).
  destruct (pick_loop_pos dist _ r' Hr' 0 0 Hn) as (k & Ek & Hk); try lia; try (rewrite Z.add_0_l; auto).
  exists k. rewrite Ek. auto.
Qed.
