(** Proofs about RSobol.v *)
From Coq Require Import Reals.
From Flocq Require Import IEEE754.BinarySingleNaN.
From Verif Require Import Base SpecFacts Float64 FloatProofs SobolTable Sobol SobolSpec SobolTableProofs SobolProofs SobolClaims
  Qis PickProofs RSobol.
Open Scope N_scope.
#[local] Arguments N.pow : simpl never.

Lemma call_next cols n s : (0 < length cols)%nat -> Forall valid_directions cols ->
  view_of cols (SV n n (N.of_nat (length cols))) s -> n < limit ->
  exists s', sobol_call s = Ok (s', nth 0 (point_of cols (n + 1)) 0) /\ view_of cols (SV (n + 1) (n + 1) 1) s'.
Proof.
  intros Hl Hv Hs Hn. unfold sobol_call. pose proof Hs as (Ha & Hd & Hb & Hp & Hle). cbn [v_pos] in *.
  rewrite Hp, Hd, N.eqb_refl.
  destruct (sobol_buf_ok cols _ s Hv Hs Hn) as (s' & E & H'). cbn [v_n v_pos] in *. rewrite E. cbn [bind].
  destruct H' as (Ha' & Hd' & Hb' & Hp' & Hl'). cbn [s_buf s_pos v_held v_n v_pos] in *.
  rewrite Hb', (getN_ok _ 0 0) by (unfold point_of; rewrite map_length; lia). cbn [bind].
  change (w32 (0 + 1)) with 1. eexists. split; [reflexivity|].
  unfold view_of. cbn [s_sd s_dim s_buf s_pos v_n v_held v_pos]. repeat split; try apply Ha'; auto; lia.
Qed.

Lemma call_same cols n pos s : (length cols <= 1111)%nat -> view_of cols (SV n n pos) s -> pos < N.of_nat (length cols) ->
  exists s', sobol_call s = Ok (s', nth (N.to_nat pos) (point_of cols n) 0) /\ view_of cols (SV n n (pos + 1)) s'.
Proof.
  intros Hd1 Hs Hn. unfold sobol_call. pose proof Hs as (Ha & Hd & Hb & Hp & Hle). cbn [v_pos v_held] in *.
  rewrite Hp, Hd. destruct (N.eqb_spec pos (N.of_nat (length cols))); [lia|]. cbn [bind].
  rewrite Hb, Hp, (getN_ok _ _ 0) by (unfold point_of; rewrite map_length; lia). cbn [bind].
  rewrite w32_small by lia. eexists. split; [reflexivity|].
  unfold view_of. cbn [s_sd s_dim s_buf s_pos v_n v_held v_pos]. repeat split; try apply Ha; auto; lia.
Qed.

Lemma rest_of_row cols n k : forall pos s, (length cols <= 1111)%nat -> view_of cols (SV n n (N.of_nat pos)) s ->
  (pos + k = length cols)%nat ->
  exists s', r_sobol_row k s = Ok (s', map unit_of (skipn pos (point_of cols n))) /\
    view_of cols (SV n n (N.of_nat (length cols))) s'.
Proof.
  induction k as [|k IH]; intros pos s Hd Hs Hk; cbn [r_sobol_row].
  - exists s. rewrite skipn_all2 by (unfold point_of; rewrite map_length; lia).
    replace (length cols) with pos by lia. auto.
  - destruct (call_same cols n (N.of_nat pos) s Hd Hs ltac:(lia)) as (s1 & E1 & H1). rewrite E1. cbn [bind].
    replace (N.of_nat pos + 1) with (N.of_nat (S pos)) in H1 by lia.
    destruct (IH (S pos) s1 Hd H1 ltac:(lia)) as (s2 & E2 & H2). rewrite E2. cbn [bind]. exists s2. split; auto.
    do 2 f_equal. rewrite Nat2N.id. assert (pos < length (point_of cols n))%nat as Hp by (unfold point_of; rewrite map_length; lia).
    revert Hp. generalize (point_of cols n) as p. clear. induction pos as [|pos IHp]; intros [|x p] Hp; cbn in *; try lia; auto.
    rewrite <- IHp by lia. reflexivity.
Qed.

Lemma row_ok cols n s : (0 < length cols <= 1111)%nat -> Forall valid_directions cols ->
  view_of cols (SV n n (N.of_nat (length cols))) s -> n < limit ->
  exists s', r_sobol_row (length cols) s = Ok (s', map unit_of (point_of cols (n + 1))) /\
    view_of cols (SV (n + 1) (n + 1) (N.of_nat (length cols))) s'.
Proof.
  intros Hl Hv Hs Hn. destruct (length cols) as [|k] eqn:El; [lia|]. cbn [r_sobol_row]. rewrite <- El in *.
  destruct (call_next cols n s ltac:(lia) Hv Hs Hn) as (s1 & E1 & H1). rewrite E1. cbn [bind].
  destruct (rest_of_row cols (n + 1) k 1 s1 ltac:(lia) H1 ltac:(lia)) as (s2 & E2 & H2). rewrite E2. cbn [bind].
  exists s2. split; auto. do 2 f_equal.
  assert (0 < length (point_of cols (n + 1)))%nat as Hp by (unfold point_of; rewrite map_length; lia).
  destruct (point_of cols (n + 1)); cbn in *; [lia|auto].
Qed.

Lemma rows_ok cols k : forall n s, (0 < length cols <= 1111)%nat -> Forall valid_directions cols ->
  view_of cols (SV n n (N.of_nat (length cols))) s -> n + N.of_nat k <= limit ->
  r_sobol_rows k (length cols) s = Ok (map (fun j => map unit_of (point_of cols (n + N.of_nat j + 1))) (seq 0 k)).
Proof.
  induction k as [|k IH]; intros n s Hl Hv Hs Hn; cbn [r_sobol_rows]; [reflexivity|].
  destruct (row_ok cols n s Hl Hv Hs ltac:(lia)) as (s1 & E1 & H1). rewrite E1. cbn [bind].
  rewrite (IH (n + 1) s1 Hl Hv H1) by lia. cbn [bind seq map]. do 2 f_equal.
  - do 2 f_equal. lia.
  - rewrite <- seq_shift, map_map. apply map_ext. intros j. do 2 f_equal. lia.
Qed.

(** what sobolSequence discards *)
Definition r_skipped (skip : Z) : N :=
  if (skip =? 0)%Z then 0 else if (skip <=? 2)%Z then 1 else 2 ^ N.log2 (Z.to_N skip - 1).

Lemma r_skipped_le skip : (0 <= skip < 2 ^ 31)%Z -> r_skipped skip <= 2 ^ 30.
Proof.
  intros H. unfold r_skipped. destruct (Z.eqb_spec skip 0); [lia|]. destruct (Z.leb_spec skip 2); [lia|].
  assert (Z.to_N skip - 1 < 2 ^ 31) as Hlt by (change (2 ^ 31) with (Z.to_N (2 ^ 31)); lia).
  apply N.pow_le_mono_r; [lia|]. apply N.log2_lt_pow2 in Hlt; lia.
Qed.

Lemma start_skipped skip : (0 <= skip < 2 ^ 31)%Z -> start (Z.to_N (u32 skip)) = r_skipped skip.
Proof.
  intros H. unfold u32. rewrite Z.mod_small by lia. unfold start, r_skipped, skipped.
  destruct (Z.eqb_spec skip 0) as [->|]; [reflexivity|]. rewrite (proj2 (N.ltb_lt 0 _)) by lia.
  destruct (Z.leb_spec skip 2), (N.leb_spec (Z.to_N skip) 2); auto; lia.
Qed.

Lemma matrix_rows fuel dim n skip : (1 <= dim <= 1111)%Z -> (0 <= n)%Z -> (n * dim < 2 ^ 31)%Z ->
  (0 <= skip < 2 ^ 31)%Z -> (32 <= fuel)%nat ->
  exists cols, is_table (Z.to_nat dim) cols /\ Forall valid_directions cols /\
    r_sobol_sequence fuel dim n skip =
    Ok (map (fun j => map unit_of (point_of cols (r_skipped skip + N.of_nat j + 1))) (seq 0 (Z.to_nat n))).
Proof.
  intros Hd Hn Hnd Hs Hf. unfold r_sobol_sequence. rewrite (proj2 (Z.ltb_lt _ _) Hnd).
  rewrite (proj2 (Z.ltb_ge n 0)), (proj2 (Z.ltb_ge dim 0)) by lia. cbn [orb].
  rewrite <- (start_skipped skip Hs). pose proof (start_skipped skip Hs) as Es. pose proof (r_skipped_le skip Hs) as Hsk.
  unfold u32 in *. rewrite Z.mod_small in * by lia.
  assert (Z.to_N skip <= 2 ^ 31) as Hs' by (change (2 ^ 31) with (Z.to_N (2 ^ 31)); lia).
  destruct (sobol_new_ok (Z.to_N dim) (Z.to_N skip) fuel ltac:(lia) Hs' Hf) as (cols & s & E & Ht & Hv & Hi & Hview).
  rewrite E. cbn [bind]. exists cols. replace (N.to_nat (Z.to_N dim)) with (Z.to_nat dim) in Ht by lia.
  pose proof Ht as [Hl _]. split; auto. split; auto. rewrite <- Hl. apply rows_ok; auto; [lia| |].
  - assert (forall v w, v = w -> view_of cols v s -> view_of cols w s) as Hsub by (intros ? ? -> ?; auto).
    eapply Hsub; [|exact Hview]. cbv zeta. unfold start. destruct (N.ltb_spec 0 (Z.to_N skip)) as [Hpos|].
    + pose proof (skipped_le _ Hs') as Hle. unfold view_skip. cbn [v_n v_held v_pos].
      rewrite N.min_l by (unfold limit; lia). rewrite N.add_0_l.
      assert (0 < skipped (Z.to_N skip)) as H0.
      { unfold skipped. destruct (N.leb_spec (Z.to_N skip) 2); [lia|]. pose proof (N.pow_nonzero 2 (N.log2 (Z.to_N skip - 1))). lia. }
      rewrite (proj2 (N.ltb_lt _ _) H0). f_equal. lia.
    + f_equal; lia.
  - rewrite Es. assert (n < 2 ^ 31)%Z by nia. unfold limit.
    assert (N.of_nat (Z.to_nat n) < 2 ^ 31) by (change (2 ^ 31) with (Z.to_N (2 ^ 31)); lia).
    change (2 ^ 32 - 1) with (2 ^ 31 + 2 ^ 30 + (2 ^ 30 - 1)). lia.
Qed.

Lemma unit_of_ok u : 0 < u -> u < 2 ^ 32 ->
  is_finite (unit_of u) = true /\ (B2R (unit_of u) = IZR (Z.of_N u) / IZR (2 ^ 32))%R /\ (0 < B2R (unit_of u) < 1)%R.
Proof.
  intros H0 Hu. assert (0 <= Z.of_N u < 2 ^ 32)%Z as Hu' by (change (2 ^ 32)%Z with (Z.of_N (2 ^ 32)); lia).
  unfold unit_of. rewrite qis_scale_lit. destruct (scale32 (Z.of_N u) Hu') as [F V].
  pose proof (scale32_bounds (Z.of_N u) Hu') as [_ Hb]. split; auto. rewrite V. split; [reflexivity|]. split; auto.
  apply Rmult_lt_0_compat; [|apply Flocq.Core.Raux.bpow_gt_0]. apply IZR_lt. lia.
Qed.

Lemma matrix_claim fuel dim n skip : (1 <= dim <= 1111)%Z -> (0 <= n)%Z -> (n * dim <= 2 ^ 31 - 1)%Z ->
  (0 <= skip <= 2 ^ 31 - 1)%Z -> (32 <= fuel)%nat ->
  exists rows, r_sobol_sequence fuel dim n skip = Ok rows /\ length rows = Z.to_nat n /\
    forall j, (j < Z.to_nat n)%nat -> length (nth j rows []) = Z.to_nat dim /\
      exists p, nth_draw (Z.to_N dim) (r_skipped skip + N.of_nat j + 1) = Ok p /\
        forall i, (i < Z.to_nat dim)%nat -> let x := nth i (nth j rows []) d_zero in
          is_finite x = true /\ (B2R x = IZR (Z.of_N (nth i p 0%N)) / IZR (2 ^ 32))%R /\ (0 < B2R x < 1)%R.
Proof.
  intros Hd Hn Hnd Hs Hf. destruct (matrix_rows fuel dim n skip Hd Hn ltac:(lia) ltac:(lia) Hf) as (cols & Ht & Hv & E).
  eexists. split; [exact E|]. split; [now rewrite map_length, seq_length|]. intros j Hj. pose proof Ht as [Hl _].
  rewrite (nth_indep _ [] (map unit_of (point_of cols (r_skipped skip + N.of_nat 0 + 1)))) by now rewrite map_length, seq_length.
  rewrite (map_nth (fun j => map unit_of (point_of cols (r_skipped skip + N.of_nat j + 1)))), seq_nth by lia.
  cbn [Nat.add]. pose proof (r_skipped_le skip ltac:(lia)) as Hk.
  assert (r_skipped skip + N.of_nat j + 1 < 2 ^ 32) as Hlt.
  { assert (n < 2 ^ 31)%Z by nia.
    assert (N.of_nat j < 2 ^ 31) by (change (2 ^ 31) with (Z.to_N (2 ^ 31)); lia).
    change (2 ^ 32) with (2 ^ 31 + 2 ^ 30 + 2 ^ 30). lia. }
  set (q := r_skipped skip + N.of_nat j + 1) in *. assert (1 <= q) by lia.
  split; [unfold point_of; rewrite !map_length; lia|].
  destruct (nth_draw_ok (Z.to_N dim) q ltac:(lia) ltac:(unfold limit; lia)) as (cols' & E' & Ht' & _).
  assert (cols' = cols) as ->.
  { apply (table_unique (Z.to_nat dim)); auto; [lia|]. replace (Z.to_nat dim) with (N.to_nat (Z.to_N dim)) by lia. auto. }
  exists (point_of cols q). split; auto. intros i Hi. cbv zeta.
  rewrite (nth_indep _ d_zero (unit_of 0)) by (unfold point_of; rewrite !map_length; lia).
  rewrite (map_nth unit_of), nth_point_of by lia.
  assert (valid_directions (nth i cols [])) as Hvi by (apply nth_valid; auto; lia).
  apply unit_of_ok; [|now apply coord_lt].
  pose proof (coord_nonzero _ q Hvi ltac:(lia) Hlt). lia.
Qed.

Lemma r_hang_claim fuel dim n skip : (1 <= dim <= 1111)%Z -> (0 <= n)%Z -> (n * dim <= 2 ^ 31 - 1)%Z ->
  (- 2 ^ 31 < skip < 0)%Z -> r_sobol_sequence fuel dim n skip = Diverge.
Proof.
  intros Hd Hn Hnd Hs. unfold r_sobol_sequence. rewrite (proj2 (Z.ltb_lt _ _)) by lia.
  rewrite (proj2 (Z.ltb_ge n 0)), (proj2 (Z.ltb_ge dim 0)) by lia. cbn [orb].
  assert (u32 skip = 2 ^ 32 + skip)%Z as ->.
  { unfold u32. symmetry. apply Z.mod_unique_pos with (-1)%Z; lia. }
  pose proof (skip_hang_claim (Z.to_N dim) (Z.to_N (2 ^ 32 + skip)) fuel ltac:(lia)) as H. unfold sobol_generator in H.
  rewrite H; [reflexivity| |].
  - change (2 ^ 31) with (Z.to_N (2 ^ 31)). lia.
  - change (2 ^ 32) with (Z.to_N (2 ^ 32)). lia.
Qed.

Lemma r_range_claim fuel dim n skip : (dim < 1 \/ 1111 < dim)%Z -> (n * dim <= 2 ^ 31 - 1)%Z ->
  exists e, r_sobol_sequence fuel dim n skip = Throw e.
Proof.
  intros Hd Hnd. unfold r_sobol_sequence. rewrite (proj2 (Z.ltb_lt _ _)) by lia.
  destruct ((n <? 0)%Z || (dim <? 0)%Z); [eauto|]. unfold sobol_new.
  destruct (N.ltb_spec (Z.to_N dim) 1); [cbn [orb bind]; eauto|].
  destruct (N.ltb_spec 1111 (Z.to_N dim)); [cbn [orb bind]; eauto|]. lia.
Qed.

Lemma r_prefix_claim fuel dim n n' skip rows rows' : (1 <= dim <= 1111)%Z -> (0 <= n <= n')%Z -> (n' * dim <= 2 ^ 31 - 1)%Z ->
  (0 <= skip <= 2 ^ 31 - 1)%Z -> (32 <= fuel)%nat ->
  r_sobol_sequence fuel dim n skip = Ok rows -> r_sobol_sequence fuel dim n' skip = Ok rows' ->
  rows = firstn (Z.to_nat n) rows'.
Proof.
  intros Hd Hn Hnd Hs Hf E E'. assert (n * dim < 2 ^ 31)%Z by nia.
  destruct (matrix_rows fuel dim n skip Hd ltac:(lia) ltac:(lia) ltac:(lia) Hf) as (cols & Ht & _ & E1).
  destruct (matrix_rows fuel dim n' skip Hd ltac:(lia) ltac:(lia) ltac:(lia) Hf) as (cols' & Ht' & _ & E1').
  assert (cols' = cols) as -> by (apply (table_unique (Z.to_nat dim)); auto; lia).
  rewrite E1 in E. injection E as <-. rewrite E1' in E'. injection E' as <-.
  rewrite firstn_map. f_equal. replace (Z.to_nat n') with (Z.to_nat n + (Z.to_nat n' - Z.to_nat n))%nat by lia.
  rewrite seq_app, firstn_app, seq_length, Nat.sub_diag, firstn_O, app_nil_r. now rewrite firstn_all2 by now rewrite seq_length.
Qed.
