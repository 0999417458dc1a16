(** Sampling with replacement. *)
From Coq Require Import ZArith Reals Lra Lia List Bool Psatz.
From Flocq Require Import Core.Core IEEE754.BinarySingleNaN.
From Verif Require Import Base Spec SpecFacts NDArray IndexProofs SampleProofs Float64 FloatProofs FloatExt Ddwr DdwrProofs Replace.
Open Scope Z_scope.

(** * Integers *)

Lemma wr_search_ok rest : forall r idx p x, 0 <= p <= r -> r < p + x + sumZ rest -> 0 <= x -> Forall (fun x => 0 <= x) rest -> p + x + sumZ rest < 2 ^ 32 ->
  exists j, dd_search r idx (p + x) rest = Ok (idx + Z.of_nat j) /\ (j < S (length rest))%nat /\
    p + sumZ (firstn j (x :: rest)) <= r < p + sumZ (firstn (S j) (x :: rest)).
Proof.
  induction rest as [|y rest IH]; intros r idx p x Hp Hr Hx Hl Hb; cbn [dd_search].
  - cbn [sumZ fold_right] in *. destruct (Z.leb_spec (p + x) r); [lia|]. exists 0%nat. split; [f_equal; lia|]. split; [simpl; lia|].
    cbn [firstn]. change (sumZ [x]) with (x + 0). change (sumZ []) with 0. lia.
  - change (sumZ (y :: rest)) with (y + sumZ rest) in *. inversion Hl; subst. pose proof (sumZ_nn rest H2).
    destruct (Z.leb_spec (p + x) r).
    + rewrite u32_id by lia. destruct (IH r (idx + 1) (p + x) y) as (j & E & Hj & Hn); auto; try lia.
      exists (S j). rewrite E. split; [f_equal; lia|]. split; [simpl in *; lia|].
      change (firstn (S j) (x :: y :: rest)) with (x :: firstn j (y :: rest)). change (firstn (S (S j)) (x :: y :: rest)) with (x :: firstn (S j) (y :: rest)).
      change (sumZ (x :: firstn j (y :: rest))) with (x + sumZ (firstn j (y :: rest))).
      change (sumZ (x :: firstn (S j) (y :: rest))) with (x + sumZ (firstn (S j) (y :: rest))). lia.
    + exists 0%nat. split; [f_equal; lia|]. split; [simpl; lia|]. cbn [firstn]. change (sumZ [x]) with (x + 0). change (sumZ []) with 0. lia.
Qed.

(** the scaled variate without rounding *)
Lemma scale_exact r S : variate r -> 0 <= S <= 2 ^ 21 -> dd_scale r S = Ok (r * S / 2 ^ 32).
Proof.
  intros Hr HS. pose proof (scale_fin r S Hr ltac:(lia)) as Hf. unfold variate in Hr.
  assert (IZR r / IZR (2 ^ 32) * IZR S = IZR (r * S) * p2 (-32))%R as E.
  { rewrite mult_IZR, IZR_p2 by lia. unfold Rdiv. rewrite <- bpow_opp. change (- (32)) with (-32). ring. }
  rewrite E, RN_id in Hf by (apply repr_dyadic; nia).
  unfold dd_scale, d_to_u32. rewrite (d_trunc _ _ Hf). destruct Hf as [-> _]. cbn [andb].
  assert (Ztrunc (IZR (r * S) * p2 (-32)) = r * S / 2 ^ 32) as ->.
  { rewrite Ztrunc_floor by (apply Rmult_le_pos; [apply IZR_le; nia|apply bpow_ge_0]).
    replace (IZR (r * S) * p2 (-32))%R with (IZR (r * S) / IZR (2 ^ 32))%R by (rewrite (IZR_p2 32) by lia; unfold Rdiv; rewrite <- bpow_opp; reflexivity).
    apply Zfloor_div. lia. }
  assert (0 <= r * S / 2 ^ 32 < 2 ^ 32) as Hq by (split; [apply Z.div_pos; nia|apply Z.div_lt_upper_bound; nia]).
  destruct (Z.ltb_spec (-1) (r * S / 2 ^ 32)); [|lia]. destruct (Z.ltb_spec (r * S / 2 ^ 32) (2 ^ 32)); [|lia]. reflexivity.
Qed.

Lemma wr_claim freq r : frequencies freq -> variate r -> 0 < sumZ freq ->
  exists j, wr_draw freq r = Ok (Z.of_nat j) /\ (j < length freq)%nat /\ 0 < nth j freq 0 /\
    (sumZ freq <= 2 ^ 21 -> 2 ^ 32 * sumZ (firstn j freq) <= r * sumZ freq < 2 ^ 32 * sumZ (firstn (S j) freq)).
Proof.
  intros Hf Hr Hs. pose proof Hf as [Hn Hb]. unfold wr_draw. rewrite (acc_ok freq Hf).
  destruct (scale_ok r (sumZ freq) Hr ltac:(lia)) as (v & Ev & Hv). rewrite Ev. cbn [bind]. destruct freq as [|x rest]; [cbn in Hs; lia|].
  change (sumZ (x :: rest)) with (x + sumZ rest) in Hv, Hb. inversion Hn; subst.
  destruct (wr_search_ok rest v 0 0 x) as (j & E & Hj & Hp); auto; try lia. rewrite Z.add_0_l in E. rewrite E. exists j. rewrite Z.add_0_l.
  split; [reflexivity|]. split; [exact Hj|]. rewrite !Z.add_0_l in Hp. set (l := x :: rest) in *.
  assert (sumZ (firstn (S j) l) = sumZ (firstn j l) + nth j l 0) as En.
  { clear -Hj. assert (j < length l)%nat as Hl by exact Hj. clear Hj. revert j Hl. generalize l. clear. induction l as [|y l IH]; intros [|j] Hl; cbn [length] in Hl; try lia.
    - cbn. lia.
    - change (firstn (S (S j)) (y :: l)) with (y :: firstn (S j) l). change (firstn (S j) (y :: l)) with (y :: firstn j l).
      change (sumZ (y :: firstn (S j) l)) with (y + sumZ (firstn (S j) l)). change (sumZ (y :: firstn j l)) with (y + sumZ (firstn j l)).
      cbn [nth]. rewrite IH by lia. lia. }
  split; [lia|]. intros Hsm. rewrite scale_exact in Ev by (auto; lia). injection Ev as Ev.
  pose proof (Z.div_mod (r * sumZ l) (2 ^ 32) ltac:(lia)) as D. pose proof (Z.mod_pos_bound (r * sumZ l) (2 ^ 32) ltac:(lia)). replace (r * sumZ l / 2 ^ 32) with v in D by (symmetry; exact Ev). nia.
Qed.

Lemma wr_empty_claim freq r : Forall (fun x => x = 0) freq -> variate r -> wr_draw freq r = UB "vector access out of bounds".
Proof.
  intros H Hr. assert (sumZ freq = 0 /\ Forall (fun x => 0 <= x) freq) as [E N].
  { induction H as [|x l Hx H IH]; [split; [reflexivity|constructor]|]. destruct IH as [E N]. split; [change (sumZ (x :: l)) with (x + sumZ l); lia|constructor; [lia|exact N]]. }
  unfold wr_draw. rewrite acc_ok, E, scale_zero by (auto; split; auto; lia). cbn [bind].
  destruct freq as [|x rest]; [reflexivity|]. inversion H; subst. clear -H3. generalize 0 at 2. induction H3 as [|x l Hx H IH]; intros i; cbn [dd_search]; [reflexivity|].
  subst x. cbn [Z.leb Z.compare]. apply IH.
Qed.

(** * Doubles *)

(** the last variate times the total is below the total, unless the total is tiny *)
Lemma below_total S q : repr S -> (p2 (-1022) <= S)%R -> (0 <= q <= 1 - p2 (-32))%R -> (RN (q * S) < S)%R.
Proof.
  intros FS HS Hq. assert (0 < S)%R as S0 by (apply Rlt_le_trans with (2 := HS), bpow_gt_0).
  apply Rle_lt_trans with (pred radix2 fx S).
  2: apply pred_lt_id; lra.
  apply RN_le_repr; [apply generic_format_pred; [apply fexp_correct; reflexivity|exact FS]|].
  assert (S - pred radix2 fx S <= p2 (-52) * S)%R as HP.
  { rewrite fx_FLT in FS |- *. assert (Prec_gt_0 53) as P53 by reflexivity.
    rewrite <- (pred_plus_ulp radix2 (FLT_exp (-1074) 53) S S0 FS) at 1.
    assert (ulp radix2 (FLT_exp (-1074) 53) (pred radix2 (FLT_exp (-1074) 53) S) <= ulp radix2 (FLT_exp (-1074) 53) S)%R as U1.
    { apply ulp_le_pos; [apply FLT_exp_valid; exact P53|apply FLT_exp_monotone|apply pred_ge_0; auto; apply FLT_exp_valid; exact P53|apply pred_le_id]. }
    pose proof (ulp_FLT_le radix2 (-1074) 53 S) as U2. rewrite (Rabs_pos_eq S) in U2 by lra. specialize (U2 HS).
    replace (bpow radix2 (1 - 53)) with (p2 (-52)) in U2 by reflexivity. lra. }
  assert (p2 (-52) <= p2 (-32))%R by (apply bpow_le; lia). nra.
Qed.

Lemma fold_psum (freq : list double) k : fold_left d_add (skipn k freq) (fold_left d_add (firstn k freq) d_zero) = fold_left d_add freq d_zero.
Proof. rewrite <- fold_left_app, firstn_skipn. reflexivity. Qed.
Definition psum (freq : list double) (k : nat) : double := fold_left d_add (firstn k freq) d_zero.

Lemma psum_S freq k : (k < length freq)%nat -> psum freq (S k) = d_add (psum freq k) (nth k freq d_zero).
Proof.
  intros H. unfold psum. replace (firstn (S k) freq) with (firstn k freq ++ [nth k freq d_zero]); [now rewrite fold_left_app|].
  revert freq H. induction k as [|k IH]; intros [|x l] H; cbn [length] in H; try lia; [reflexivity|].
  change (firstn (S (S k)) (x :: l)) with (x :: firstn (S k) l). rewrite <- (IH l) by lia. reflexivity.
Qed.

Section Dbl.
Context (freq : list double) (r : Z) (Hr : variate r) (Hpos : Forall (fun x => d_leb d_zero x = true) freq).
Notation total := (fold_left d_add freq d_zero).
Context (Hfin : is_finite total = true) (Hbig : (p2 (-1022) <= B2R total)%R).
Notation p := (wr_point freq r).

Lemma psum_fin k : is_finite (psum freq k) = true.
Proof. pose proof Hfin as H. rewrite <- (fold_psum freq k) in H. exact (proj1 (fold_add_finite _ _ H)). Qed.
Lemma freq_fin x : In x freq -> is_finite x = true. Proof. exact (proj2 (fold_add_finite _ _ Hfin) x). Qed.

Lemma point_fin : fin p (RN (IZR r / IZR (2 ^ 32) * B2R total)) /\ (0 <= B2R p < B2R total)%R.
Proof.
  unfold variate in Hr. assert (0 < IZR (2 ^ 32))%R as Hp by (apply IZR_lt; lia).
  assert (IZR r / IZR (2 ^ 32) = IZR r * p2 (-32))%R as E by (rewrite IZR_p2 by lia; unfold Rdiv; rewrite <- bpow_opp; reflexivity).
  assert (0 <= IZR r * p2 (-32) <= 1 - p2 (-32))%R as Hq.
  { split; [apply Rmult_le_pos; [apply IZR_le; lia|apply bpow_ge_0]|]. assert (IZR r <= IZR (2 ^ 32) - 1)%R as Hr1 by (rewrite <- minus_IZR; apply IZR_le; lia).
    pose proof (bpow_gt_0 radix2 (-32)). apply Rle_trans with ((IZR (2 ^ 32) - 1) * p2 (-32))%R; [nra|].
    rewrite Rmult_minus_distr_r, IZR_p2, <- bpow_plus by lia. simpl. lra. }
  pose proof (bpow_gt_0 radix2 (-1022)) as P0. pose proof (bpow_gt_0 radix2 (-32)) as P1.
  pose proof (fin_repr _ _ (fin_B2R _ Hfin)) as FT. pose proof (fin_bound _ _ (fin_B2R _ Hfin)) as BT. rewrite Rabs_pos_eq in BT by lra.
  pose proof (below_total (B2R total) (IZR r * p2 (-32)) FT Hbig Hq) as LT.
  assert (0 <= RN (IZR r * p2 (-32) * B2R total))%R as GE by (apply RN_nonneg, Rmult_le_pos; lra).
  assert (fin p (RN (IZR r / IZR (2 ^ 32) * B2R total))) as FP.
  { unfold wr_point. apply d_mul_round.
    - apply d_div_exact; try (apply d_ofZ_exact; lia); [lra| |]; rewrite E.
      + apply repr_dyadic; lia.
      + rewrite Rabs_pos_eq by lra. apply Rle_lt_trans with 1%R; [lra|apply (bpow_lt radix2 0 1024); lia].
    - apply fin_B2R, Hfin.
    - rewrite E, Rabs_pos_eq by lra. lra. }
  split; [exact FP|]. destruct FP as [_ ->]. rewrite E. split; lra.
Qed.

Lemma wr_searchd rest : forall k s, skipn (S k) freq = rest -> (k < length freq)%nat -> fin s (B2R (psum freq (S k))) ->
  ((0 < k)%nat -> d_leb (psum freq k) p = true) ->
  exists j, wr_search p (Z.of_nat k) s rest = Ok (Z.of_nat j) /\ (j < length freq)%nat /\
    ((0 < j)%nat -> d_leb (psum freq j) p = true) /\ d_ltb p (psum freq (S j)) = true.
Proof.
  destruct point_fin as [FP HP]. pose proof (fin_B2R p (proj1 FP)) as FP'.
  induction rest as [|x rest IH]; intros k s Er Hk Hs Hle; cbn [wr_search].
  - rewrite (d_leb_R _ _ _ _ Hs FP').
    assert (length freq <= S k)%nat as Hl by (pose proof (skipn_length (S k) freq) as E; rewrite Er in E; cbn in E; lia).
    assert (psum freq (S k) = total) as Et by (unfold psum; rewrite firstn_all2 by lia; reflexivity).
    rewrite Et, Rle_bool_false by lra. exists k. split; [reflexivity|]. split; [exact Hk|]. split; [exact Hle|].
    apply (d_ltb_true _ _ _ _ FP' (fin_B2R _ (psum_fin (S k)))). rewrite Et. lra.
  - rewrite (d_leb_R _ _ _ _ Hs FP'). destruct (Rle_bool_spec (B2R (psum freq (S k))) (B2R p)) as [Hc|Hc].
    + assert (S k < length freq)%nat as Hk1.
      { pose proof (skipn_length (S k) freq) as E; rewrite Er in E; cbn in E; lia. }
      assert (x = nth (S k) freq d_zero /\ skipn (S (S k)) freq = rest) as [Ex Er'].
      { rewrite <- (firstn_skipn (S k) freq), Er. split.
        - rewrite app_nth2 by (rewrite firstn_length; lia). rewrite firstn_length, Nat.min_l by lia. rewrite Nat.sub_diag. reflexivity.
        - rewrite skipn_app, firstn_length, Nat.min_l by lia. rewrite skipn_all2 by (rewrite firstn_length; lia).
          replace (S (S k) - S k)%nat with 1%nat by lia. reflexivity. }
      replace (Z.of_nat k + 1) with (Z.of_nat (S k)) by lia. apply IH; auto.
      * rewrite (psum_S freq (S k) Hk1), <- Ex.
        assert (is_finite x = true) as Fx by (apply freq_fin; rewrite Ex; apply nth_In; lia).
        pose proof (psum_fin (S (S k))) as Fn. rewrite (psum_S freq (S k) Hk1), <- Ex in Fn.
        destruct (d_add_finite _ _ Fn) as [Fps _].
        pose proof (Bplus_correct 53 1024 eq_refl eq_refl mode_NE (psum freq (S k)) x Fps Fx) as B. fold (d_add (psum freq (S k)) x) in B.
        cbv zeta in B. destruct (Rlt_bool_spec (Rabs (RN (B2R (psum freq (S k)) + B2R x))) (p2 1024)) as [Bl|Bl].
        { pose proof (d_add_round _ _ _ _ (fin_B2R _ Fps) (fin_B2R _ Fx) Bl) as [_ ->]. apply (d_add_round _ _ _ _ Hs (fin_B2R _ Fx) Bl). }
        { exfalso. fold (RN (B2R (psum freq (S k)) + B2R x)) in B. pose proof (fin_bound _ _ (fin_B2R _ Fn)) as Q.
          unfold RN in Bl. change (round_mode mode_NE) with ZnearestE in B. rewrite (Rlt_bool_false _ _ Bl) in B. destruct B as [B _].
          apply overflow_inf in B. change (Bplus mode_NE (psum freq (S k)) x) with (d_add (psum freq (S k)) x) in B. rewrite B in Fn. discriminate. }
      * intros _. apply (d_leb_true _ _ _ _ (fin_B2R _ (psum_fin (S k))) FP'). exact Hc.
    + exists k. split; [reflexivity|]. split; [exact Hk|]. split; [exact Hle|]. apply (d_ltb_true _ _ _ _ FP' (fin_B2R _ (psum_fin (S k)))). exact Hc.
Qed.

Lemma wrd_claim : exists j, wr_drawd freq r = Ok (Z.of_nat j) /\ (j < length freq)%nat /\ d_ltb d_zero (nth j freq d_zero) = true /\
  ((0 < j)%nat -> d_leb (psum freq j) p = true) /\ d_ltb p (psum freq (S j)) = true.
Proof.
  unfold wr_drawd. pose proof (bpow_gt_0 radix2 (-1022)) as P0. destruct point_fin as [FP HP]. pose proof (fin_B2R p (proj1 FP)) as FP'.
  assert (freq <> []) as Hne by (intros E; rewrite E in Hbig; change (B2R (fold_left d_add [] d_zero)) with 0%R in Hbig; lra).
  assert (exists j, match freq with [] => UB "vector access out of bounds" | s :: rest => wr_search p 0 s rest end = Ok (Z.of_nat j) /\ (j < length freq)%nat /\
    ((0 < j)%nat -> d_leb (psum freq j) p = true) /\ d_ltb p (psum freq (S j)) = true) as (j & E & Hj & Hle & Hlt).
  { destruct freq as [|x rest] eqn:Ef; [contradiction|]. rewrite <- Ef in *. apply (wr_searchd rest 0); try lia.
    - rewrite Ef. reflexivity.
    - rewrite Ef. cbn. lia.
    - assert (is_finite x = true) as Fx by (apply freq_fin; rewrite Ef; left; reflexivity).
      unfold psum. rewrite Ef. cbn [firstn fold_left]. split; [exact Fx|].
      pose proof (d_add_exact d_zero x 0 (B2R x) fin_zero (fin_B2R _ Fx)) as A. rewrite Rplus_0_l in A.
      symmetry. apply A; [apply (fin_repr x), fin_B2R, Fx|apply (fin_bound x), fin_B2R, Fx]. }
  exists j. split; [exact E|]. split; [exact Hj|]. split; [|split; assumption].
  assert (is_finite (nth j freq d_zero) = true) as Fx by (apply freq_fin, nth_In, Hj).
  assert (d_leb d_zero (nth j freq d_zero) = true) as Hx by (rewrite Forall_forall in Hpos; apply Hpos, nth_In, Hj).
  apply (d_ltb_true _ _ _ _ fin_zero (fin_B2R _ Fx)). apply (d_leb_true _ _ _ _ fin_zero (fin_B2R _ Fx)) in Hx.
  destruct Hx as [Hx|Hx]; [exact Hx|]. exfalso.
  apply (d_ltb_true _ _ _ _ FP' (fin_B2R _ (psum_fin (S j)))) in Hlt. rewrite psum_S in Hlt by exact Hj.
  pose proof (d_add_exact _ _ _ _ (fin_B2R _ (psum_fin j)) (fin_B2R _ Fx)) as A. rewrite <- Hx, Rplus_0_r in A.
  destruct A as [_ A]; [apply (fin_repr _ _ (fin_B2R _ (psum_fin j)))|apply (fin_bound _ _ (fin_B2R _ (psum_fin j)))|].
  rewrite A in Hlt. destruct j as [|j]; [change (B2R (psum freq 0)) with 0%R in Hlt; lra|].
  specialize (Hle ltac:(lia)). apply (d_leb_true _ _ _ _ (fin_B2R _ (psum_fin (S j))) FP') in Hle. lra.
Qed.
End Dbl.

(** the smallest positive total: the product is rounded up to the total *)
Lemma wrd_tiny : exists freq r, variate r /\ Forall (fun x => is_finite x = true /\ d_ltb d_zero x = true) freq /\ freq <> [] /\
  wr_drawd freq r = UB "vector access out of bounds".
Proof.
  exists [d_lit 1 (-1074)], (2 ^ 32 - 1). split; [split; lia|]. split; [repeat constructor; vm_compute; reflexivity|]. split; [discriminate|]. vm_compute. reflexivity.
Qed.

(** * How many variates select a state *)

Lemma count_between lo hi n : 0 <= lo <= hi ->
  Z.of_nat (length (filter (fun r => (lo <=? r) && (r <? hi)) (zrange (Z.of_nat n)))) = Z.min hi (Z.of_nat n) - Z.min lo (Z.of_nat n).
Proof.
  intros H. induction n as [|n IH]; [change (zrange (Z.of_nat 0)) with (@nil Z); cbn [filter length]; lia|]. rewrite zrange_snoc, filter_app, app_length, Nat2Z.inj_add, IH. cbn [filter].
  destruct (Z.leb_spec lo (Z.of_nat n)), (Z.ltb_spec (Z.of_nat n) hi); cbn [andb length]; lia.
Qed.

Lemma firstn_mono l j k : Forall (fun x => 0 <= x) l -> (j <= k)%nat -> sumZ (firstn j l) <= sumZ (firstn k l).
Proof.
  intros Hl. revert j k. induction Hl as [|x l Hx Hl IH]; intros [|j] [|k] H; try lia; cbn [firstn]; try (rewrite ?firstn_nil; lia).
  - change (sumZ (x :: firstn k l)) with (x + sumZ (firstn k l)). specialize (IH 0%nat k ltac:(lia)). change (sumZ (firstn 0 l)) with 0 in IH. cbn [sumZ fold_right] in *. lia.
  - change (sumZ (x :: firstn k l)) with (x + sumZ (firstn k l)). change (sumZ (x :: firstn j l)) with (x + sumZ (firstn j l)). specialize (IH j k ltac:(lia)). lia.
Qed.
Lemma firstn_last l : forall j, (j < length l)%nat -> sumZ (firstn (S j) l) = sumZ (firstn j l) + nth j l 0.
Proof.
  induction l as [|y l IH]; intros [|j] Hl; cbn [length] in Hl; try lia; [cbn; lia|].
  change (firstn (S (S j)) (y :: l)) with (y :: firstn (S j) l). change (firstn (S j) (y :: l)) with (y :: firstn j l).
  change (sumZ (y :: firstn (S j) l)) with (y + sumZ (firstn (S j) l)). change (sumZ (y :: firstn j l)) with (y + sumZ (firstn j l)).
  cbn [nth]. rewrite IH by lia. lia.
Qed.

Definition returns (x : outcome Z) (j : Z) : bool := match x with Ok i => i =? j | _ => false end.

Lemma wr_count freq j : frequencies freq -> 0 < sumZ freq <= 2 ^ 21 -> (j < length freq)%nat ->
  let n := Z.of_nat (length (filter (fun r => returns (wr_draw freq r) (Z.of_nat j)) (zrange (2 ^ 32)))) in
  Z.abs (n * sumZ freq - 2 ^ 32 * nth j freq 0) < sumZ freq.
Proof.
  intros Hf [Hs0 Hs1] Hj n. pose proof Hf as [Hn _]. set (T := sumZ freq) in *. set (a := sumZ (firstn j freq)). set (b := sumZ (firstn (S j) freq)).
  assert (b = a + nth j freq 0) as Eb by (apply firstn_last; exact Hj).
  assert (0 <= a) as Ha by (apply (firstn_mono freq 0 j Hn); lia). assert (a <= b) as Hab by (apply firstn_mono; auto).
  assert (b <= T) as HbT by (unfold T; rewrite <- (firstn_all freq); apply firstn_mono; auto; lia).
  set (up x := (2 ^ 32 * x + T - 1) / T).
  assert (forall x r, up x <= r <-> 2 ^ 32 * x <= r * T) as Hup.
  { intros x r. unfold up. split; intros H.
    - pose proof (Z.div_mod (2 ^ 32 * x + T - 1) T ltac:(lia)). pose proof (Z.mod_pos_bound (2 ^ 32 * x + T - 1) T Hs0). nia.
    - apply Z.lt_succ_r. apply Z.div_lt_upper_bound; nia. }
  assert (n = up b - up a) as ->.
  { unfold n. rewrite (filter_ext_in _ (fun r => (up a <=? r) && (r <? up b))).
    2: { intros r Hr. pose proof (proj1 (in_zrange (2 ^ 32) r) Hr) as Hr2. clear Hr. rename Hr2 into Hr. destruct (wr_claim freq r Hf Hr Hs0) as (k & -> & Hk & _ & Hq). specialize (Hq Hs1). fold T in Hq. cbn [returns].
         assert (forall u v, u = true <-> v = true -> u = v) as Hb by (intros [] [] ?; intuition congruence). apply Hb.
         rewrite Z.eqb_eq, andb_true_iff, Z.leb_le, Z.ltb_lt. split.
         - intros Ej. assert (k = j) as -> by lia. split; [apply Hup; unfold a; lia|]. apply Z.nle_gt. intros C. apply Hup in C. unfold b in C. lia.
         - intros [C1 C2]. apply Hup in C1. apply Z.nle_gt in C2. assert (~ 2 ^ 32 * b <= r * T) as C3 by (rewrite <- Hup; exact C2).
           destruct (Nat.lt_trichotomy k j) as [L|[E|L]]; [|lia|].
           + pose proof (firstn_mono freq (S k) j Hn ltac:(lia)). fold a in H. lia.
           + pose proof (firstn_mono freq (S j) k Hn ltac:(lia)). fold b in H. lia. }
    replace (2 ^ 32) with (Z.of_nat (Z.to_nat (2 ^ 32))) by (apply Z2Nat.id; lia). rewrite count_between.
    - rewrite Z2Nat.id by lia. assert (up b <= 2 ^ 32) by (apply Hup; nia). assert (up a <= up b) by (apply Hup; pose proof (proj1 (Hup b (up b)) ltac:(lia)); nia). lia.
    - split; [unfold up; apply Z.div_pos; lia|]. apply Hup. pose proof (proj1 (Hup b (up b)) ltac:(lia)). nia. }
  assert (forall x, 2 ^ 32 * x <= up x * T < 2 ^ 32 * x + T) as Bd.
  { intros x. split; [apply Hup; lia|]. unfold up. pose proof (Z.div_mod (2 ^ 32 * x + T - 1) T ltac:(lia)).
    pose proof (Z.mod_pos_bound (2 ^ 32 * x + T - 1) T Hs0). nia. }
  pose proof (Bd a). pose proof (Bd b). nia.
Qed.
