(** Sampling without replacement. *)
From Coq Require Import ZArith Reals Lra Lia List Bool Psatz.
From Flocq Require Import Core.Core IEEE754.BinarySingleNaN.
From Verif Require Import Base Spec SpecFacts NDArray IndexProofs Float64 FloatProofs Ddwr.
Open Scope Z_scope.

(** frequencies are uint32_t, and so is their total *)
Definition frequencies (freq : list Z) : Prop := Forall (fun x => 0 <= x) freq /\ sumZ freq < 2 ^ 32.
Definition variate (r : Z) : Prop := 0 <= r < 2 ^ 32.

(** * Scaling a variate *)

Lemma scale_real r S : 0 <= r < 2 ^ 32 -> 0 < S < 2 ^ 32 -> (RN (IZR r / IZR (2 ^ 32) * IZR S) < IZR S)%R.
Proof.
  intros Hr HS. set (e := Z.log2 S). pose proof (Z.log2_spec S ltac:(lia)) as [L U]. fold e in L, U. assert (0 <= e) by apply Z.log2_nonneg.
  assert (e < 32) as He by (apply (Z.pow_lt_mono_r_iff 2); lia).
  assert (IZR S = IZR (S * 2 ^ (32 - e)) * p2 (e - 32))%R as ES.
  { rewrite mult_IZR, IZR_p2, Rmult_assoc, <- bpow_plus by lia. replace (32 - e + (e - 32)) with 0 by lia. simpl. ring. }
  assert (S * 2 ^ (32 - e) < 2 ^ 53) as Hm.
  { apply Z.lt_le_trans with (2 ^ Z.succ e * 2 ^ (32 - e)); [apply Z.mul_lt_mono_pos_r; [apply Z.pow_pos_nonneg; lia|lia]|].
    rewrite <- Z.pow_add_r by lia. apply Z.pow_le_mono_r; lia. }
  assert (0 < S * 2 ^ (32 - e)) as Hm0 by (apply Z.mul_pos_pos; [lia|apply Z.pow_pos_nonneg; lia]).
  apply Rle_lt_trans with (IZR (S * 2 ^ (32 - e) - 1) * p2 (e - 32))%R.
  - apply RN_le_repr; [apply repr_dyadic; lia|]. rewrite minus_IZR, Rmult_minus_distr_r, <- ES, Rmult_1_l.
    assert (p2 (e - 32) <= IZR S / IZR (2 ^ 32))%R as Hlo.
    { replace (p2 (e - 32)) with (IZR (2 ^ e) / IZR (2 ^ 32))%R by (rewrite !IZR_p2 by lia; unfold Rdiv; rewrite <- bpow_opp, <- bpow_plus; reflexivity).
      apply Rmult_le_compat_r; [left; apply Rinv_0_lt_compat; apply IZR_lt; lia|]. now apply IZR_le. }
    assert (IZR r <= IZR (2 ^ 32) - 1)%R as Hr1 by (rewrite <- minus_IZR; apply IZR_le; lia).
    assert (0 < IZR (2 ^ 32))%R as Hp by (apply IZR_lt; lia). assert (0 < IZR S)%R as HS0 by (apply IZR_lt; lia).
    apply Rle_trans with ((IZR (2 ^ 32) - 1) / IZR (2 ^ 32) * IZR S)%R.
    + apply Rmult_le_compat_r; [lra|]. apply Rmult_le_compat_r; [left; now apply Rinv_0_lt_compat|auto].
    + replace ((IZR (2 ^ 32) - 1) / IZR (2 ^ 32) * IZR S)%R with (IZR S - IZR S / IZR (2 ^ 32))%R by (field; lra). lra.
  - rewrite ES. apply Rmult_lt_compat_r; [apply bpow_gt_0|]. apply IZR_lt. lia.
Qed.

Lemma scale_fin r S : 0 <= r < 2 ^ 32 -> 0 <= S < 2 ^ 32 ->
  fin (d_mul (d_div (d_ofZ r) (d_ofZ (2 ^ 32))) (d_ofZ S)) (RN (IZR r / IZR (2 ^ 32) * IZR S)).
Proof.
  intros Hr HS. assert (0 < IZR (2 ^ 32))%R as Hp by (apply IZR_lt; lia).
  assert (IZR r / IZR (2 ^ 32) = IZR r * p2 (-32))%R as E by (rewrite IZR_p2 by lia; unfold Rdiv; rewrite <- bpow_opp; reflexivity).
  assert (0 <= IZR r / IZR (2 ^ 32) <= 1)%R as [H0 H1].
  { split; [apply Rmult_le_pos; [apply IZR_le; lia|left; now apply Rinv_0_lt_compat]|].
    apply Rmult_le_reg_r with (IZR (2 ^ 32)); auto. unfold Rdiv. rewrite Rmult_assoc, Rinv_l, Rmult_1_r, Rmult_1_l by lra. apply IZR_le. lia. }
  apply d_mul_round.
  - apply d_div_exact; try (apply d_ofZ_exact; lia); [lra| |].
    + rewrite E. apply repr_dyadic; lia.
    + rewrite Rabs_pos_eq by auto. apply Rle_lt_trans with (1 := H1). apply (bpow_lt radix2 0 1024). lia.
  - apply d_ofZ_exact. lia.
  - assert (0 <= IZR S)%R by (apply IZR_le; lia). rewrite Rabs_pos_eq by (apply RN_nonneg; apply Rmult_le_pos; auto).
    apply Rle_lt_trans with (IZR S); [|apply Rlt_trans with (IZR (2 ^ 32)); [apply IZR_lt; lia|rewrite IZR_p2 by lia; apply bpow_lt; lia]].
    apply RN_le_repr; [apply repr_Z; lia|]. rewrite <- (Rmult_1_l (IZR S)) at 2. now apply Rmult_le_compat_r.
Qed.

Lemma scale_ok r S : variate r -> 0 < S < 2 ^ 32 -> exists v, dd_scale r S = Ok v /\ 0 <= v < S.
Proof.
  intros Hr HS. pose proof (scale_fin r S Hr ltac:(lia)) as Hf. pose proof (scale_real r S Hr HS) as Hlt.
  assert (0 <= RN (IZR r / IZR (2 ^ 32) * IZR S))%R as H0.
  { apply RN_nonneg. apply Rmult_le_pos; [|apply IZR_le; lia]. apply Rmult_le_pos; [apply IZR_le; unfold variate in Hr; lia|]. left. apply Rinv_0_lt_compat. apply IZR_lt. lia. }
  unfold dd_scale, d_to_u32. rewrite (d_trunc _ _ Hf). destruct Hf as [-> _]. cbn [andb].
  set (x := RN _) in *. exists (Ztrunc x).
  assert (0 <= Ztrunc x < S) as Hx.
  { rewrite Ztrunc_floor by auto. split; [now apply Zfloor_lub|]. apply lt_IZR. pose proof (Zfloor_lb x). lra. }
  destruct (Z.ltb_spec (-1) (Ztrunc x)); [|lia]. destruct (Z.ltb_spec (Ztrunc x) (2 ^ 32)); [|lia]. auto.
Qed.

Lemma scale_zero r : variate r -> dd_scale r 0 = Ok 0.
Proof.
  intros Hr. pose proof (scale_fin r 0 Hr ltac:(lia)) as Hf. rewrite Rmult_0_r, RN_0 in Hf.
  unfold dd_scale, d_to_u32. rewrite (d_trunc _ _ Hf), Ztrunc_IZR. destruct Hf as [-> _]. reflexivity.
Qed.

(** * The search *)

Lemma u32_id x : 0 <= x < 2 ^ 32 -> u32 x = x. Proof. intros. now apply Z.mod_small. Qed.

Lemma sumZ_nn l : Forall (fun x => 0 <= x) l -> 0 <= sumZ l.
Proof. intros H. apply sumZ_nonneg. now rewrite Forall_forall in H. Qed.

Lemma acc_from l : forall s, 0 <= s -> Forall (fun x => 0 <= x) l -> s + sumZ l < 2 ^ 32 -> fold_left (fun s x => u32 (s + x)) l s = s + sumZ l.
Proof.
  induction l as [|x l IH]; intros s Hs Hl Hb; cbn [fold_left]; [change (sumZ []) with 0; lia|].
  inversion Hl; subst. change (sumZ (x :: l)) with (x + sumZ l) in *. pose proof (sumZ_nn l H2). rewrite u32_id by lia. rewrite IH; auto; lia.
Qed.

Lemma acc_ok l : frequencies l -> acc_u32 l = sumZ l.
Proof. intros [H1 H2]. unfold acc_u32. rewrite acc_from; auto; lia. Qed.

Lemma search_ok rest : forall r idx p x, 0 <= p <= r -> r < p + x + sumZ rest -> 0 <= x -> Forall (fun x => 0 <= x) rest -> p + x + sumZ rest < 2 ^ 32 ->
  exists j, dd_search r idx (p + x) rest = Ok (idx + Z.of_nat j) /\ (j < S (length rest))%nat /\ 0 < nth j (x :: rest) 0.
Proof.
  induction rest as [|y rest IH]; intros r idx p x Hp Hr Hx Hl Hb; cbn [dd_search].
  - cbn [sumZ fold_right] in *. destruct (Z.leb_spec (p + x) r); [lia|]. exists 0%nat. split; [f_equal; lia|]. split; [simpl; lia|]. cbn [nth]. lia.
  - change (sumZ (y :: rest)) with (y + sumZ rest) in *. inversion Hl; subst. pose proof (sumZ_nn rest H2).
    destruct (Z.leb_spec (p + x) r).
    + rewrite u32_id by lia. destruct (IH r (idx + 1) (p + x) y) as (j & E & Hj & Hn); auto; try lia.
      exists (S j). rewrite E. split; [f_equal; lia|]. split; [simpl in *; lia|]. exact Hn.
    + exists 0%nat. split; [f_equal; lia|]. split; [simpl; lia|]. cbn [nth]. lia.
Qed.

Lemma sumZ_upd l : forall j v, (j < length l)%nat -> sumZ (upd l j v) = sumZ l - nth j l 0 + v.
Proof.
  induction l as [|x l IH]; intros [|j] v Hj; cbn [length] in Hj; try lia; cbn [upd nth].
  - change (sumZ (v :: l)) with (v + sumZ l). change (sumZ (x :: l)) with (x + sumZ l). lia.
  - change (sumZ (x :: upd l j v)) with (x + sumZ (upd l j v)). change (sumZ (x :: l)) with (x + sumZ l). rewrite IH by lia. lia.
Qed.

Lemma nn_upd l : forall j v, Forall (fun x => 0 <= x) l -> 0 <= v -> Forall (fun x => 0 <= x) (upd l j v).
Proof. induction l as [|x l IH]; intros [|j] v Hl Hv; cbn [upd]; auto; inversion Hl; subst; constructor; auto. Qed.

Lemma nth_le_sum l : forall j, Forall (fun x => 0 <= x) l -> (j < length l)%nat -> 0 <= nth j l 0 <= sumZ l.
Proof.
  induction l as [|x l IH]; intros [|j] Hl Hj; cbn [length] in Hj; try lia; inversion Hl; subst; change (sumZ (x :: l)) with (x + sumZ l); cbn [nth].
  - pose proof (sumZ_nn l H2). lia.
  - specialize (IH j H2 ltac:(lia)). lia.
Qed.

(** one individual of state [j] less *)
Definition less (freq : list Z) (j : nat) : list Z := upd freq j (nth j freq 0 - 1).

Lemma take_ok freq j : frequencies freq -> (j < length freq)%nat -> 0 < nth j freq 0 ->
  dd_take (DD freq (sumZ freq)) (Z.of_nat j) = Ok (DD (less freq j) (sumZ (less freq j))) /\ frequencies (less freq j) /\
  sumZ (less freq j) = sumZ freq - 1.
Proof.
  intros [Hn Hb] Hj Hp. pose proof (nth_le_sum freq j Hn Hj). unfold dd_take. cbn [dd_freq dd_sum].
  rewrite vec_get_ok with (d := 0) by lia. cbn [bind]. rewrite vec_set_ok by lia. cbn [bind]. rewrite Nat2Z.id.
  assert (sumZ (less freq j) = sumZ freq - 1) as Hs by (unfold less; rewrite sumZ_upd by auto; lia).
  rewrite Hs. rewrite !u32_id by lia. split; [reflexivity|]. split; auto. split; [|lia]. apply nn_upd; auto. lia.
Qed.

(** * Drawing *)

Lemma draw_ok freq r : frequencies freq -> variate r -> 0 < sumZ freq ->
  exists j, ddwr_draw (DD freq (sumZ freq)) r = Ok (Z.of_nat j, DD (less freq j) (sumZ (less freq j))) /\ (j < length freq)%nat /\ 0 < nth j freq 0 /\
    frequencies (less freq j) /\ sumZ (less freq j) = sumZ freq - 1.
Proof.
  intros Hf Hr Hs. pose proof Hf as [Hn Hb]. unfold ddwr_draw. cbn [dd_sum dd_freq]. destruct (Z.eqb_spec (sumZ freq) 0); [lia|].
  destruct (scale_ok r (sumZ freq) Hr ltac:(lia)) as (v & -> & Hv). cbn [bind]. destruct freq as [|x rest]; [cbn in Hs; lia|].
  change (sumZ (x :: rest)) with (x + sumZ rest) in Hv, Hb. inversion Hn; subst.
  destruct (search_ok rest v 0 0 x) as (j & E & Hj & Hp); auto; try lia. rewrite Z.add_0_l in E. rewrite E. cbn [bind]. rewrite Z.add_0_l.
  destruct (take_ok (x :: rest) j Hf Hj Hp) as (Et & Hf' & Hs'). rewrite Et. cbn [bind]. exists j. auto.
Qed.

Definition occurs (is : list Z) (k : nat) : Z := Z.of_nat (count_occ Z.eq_dec is (Z.of_nat k)).

Lemma draws_ok rs : forall freq, frequencies freq -> Forall variate rs -> Z.of_nat (length rs) <= sumZ freq ->
  exists is freq', ddwr_draws (DD freq (sumZ freq)) rs = Ok (is, DD freq' (sumZ freq')) /\ length is = length rs /\ length freq' = length freq /\
    frequencies freq' /\ sumZ freq' = sumZ freq - Z.of_nat (length rs) /\ (forall i, In i is -> 0 <= i < Z.of_nat (length freq)) /\
    forall k, nth k freq' 0 = nth k freq 0 - occurs is k.
Proof.
  induction rs as [|r rs IH]; intros freq Hf Hr Hl; cbn [ddwr_draws].
  - exists [], freq. cbn [length]. repeat (split; auto); try lia; intros; try contradiction. unfold occurs. cbn. lia.
  - inversion Hr; subst. cbn [length] in Hl. destruct (draw_ok freq r Hf H1 ltac:(lia)) as (j & E & Hj & Hp & Hf' & Hs). rewrite E. cbn [bind].
    destruct (IH (less freq j) Hf' H2 ltac:(lia)) as (is & freq' & E' & L1 & L2 & Hf'' & Hs' & Hin & Hk). rewrite E'. cbn [bind].
    assert (length (less freq j) = length freq) as Ll by apply length_upd.
    exists (Z.of_nat j :: is), freq'. split; [reflexivity|]. cbn [length]. split; [lia|]. split; [lia|]. split; auto. split; [lia|]. split.
    + intros i [<-|Hi]; [lia|]. rewrite <- Ll. auto.
    + intros k. rewrite Hk. unfold less. unfold occurs. cbn [count_occ].
      destruct (Z.eq_dec (Z.of_nat j) (Z.of_nat k)) as [Ek|Nk].
      * apply Nat2Z.inj in Ek. subst k. rewrite nth_upd by auto. rewrite Nat.eqb_refl. lia.
      * rewrite nth_upd_other by lia. lia.
Qed.

(** * The claims *)

Lemma new_ok freq : frequencies freq -> ddwr_new freq = DD freq (sumZ freq).
Proof. intros H. unfold ddwr_new. now rewrite acc_ok. Qed.

Lemma sum_zero_nth l k : Forall (fun x => 0 <= x) l -> sumZ l = 0 -> nth k l 0 = 0.
Proof.
  intros Hl Hs. destruct (Nat.lt_ge_cases k (length l)) as [H|H]; [|now rewrite nth_overflow]. pose proof (nth_le_sum l k Hl H). lia.
Qed.

(** C47 *)
Lemma deplete_claim freq rs : frequencies freq -> Forall variate rs -> Z.of_nat (length rs) = sumZ freq ->
  exists is d, ddwr_draws (ddwr_new freq) rs = Ok (is, d) /\ (forall k, nth k freq 0 = occurs is k) /\
    (forall i, In i is -> 0 <= i < Z.of_nat (length freq)) /\
    forall r, variate r -> ddwr_draw d r = Throw (RuntimeError "distribution is depleted").
Proof.
  intros Hf Hr Hl. rewrite new_ok by auto. destruct (draws_ok rs freq Hf Hr ltac:(lia)) as (is & freq' & E & _ & L2 & Hf' & Hs & Hin & Hk).
  exists is, (DD freq' (sumZ freq')). split; auto. assert (sumZ freq' = 0) as H0 by lia. split; [|split; auto].
  - intros k. specialize (Hk k). rewrite (sum_zero_nth freq' k (proj1 Hf') H0) in Hk. lia.
  - intros r _. unfold ddwr_draw. cbn [dd_sum]. now rewrite H0.
Qed.

Lemma partial_claim freq rs : frequencies freq -> Forall variate rs -> Z.of_nat (length rs) <= sumZ freq ->
  exists is d, ddwr_draws (ddwr_new freq) rs = Ok (is, d) /\ length is = length rs /\ (forall i, In i is -> 0 <= i < Z.of_nat (length freq)) /\
    forall k, occurs is k <= nth k freq 0 /\ nth k (dd_freq d) 0 = nth k freq 0 - occurs is k.
Proof.
  intros Hf Hr Hl. rewrite new_ok by auto. destruct (draws_ok rs freq Hf Hr Hl) as (is & freq' & E & L1 & L2 & Hf' & Hs & Hin & Hk).
  exists is, (DD freq' (sumZ freq')). split; auto. split; auto. split; auto. intros k. cbn [dd_freq]. rewrite Hk. split; auto.
  assert (0 <= nth k freq' 0) as H0; [|rewrite Hk in H0; lia].
  destruct (Nat.lt_ge_cases k (length freq')) as [H|H]; [apply (nth_le_sum freq' k (proj1 Hf') H)|rewrite nth_overflow by auto; lia].
Qed.

(** totals of 2^32 wrap *)
Lemma wrap_claim : exists freq, Forall (fun x => 0 <= x < 2 ^ 32) freq /\ sumZ freq = 2 ^ 32 /\
  forall r, ddwr_draw (ddwr_new freq) r = Throw (RuntimeError "distribution is depleted").
Proof. exists [2 ^ 31; 2 ^ 31]. split; [repeat constructor; lia|]. split; [reflexivity|]. intros r. reflexivity. Qed.

(** * constrainedSample *)

Lemma csearch_ok rest : forall r idx p x k, 0 <= idx -> 0 <= p <= r -> 0 <= x -> Forall (fun x => 0 <= x) rest -> p + x + sumZ rest < 2 ^ 32 ->
  idx < k <= idx + 1 + Z.of_nat (length rest) ->
  r < p + sumZ (firstn (Z.to_nat (k - idx)) (x :: rest)) ->
  exists j, dd_csearch r idx (p + x) k rest = Ok (Some (idx + Z.of_nat j)) /\ idx + Z.of_nat j < k /\ 0 < nth j (x :: rest) 0.
Proof.
  induction rest as [|y rest IH]; intros r idx p x k Hi Hp Hx Hl Hb Hk Hr; cbn [dd_csearch].
  - cbn [length] in Hk. assert (k = idx + 1) by lia. subst k. replace (Z.to_nat (idx + 1 - idx)) with 1%nat in Hr by lia. cbn [firstn sumZ fold_right] in *.
    destruct (Z.leb_spec (p + x) r); [lia|]. exists 0%nat. split; [do 2 f_equal; lia|]. split; [lia|]. cbn [nth]. lia.
  - change (sumZ (y :: rest)) with (y + sumZ rest) in Hb. inversion Hl; subst. pose proof (sumZ_nn rest H2). cbn [length] in Hk.
    destruct (Z.leb_spec (p + x) r) as [Hle|Hgt].
    + destruct (Z.leb_spec k (idx + 1)) as [Hk1|Hk1].
      { exfalso. replace (Z.to_nat (k - idx)) with 1%nat in Hr by lia. cbn [firstn sumZ fold_right] in Hr. lia. }
      rewrite u32_id by lia. destruct (IH r (idx + 1) (p + x) y k) as (j & E & Hj & Hn); auto; try lia.
      { replace (Z.to_nat (k - idx)) with (S (Z.to_nat (k - (idx + 1)))) in Hr by lia. cbn [firstn] in Hr.
        change (sumZ (x :: firstn (Z.to_nat (k - (idx + 1))) (y :: rest))) with (x + sumZ (firstn (Z.to_nat (k - (idx + 1))) (y :: rest))) in Hr. lia. }
      exists (S j). rewrite E. split; [do 2 f_equal; lia|]. split; [lia|]. exact Hn.
    + exists 0%nat. split; [do 2 f_equal; lia|]. split; [lia|]. cbn [nth]. lia.
Qed.

(** nothing left to take among the first [k] *)
Lemma csearch_none rest : forall idx k, 0 <= idx -> idx < k <= idx + Z.of_nat (length rest) ->
  Forall (fun x => x = 0) (firstn (Z.to_nat (k - idx - 1)) rest) -> dd_csearch 0 idx 0 k rest = Ok None.
Proof.
  induction rest as [|y rest IH]; intros idx k Hi Hk Hz; cbn [length] in Hk; [lia|]. cbn [dd_csearch].
  change (0 <=? 0) with true. cbn iota. destruct (Z.leb_spec k (idx + 1)); auto.
  replace (Z.to_nat (k - idx - 1)) with (S (Z.to_nat (k - (idx + 1) - 1))) in Hz by lia. cbn [firstn] in Hz. inversion Hz; subst.
  change (u32 (0 + 0)) with 0. apply IH; auto; lia.
Qed.

Lemma sumZ_firstn l k : Forall (fun x => 0 <= x) l -> sumZ (firstn k l) <= sumZ l /\ Forall (fun x => 0 <= x) (firstn k l).
Proof.
  intros Hl. rewrite <- (firstn_skipn k l) in Hl. apply Forall_app in Hl as [H1 H2]. split; auto.
  rewrite <- (firstn_skipn k l) at 2. rewrite sumZ_app. pose proof (sumZ_nn _ H2). lia.
Qed.

(** C54 *)
Lemma constrained_claim freq r k : frequencies freq -> variate r -> 0 < sumZ freq -> 0 < k ->
  let allowed := sumZ (firstn (Z.to_nat k) freq) in
  (allowed = 0 -> ddwr_constrained (ddwr_new freq) r k = Ok (None, ddwr_new freq)) /\
  (0 < allowed -> exists j, ddwr_constrained (ddwr_new freq) r k = Ok (Some (Z.of_nat j), ddwr_new (less freq j)) /\
     Z.of_nat j < k /\ (j < length freq)%nat /\ 0 < nth j freq 0).
Proof.
  intros Hf Hr Hs Hk allowed. pose proof Hf as [Hn Hb]. rewrite (new_ok freq) by auto. unfold ddwr_constrained. cbn [dd_sum dd_freq].
  destruct (Z.eqb_spec (sumZ freq) 0); [lia|]. set (k' := Z.min (Z.of_nat (length freq)) k).
  assert (firstn (Z.to_nat k') freq = firstn (Z.to_nat k) freq) as Ef.
  { destruct (Z.le_gt_cases (Z.of_nat (length freq)) k) as [H|H]; unfold k'.
    - rewrite Z.min_l by auto. rewrite Nat2Z.id, firstn_all, firstn_all2 by lia. reflexivity.
    - rewrite Z.min_r by lia. reflexivity. }
  rewrite Ef. destruct (sumZ_firstn freq (Z.to_nat k) Hn) as [Hle Hnn]. fold allowed in Hle. rewrite acc_ok by (split; [auto|fold allowed; lia]). fold allowed.
  destruct freq as [|x rest]; [cbn in Hs; lia|]. inversion Hn; subst. assert (1 <= k' <= Z.of_nat (length (x :: rest))) as Hk' by (unfold k'; cbn [length]; lia).
  cbn [length] in Hk'. change (sumZ (x :: rest)) with (x + sumZ rest) in *. split; intros Ha.
  - rewrite Ha, scale_zero by auto. cbn [bind].
    assert (Forall (fun x => x = 0) (firstn (Z.to_nat k') (x :: rest))) as Hz.
    { rewrite Ef. apply Forall_forall. intros y Hy. apply In_nth with (d := 0) in Hy as (i & Hi & <-). now apply sum_zero_nth. }
    replace (Z.to_nat k') with (S (Z.to_nat (k' - 0 - 1))) in Hz by lia. cbn [firstn] in Hz. inversion Hz; subst.
    assert (k' <= 0 + Z.of_nat (length rest)) as Hkr.
    { destruct (Z.le_gt_cases k' (0 + Z.of_nat (length rest))) as [|Hgt]; auto. exfalso.
      replace (Z.to_nat (k' - 0 - 1)) with (length rest) in * by lia. rewrite firstn_all in *.
      assert (forall l, Forall (fun x => x = 0) l -> sumZ l = 0) as H0.
      { intros l Hl. induction Hl as [|y l Hy _ IH]; auto. change (sumZ (y :: l)) with (y + sumZ l). lia. }
      rewrite (H0 rest) in Hs by auto. lia. }
    rewrite csearch_none; auto; lia.
  - destruct (scale_ok r allowed Hr ltac:(lia)) as (v & -> & Hv). cbn [bind].
    destruct (csearch_ok rest v 0 0 x k') as (j & E & Hj & Hp); auto; try lia.
    { rewrite Z.sub_0_r, Ef. fold allowed. lia. }
    rewrite Z.add_0_l in E. rewrite E. cbn [bind]. rewrite Z.add_0_l in *.
    destruct (take_ok (x :: rest) j Hf ltac:(cbn [length]; lia) Hp) as (Et & Hf' & _).
    change (x + sumZ rest) with (sumZ (x :: rest)). rewrite Et. cbn [bind]. exists j. rewrite new_ok by auto. split; [reflexivity|]. split; [unfold k' in Hj; lia|]. split; [cbn [length]; lia|auto].
Qed.

Lemma forbidden_claim freq r : frequencies freq -> variate r -> 0 < nth 0 freq 0 ->
  exists d, ddwr_constrained (ddwr_new freq) r 0 = Ok (Some 0, d).
Proof.
  intros Hf Hr Hp. pose proof Hf as [Hn Hb]. rewrite (new_ok freq) by auto. destruct freq as [|x rest]; [cbn in Hp; lia|]. cbn [nth] in Hp.
  inversion Hn; subst. pose proof (sumZ_nn rest H2). unfold ddwr_constrained. cbn [dd_sum dd_freq].
  destruct (Z.eqb_spec (sumZ (x :: rest)) 0) as [E|_]; [change (sumZ (x :: rest)) with (x + sumZ rest) in E; lia|].
  rewrite Z.min_r by lia. change (Z.to_nat 0) with 0%nat. cbn [firstn]. change (acc_u32 []) with 0. rewrite scale_zero by auto. cbn [bind].
  assert (dd_csearch 0 0 x 0 rest = Ok (Some 0)) as ->.
  { destruct rest; cbn [dd_csearch]; (destruct (Z.leb_spec x 0); [lia|reflexivity]). }
  cbn [bind]. destruct (take_ok (x :: rest) 0 Hf ltac:(cbn [length]; lia) Hp) as (Et & _). change (Z.of_nat 0) with 0 in Et. rewrite Et. cbn [bind]. eauto.
Qed.
