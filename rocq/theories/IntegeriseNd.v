(** Integerising arrays of two or more dimensions. *)
From Coq Require Import ZArith Reals Lra Lia List Bool Psatz.
From Flocq Require Import Core.Core IEEE754.BinarySingleNaN.
From Verif Require Import Base Spec SpecFacts NDArray Float64 FloatProofs FloatExt RealSpec IndexProofs ArrayOps ArrayProofs Bind BindProofs
  Micro Stat Qis SynthSpec MicroProofs SplitProofs QisProofs StatProofs QisClaims IpfSpec MicroDbl Qisi QisiProofs QisiClaims
  Integerise IntegeriseSpec IntegeriseProofs IntegeriseDbl IntegeriseClaims IntegeriseRound.
Open Scope R_scope.

(** * Sums *)

(** sums whose exact value is far below the largest double do not overflow *)
Lemma fold_finite l : forall acc T k, Forall nonneg_fin l -> nonneg_fin acc -> (0 <= k)%Z ->
  2 * IZR (k + Z.of_nat (length l)) * ulpr <= 1 -> 0 <= T -> Rabs (B2R acc - T) <= 2 * IZR k * ulpr * T ->
  T + sumR (map B2R l) <= p2 1000 -> is_finite (fold_left d_add l acc) = true.
Proof.
  induction l as [|x l IH]; intros acc T k Hl Ha Hk Hn HT He Hb; cbn [fold_left]; [apply Ha|].
  inversion Hl as [|? ? Hx Hl']; subst. cbn [map sumR fold_right] in Hb. fold (sumR (map B2R l)) in Hb.
  assert (0 <= sumR (map B2R l)) as Hs0 by (apply sumR_nonneg, nonneg_B2R; auto).
  destruct Ha as [Fa Pa]. destruct Hx as [Fx Px]. pose proof ulpr_pos as Hu.
  assert (0 <= IZR k) as Hk0 by now apply IZR_le.
  cbn [length] in Hn. rewrite Nat2Z.inj_succ in Hn. replace (k + Z.succ (Z.of_nat (length l)))%Z with (k + 1 + Z.of_nat (length l))%Z in Hn by lia.
  assert (2 * IZR k * ulpr <= 1) as Hk1.
  { eapply Rle_trans; [|exact Hn]. apply Rmult_le_compat_r; [lra|]. apply Rmult_le_compat_l; [lra|]. apply IZR_le. lia. }
  assert (B2R acc <= T + T) as HA.
  { apply Rle_trans with (T + Rabs (B2R acc - T)); [pose proof (Rle_abs (B2R acc - T)); lra|].
    assert (2 * IZR k * ulpr * T <= 1 * T) by (apply Rmult_le_compat_r; lra). lra. }
  assert (is_finite (d_add acc x) = true) as Hf1.
  { assert (fin (d_add acc x) (RN (B2R acc + B2R x))) as [? _]; auto. apply d_add_round; try now apply fin_B2R.
    rewrite Rabs_pos_eq by (apply RN_nonneg; lra). apply Rle_lt_trans with (p2 1001); [|apply bpow_lt; lia].
    apply RN_le_repr; [apply repr_p2; lia|]. change 1001%Z with (1 + 1000)%Z. rewrite bpow_plus. change (p2 1) with 2. lra. }
  destruct (fold_sum_err [x] acc T k) as (_ & _ & H3); auto.
  - constructor; [now split|constructor].
  - now split.
  - eapply Rle_trans; [|exact Hn]. apply Rmult_le_compat_r; [lra|]. apply Rmult_le_compat_l; [lra|]. apply IZR_le. cbn [length]. lia.
  - cbn [fold_left map sumR fold_right length] in H3. rewrite Rplus_0_r in H3.
    apply (IH (d_add acc x) (T + B2R x) (k + 1)%Z); auto; try lra; try lia.
    destruct (d_add_fin acc x _ _ (fin_B2R _ Fa) (fin_B2R _ Fx) Hf1) as [F V]. split; auto. rewrite V. apply RN_nonneg. lra.
Qed.

Lemma sum_finite l : Forall nonneg_fin l -> (Z.of_nat (length l) <= 2 ^ 52)%Z -> sumR (map B2R l) <= p2 1000 ->
  is_finite (fold_left d_add l d_zero) = true.
Proof.
  intros Hl Hn Hb. apply (fold_finite l d_zero 0 0%Z); auto; try lia; try lra.
  - split; [reflexivity|simpl; lra].
  - rewrite Z.add_0_l. apply IZR_le in Hn. rewrite IZR_p2 in Hn by lia.
    replace 1 with (2 * p2 52 * ulpr); [apply Rmult_le_compat_r; [apply bpow_ge_0|lra]|].
    rewrite Rmult_assoc, <- bpow_plus. change (52 + -53)%Z with (-1)%Z. change (p2 (-1)) with (/ 2). lra.
  - change (B2R d_zero) with 0. rewrite Rminus_0_r, Rabs_R0. lra.
Qed.

Lemma filter_len {A} (p : A -> bool) l : (length (filter p l) <= length l)%nat.
Proof. induction l; simpl; auto. destruct (p a); simpl; lia. Qed.

Lemma sumR_partition {A} (h : A -> Z) (f : A -> R) n l : (forall i, In i l -> 0 <= h i < n)%Z ->
  sumR (map (fun k => sumR (map f (filter (fun i => h i =? k)%Z l))) (zrange n)) = sumR (map f l).
Proof.
  induction l as [|i l IH]; intros Hr.
  - cbn [filter map sumR fold_right]. induction (zrange n); simpl; auto. lra.
  - cbn [map sumR fold_right]. fold (sumR (map f l)). rewrite <- IH by (intros; apply Hr; now right).
    transitivity (sumR (map (fun k => (if (h i =? k)%Z then f i else 0) + sumR (map f (filter (fun i => h i =? k)%Z l))) (zrange n))).
    + apply sumR_ext. intros k _. cbn [filter]. destruct (h i =? k)%Z; simpl; lra.
    + rewrite sumR_plus. f_equal.
      assert (forall ks, NoDup ks -> sumR (map (fun k => if (h i =? k)%Z then f i else 0) ks) = if in_dec Z.eq_dec (h i) ks then f i else 0) as H.
      { induction ks as [|k ks IHk]; intros Hnd; [reflexivity|]. inversion Hnd as [|? ? Hni Hnd']; subst.
        cbn [map sumR fold_right]. fold (sumR (map (fun k => if (h i =? k)%Z then f i else 0) ks)). rewrite IHk by auto.
        destruct (Z.eqb_spec (h i) k) as [E|E].
        - subst k. destruct (in_dec Z.eq_dec (h i) ks); [tauto|]. destruct (in_dec Z.eq_dec (h i) (h i :: ks)) as [|N]; [lra|exfalso; apply N; now left].
        - destruct (in_dec Z.eq_dec (h i) ks) as [Y|N]; destruct (in_dec Z.eq_dec (h i) (k :: ks)) as [Y'|N']; try lra; exfalso.
          + apply N'. now right.
          + destruct Y' as [Y'|Y']; [now apply E|now apply N]. }
      rewrite H by apply NoDup_zrange. destruct (in_dec Z.eq_dec (h i) (zrange n)) as [|N]; auto. exfalso. apply N. apply in_zrange. apply Hr. now left.
Qed.

(** * Rounding the 1-d sums *)

Lemma round_loop g (m : Z -> Z) l : forall k pre rest, length pre = Z.to_nat k -> (0 <= k)%Z -> length rest = length l ->
  (exists e, foldM (fun '(i, x) d => let* v := checked_round x in vec_set d i (Some v)) (numbered k (map g l)) (map Some pre ++ rest) = Throw e /\ exists j, In j l /\ checked_round (g j) = Throw e) \/
  (exists w, foldM (fun '(i, x) d => let* v := checked_round x in vec_set d i (Some v)) (numbered k (map g l)) (map Some pre ++ rest) = UB w /\ exists j, In j l /\ checked_round (g j) = UB w) \/
  (foldM (fun '(i, x) d => let* v := checked_round x in vec_set d i (Some v)) (numbered k (map g l)) (map Some pre ++ rest) = Diverge /\ exists j, In j l /\ checked_round (g j) = Diverge) \/
  ((forall j, In j l -> exists z, checked_round (g j) = Ok z) /\
   ((forall j, In j l -> checked_round (g j) = Ok (m j)) ->
    foldM (fun '(i, x) d => let* v := checked_round x in vec_set d i (Some v)) (numbered k (map g l)) (map Some pre ++ rest) = Ok (map Some (pre ++ map m l)))).
Proof.
  induction l as [|j l IH]; intros k pre rest Hp Hk Hr; cbn [map numbered foldM].
  - right. right. right. split; [intros j []|]. intros _. destruct rest; [|discriminate]. now rewrite !app_nil_r.
  - destruct rest as [|y rest]; [discriminate|]. cbn [length] in Hr.
    destruct (checked_round (g j)) as [v|e|w|] eqn:E; cbn [bind].
    2:{ left. exists e. split; auto. exists j. split; [now left|auto]. }
    2:{ right. left. exists w. split; auto. exists j. split; [now left|auto]. }
    2:{ right. right. left. split; auto. exists j. split; [now left|auto]. }
    rewrite vec_set_ok by (rewrite app_length, map_length; cbn [length]; lia). cbn [bind].
    assert (upd (map Some pre ++ y :: rest) (Z.to_nat k) (Some v) = map Some (pre ++ [v]) ++ rest) as ->.
    { rewrite <- Hp. clear. induction pre as [|z pre IH]; cbn [map app length upd]; auto. now rewrite IH. }
    destruct (IH (k + 1)%Z (pre ++ [v]) rest) as [(e & H1 & i & H2 & H3)|[(w & H1 & i & H2 & H3)|[(H1 & i & H2 & H3)|(H1 & H2)]]].
    + rewrite app_length. cbn [length]. lia.
    + lia.
    + lia.
    + left. exists e. split; auto. exists i. split; [now right|auto].
    + right. left. exists w. split; auto. exists i. split; [now right|auto].
    + right. right. left. split; auto. exists i. split; [now right|auto].
    + right. right. right. split.
      * intros i [->|Hi]; eauto.
      * intros H. rewrite H2 by (intros; apply H; now right). rewrite <- app_assoc. cbn [app].
        assert (v = m j) as -> by (rewrite (H j) in E by (now left); congruence). reflexivity.
Qed.

Lemma round_marginal_cases g m n : fits [n] -> (forall k z, 0 <= k < n -> checked_round (g k) = Ok z -> m k = z)%Z ->
  (forall k, (0 <= k < n)%Z -> (exists z, checked_round (g k) = Ok z) \/ exists e, checked_round (g k) = Throw e) ->
  (exists e, round_marginal (map g (zrange n)) = Throw e /\ exists k, (0 <= k < n)%Z /\ checked_round (g k) = Throw e) \/
  ((forall k, 0 <= k < n -> checked_round (g k) = Ok (m k))%Z /\ round_marginal (map g (zrange n)) = Ok (mk [n] (fun i => m (nth 0 i 0%Z)))).
Proof.
  intros Hf Hm Hc. unfold round_marginal. assert (0 < n < 2 ^ 60)%Z as Hn by (destruct (fits_prod _ Hf); cbn [prodZ] in *; lia).
  assert (length (zrange n) = Z.to_nat n) as Hlz by (unfold zrange; now rewrite map_length, seq_length).
  rewrite map_length, Hlz, Z2Nat.id by lia. rewrite nd_new_ok by auto. cbn [bind nd_data mkp nd_sizes nd_offs nd_storage].
  destruct (round_loop g m (zrange n) 0%Z [] (map (fun _ : list Z => @None Z) (all_indices [n]))) as [(e & H1 & i & H2 & H3)|[(w & H1 & i & H2 & H3)|[(H1 & i & H2 & H3)|(H1 & H2)]]].
  - reflexivity.
  - lia.
  - rewrite map_length, all_indices_1, map_length. reflexivity.
  - left. cbn [map app] in H1. rewrite H1. cbn [bind]. apply in_zrange in H2. eauto.
  - exfalso. apply in_zrange in H2. destruct (Hc i H2) as [(z & E)|(e & E)]; congruence.
  - exfalso. apply in_zrange in H2. destruct (Hc i H2) as [(z & E)|(e & E)]; congruence.
  - right. assert (forall k, 0 <= k < n -> checked_round (g k) = Ok (m k))%Z as Hall.
    { intros k Hk. destruct (H1 k) as [z E]; [now apply in_zrange|]. rewrite E. f_equal. symmetry. now apply Hm. }
    split; auto. cbn [map app] in H2. rewrite H2 by (intros j Hj; apply in_zrange in Hj; auto). cbn [bind].
    unfold mk, mkp. rewrite all_indices_1, !map_map. reflexivity.
Qed.

(** * The array case *)

(** what the theorems cover: at least two dimensions, at most 2^40 non-negative cells with a total below 2^50 *)
Definition nd_range (a : ndarray double) : Prop :=
  wf_array a /\ (2 <= length (shape a))%nat /\ (prodZ (shape a) <= 2 ^ 40)%Z /\ Forall nonneg_fin (flat a) /\
  sumR (map B2R (flat a)) < IZR (2 ^ 50) /\ (Z.of_nat (length (shape a)) < 2 ^ 31)%Z.

Section Array.
Variable (a : ndarray double).
Hypothesis Ha : nd_range a.
Let sizes := shape a.
Let dim := Z.of_nat (length sizes).
Let ext (d : Z) : Z := nth (Z.to_nat d) sizes 0%Z.
Let T := sumR (map B2R (flat a)).

Lemma a_fits : fits sizes.
Proof. destruct Ha as (Hw & _ & Hp & _). apply (wf_fits a); auto. lia. Qed.

Lemma a_flat : map (entry d_zero a) (all_indices sizes) = flat a.
Proof. apply map_entry. apply Ha. Qed.

Lemma a_entry i : In i (all_indices sizes) -> nonneg_fin (entry d_zero a i).
Proof.
  intros Hi. destruct Ha as (_ & _ & _ & Hn & _). rewrite Forall_forall in Hn. apply Hn. rewrite <- a_flat. now apply in_map.
Qed.

Lemma ext_pos d : (0 <= d < dim)%Z -> (0 < ext d <= prodZ sizes)%Z.
Proof.
  intros Hd. pose proof a_fits as (_ & Hpos & _). unfold ext, dim in *. assert (Z.to_nat d < length sizes)%nat as Hn by lia.
  revert Hn. generalize (Z.to_nat d). clear -Hpos. induction Hpos as [|n ns Hn Hns IH]; intros k Hk; [simpl in Hk; lia|].
  cbn [prodZ]. assert (0 < prodZ ns)%Z as Hp.
  { clear -Hns. induction Hns; cbn [prodZ]; [lia|]. nia. }
  destruct k as [|k]; cbn [nth]; [nia|]. specialize (IH k ltac:(simpl in Hk; lia)). nia.
Qed.

Lemma ext_fits d : (0 <= d < dim)%Z -> fits [ext d].
Proof.
  intros Hd. pose proof (ext_pos d Hd). pose proof a_fits as (_ & _ & Hb). split; [discriminate|]. split; [repeat constructor; lia|]. cbn [prodZ]. lia.
Qed.

Lemma flat_len : Z.of_nat (length (flat a)) = prodZ sizes.
Proof. destruct Ha as ((_ & _ & H) & _). exact H. Qed.

(** the cells of a slice *)
Let cells (d k : Z) : list double := map (entry d_zero a) (filter (fun i => nth (Z.to_nat d) i 0 =? k)%Z (all_indices sizes)).

Lemma cells_ok d k : Forall nonneg_fin (cells d k) /\ (length (cells d k) <= length (flat a))%nat /\ 0 <= sumR (map B2R (cells d k)) <= T.
Proof.
  assert (Forall nonneg_fin (cells d k)) as Hn.
  { apply Forall_forall. intros x Hx. apply in_map_iff in Hx as (i & <- & Hi). apply filter_In in Hi as [Hi _]. now apply a_entry. }
  split; auto. split.
  - unfold cells. rewrite map_length. rewrite <- a_flat, map_length. apply filter_len.
  - split; [apply sumR_nonneg, nonneg_B2R; auto|]. unfold T, cells. rewrite <- a_flat, !map_map.
    pose proof a_entry as He. revert He. generalize (all_indices sizes) as l. intros l He.
    induction l as [|i l IH]; cbn [filter map sumR fold_right]; [lra|].
    assert (0 <= B2R (entry d_zero a i)) by (apply He; now left). specialize (IH ltac:(intros; apply He; now right)).
    destruct (nth (Z.to_nat d) i 0 =? k)%Z; cbn [map sumR fold_right]; unfold sumR in *; lra.
Qed.

Lemma small_T : T <= p2 1000.
Proof.
  destruct Ha as (_ & _ & _ & _ & HT & _). fold T in HT. rewrite IZR_p2 in HT by lia. apply Rle_trans with (p2 50); [lra|]. apply bpow_le. lia.
Qed.

Lemma slice_facts d k : let S := B2R (slice_sum a d k) in
  is_finite (slice_sum a d k) = true /\ 0 <= S /\
  Rabs (S - sumR (map B2R (cells d k))) <= 2 * IZR (prodZ sizes) * ulpr * sumR (map B2R (cells d k)) /\ S <= 2 * sumR (map B2R (cells d k)).
Proof.
  destruct (cells_ok d k) as (Hn & Hl & H0 & HT). pose proof flat_len as Hfl. destruct Ha as (_ & _ & Hp & _).
  assert (is_finite (slice_sum a d k) = true) as Hf.
  { apply (sum_finite (cells d k)); auto; [fold sizes in Hp; lia|]. pose proof small_T. lra. }
  destruct (sum_err (cells d k) Hn Hf ltac:(fold sizes in Hp; lia)) as (S0 & _ & He). split; auto. split; auto.
  assert (Rabs (B2R (slice_sum a d k) - sumR (map B2R (cells d k))) <= 2 * IZR (prodZ sizes) * ulpr * sumR (map B2R (cells d k))) as He'.
  { eapply Rle_trans; [exact He|]. apply Rmult_le_compat_r; auto. apply Rmult_le_compat_r; [apply bpow_ge_0|].
    apply Rmult_le_compat_l; [lra|]. apply IZR_le. lia. }
  split; auto.
  assert (2 * IZR (prodZ sizes) * ulpr <= 1) as H1.
  { apply Rle_trans with (p2 (-12)); [|apply Rle_trans with (p2 0); [apply bpow_le; lia|simpl; lra]]. apply (p2_prod_le 2 _ 1 40); try lia.
    fold sizes in Hp. pose proof (fits_prod _ a_fits). lia. }
  assert (2 * IZR (prodZ sizes) * ulpr * sumR (map B2R (cells d k)) <= 1 * sumR (map B2R (cells d k))) by (apply Rmult_le_compat_r; auto).
  pose proof (Rle_abs (B2R (slice_sum a d k) - sumR (map B2R (cells d k)))). lra.
Qed.

Lemma total_facts : let S := B2R (array_sum a) in is_finite (array_sum a) = true /\ 0 <= S /\
  Rabs (S - T) <= 2 * IZR (prodZ sizes) * ulpr * T /\ S <= 2 * T.
Proof.
  destruct Ha as (_ & _ & Hp & Hn & HT & _). pose proof flat_len as Hfl. fold sizes in Hp.
  assert (is_finite (array_sum a) = true) as Hf by (apply sum_finite; auto; [lia|apply small_T]).
  destruct (sum_err (flat a) Hn Hf ltac:(lia)) as (S0 & _ & He). rewrite Hfl in He. fold T in He. fold (array_sum a) in He, S0. split; auto. split; auto. split; auto.
  assert (2 * IZR (prodZ sizes) * ulpr <= 1) as H1.
  { apply Rle_trans with (p2 (-12)); [|apply Rle_trans with (p2 0); [apply bpow_le; lia|simpl; lra]]. apply (p2_prod_le 2 _ 1 40); lia. }
  assert (0 <= T) as HT0 by (apply sumR_nonneg, nonneg_B2R; auto).
  assert (2 * IZR (prodZ sizes) * ulpr * T <= 1 * T) by (apply Rmult_le_compat_r; auto).
  pose proof (Rle_abs (B2R (array_sum a) - T)). lra.
Qed.

Lemma T_small : 0 <= T < p2 50.
Proof.
  destruct Ha as (_ & _ & _ & Hn & HT & _). fold T in HT. rewrite IZR_p2 in HT by lia. split; auto. apply sumR_nonneg, nonneg_B2R; auto.
Qed.

Lemma checked_round_total x : is_finite x = true -> 0 <= B2R x <= p2 52 -> (exists z, checked_round x = Ok z) \/ exists e, checked_round x = Throw e.
Proof.
  intros Hf Hb. unfold checked_round. destruct (d_ltb _ _); [right; eauto|left].
  pose proof (d_round_val x _ (fin_B2R _ Hf)) as Hr. exists (ZnearestA (B2R x)). rewrite (d_to_i64_ok _ _ Hr); rewrite Ztrunc_IZR; auto.
  pose proof (Znearest_half (Z.leb 0) (B2R x)) as Hh. apply Rabs_le_inv in Hh.
  assert (-1 < IZR (ZnearestA (B2R x)) < p2 53) as Hz.
  { assert (p2 53 = 2 * p2 52) as -> by (change 53%Z with (1 + 52)%Z; rewrite bpow_plus; reflexivity). assert (1 <= p2 52) by (apply (bpow_le radix2 0 52); lia). lra. }
  rewrite <- IZR_p2 in Hz by lia. destruct Hz as [Z1 Z2]. apply (lt_IZR (-1)) in Z1. apply lt_IZR in Z2. lia.
Qed.

(** the rounded sums *)
Let m (d k : Z) : Z := match checked_round (slice_sum a d k) with Ok z => z | _ => 0%Z end.
Let cs : list con := map (fun d => CON [d] [ext d] (fun i => m d (nth 0 i 0%Z))) (zrange dim).

Lemma slice_round d k : (exists z, checked_round (slice_sum a d k) = Ok z) \/ exists e, checked_round (slice_sum a d k) = Throw e.
Proof.
  destruct (slice_facts d k) as (F & S0 & _ & S2). apply checked_round_total; auto. split; auto.
  destruct (cells_ok d k) as (_ & _ & _ & HT). pose proof T_small. assert (p2 52 = 4 * p2 50) as -> by (change 52%Z with (2 + 50)%Z; rewrite bpow_plus; reflexivity). lra.
Qed.

Lemma marginals_cases :
  let margs := mapM (fun d => let* mf := reduce1 DblOps (mk sizes (entry d_zero a)) d in round_marginal mf) (zrange dim) in
  (exists e, margs = Throw e /\ exists d k, (0 <= d < dim)%Z /\ (0 <= k < ext d)%Z /\ checked_round (slice_sum a d k) = Throw e) \/
  (margs = Ok (map nd_of cs) /\ forall d k, (0 <= d < dim)%Z -> (0 <= k < ext d)%Z -> checked_round (slice_sum a d k) = Ok (m d k)).
Proof.
  cbv zeta. assert (forall l, (forall d, In d l -> 0 <= d < dim)%Z ->
    (exists e, mapM (fun d => let* mf := reduce1 DblOps (mk sizes (entry d_zero a)) d in round_marginal mf) l = Throw e /\
       exists d k, In d l /\ (0 <= k < ext d)%Z /\ checked_round (slice_sum a d k) = Throw e) \/
    (mapM (fun d => let* mf := reduce1 DblOps (mk sizes (entry d_zero a)) d in round_marginal mf) l = Ok (map nd_of (map (fun d => CON [d] [ext d] (fun i => m d (nth 0 i 0%Z))) l)) /\
     forall d k, In d l -> (0 <= k < ext d)%Z -> checked_round (slice_sum a d k) = Ok (m d k))) as H.
  { induction l as [|d l IH]; intros Hl; [right; split; [reflexivity|intros ? ? []]|]. cbn [mapM map].
    pose proof (Hl d ltac:(now left)) as Hd. specialize (IH ltac:(intros; apply Hl; now right)).
    assert (dim < 2 ^ 31)%Z as Hdim by apply Ha.
    rewrite (reduce1_mk DblOps sizes (entry d_zero a) d (slice_sum a d) a_fits) by
      (try (fold dim; lia); intros k _; rewrite (vec_sum_add DblOps d_add) by auto; reflexivity).
    cbn [bind]. fold (ext d).
    destruct (round_marginal_cases (slice_sum a d) (m d) (ext d) (ext_fits d Hd)) as [(e & E & k & Hk & Ek)|(Hall & E)].
    - intros k z _ E. unfold m. now rewrite E.
    - intros k _. apply slice_round.
    - left. rewrite E. cbn [bind]. exists e. split; auto. exists d, k. split; [now left|auto].
    - rewrite E. cbn [bind]. destruct IH as [(e & E' & d' & k & Hd' & Hk)|(E' & Hr)]; rewrite E'; cbn [bind]; [left; exists e; split; auto; exists d', k; split; [now right|auto]|right].
      split; [reflexivity|]. intros d' k [<-|Hd'] Hk; auto. }
  destruct (H (zrange dim)) as [(e & E & d & k & Hd & Hk)|(E & Hr)]; [intros d Hd; now apply in_zrange|left; exists e; split; auto; exists d, k; split; [now apply in_zrange|auto]|right]. split; auto.
  intros d k Hd. apply Hr. now apply in_zrange.
Qed.

Lemma m_bounds d k : (0 <= m d k)%Z /\ IZR (m d k) <= 2 * sumR (map B2R (cells d k)) + 1.
Proof.
  destruct (slice_facts d k) as (F & S0 & _ & S2). unfold m. destruct (checked_round (slice_sum a d k)) as [z|e|w|] eqn:E; cbn [nth].
  2,3,4: split; [lia|]; destruct (cells_ok d k) as (_ & _ & H0 & _); lra.
  apply checked_round_inv in E as (r & [_ V] & Ez & Hz). rewrite <- V in Hz, Ez. apply Rabs_le_inv in Hz. split; [|lra].
  assert (-1 < IZR z) as H by lra. apply (lt_IZR (-1)) in H. lia.
Qed.

Lemma cells_sum d : (0 <= d < dim)%Z -> sumR (map (fun k => sumR (map B2R (cells d k))) (zrange (ext d))) = T.
Proof.
  intros Hd. unfold T. rewrite <- a_flat, map_map. rewrite <- (sumR_partition (fun i => nth (Z.to_nat d) i 0%Z) (fun x => B2R (entry d_zero a x)) (ext d)).
  - apply sumR_ext. intros k _. unfold cells. now rewrite map_map.
  - intros i Hi. apply in_all_indices in Hi. apply index_in_nth in Hi as [Hl Hi]. unfold ext. fold sizes. apply Hi. unfold dim in Hd. lia.
Qed.

Lemma c_total_m d : c_total (CON [d] [ext d] (fun i => m d (nth 0 i 0%Z))) = sumZ (map (m d) (zrange (ext d))).
Proof. unfold c_total, total. cbn [c_sizes c_at]. rewrite all_indices_1, map_map. reflexivity. Qed.

Lemma m_total d : (0 <= d < dim)%Z -> (0 <= sumZ (map (m d) (zrange (ext d))) < 2 ^ 52)%Z.
Proof.
  intros Hd. split; [apply sumZ_nonneg; intros x Hx; apply in_map_iff in Hx as (k & <- & _); apply m_bounds|].
  apply lt_IZR. rewrite <- sumR_IZR.
  apply Rle_lt_trans with (sumR (map (fun k => 2 * sumR (map B2R (cells d k)) + 1) (zrange (ext d)))); [apply sumR_le; intros; apply m_bounds|].
  rewrite sumR_plus.
  rewrite sumR_mult, cells_sum by auto.
  assert (sumR (map (fun _ : Z => 1) (zrange (ext d))) = IZR (ext d)) as ->.
  { rewrite (sumR_IZR (fun _ => 1%Z)), sumZ_map_const.
    f_equal. rewrite length_zrange. pose proof (ext_pos d Hd). lia. }
  pose proof (ext_pos d Hd) as He. destruct Ha as (_ & _ & Hp & _). fold sizes in Hp.
  assert (IZR (ext d) <= IZR (2 ^ 40)) as H1 by (apply IZR_le; lia). pose proof T_small as H2. rewrite IZR_p2 in * by lia.
  assert (p2 40 <= p2 50) by (apply bpow_le; lia).
  assert (p2 52 = 4 * p2 50) as -> by (change 52%Z with (2 + 50)%Z; rewrite bpow_plus; reflexivity). lra.
Qed.

Lemma cs_in c : In c cs <-> exists d, (0 <= d < dim)%Z /\ c = CON [d] [ext d] (fun i => m d (nth 0 i 0%Z)).
Proof.
  unfold cs. rewrite in_map_iff. split.
  - intros (d & <- & Hd). exists d. split; auto. now apply in_zrange.
  - intros (d & Hd & ->). exists d. split; auto. now apply in_zrange.
Qed.

Lemma cs_small c : In c cs -> csmall c.
Proof.
  intros Hc. apply cs_in in Hc as (d & Hd & ->). split; [now apply ext_fits|]. split; [simpl; lia|].
  pose proof (m_total d Hd) as Hm. rewrite <- (c_total_m d) in Hm. unfold c_total in Hm. cbn [c_sizes c_at] in *.
  unfold total in *. rewrite (sumZ_map_ext _ (fun i => m d (nth 0 i 0%Z))); [lia|]. intros i _. apply Z.abs_eq. apply m_bounds.
Qed.

Lemma cs_implied : implied cs sizes.
Proof.
  split.
  - intros d. split.
    + intros (c & Hc & Hd). apply cs_in in Hc as (d' & Hd' & ->). destruct Hd as [<-|[]]. exact Hd'.
    + intros Hd. exists (CON [d] [ext d] (fun i => m d (nth 0 i 0%Z))). split; [apply cs_in; eauto|now left].
  - intros c Hc. apply cs_in in Hc as (d & Hd & ->). split; reflexivity.
Qed.

Lemma nd_cases L fuel :
  match py_integerise L fuel a with
  | Ok (res, conv, rmse) => exists r, res = NDA sizes (map r (all_indices sizes)) /\ (forall i, index_in sizes i -> (0 <= r i)%Z) /\
      (forall d k, (0 <= d < dim)%Z -> (0 <= k < ext d)%Z -> checked_round (slice_sum a d k) = Ok (m d k)) /\
      (exists M, checked_round (array_sum a) = Ok M) /\
      (forall d, (0 <= d < dim)%Z -> total sizes r = sumZ (map (m d) (zrange (ext d)))) /\
      (conv = true <-> forall d k, (0 <= d < dim)%Z -> (0 <= k < ext d)%Z -> margin sizes [d] [k] r = m d k) /\
      rmse = array_rms res a
  | Throw _ => True
  | _ => (fuel < 32)%nat \/ (Z.of_nat fuel <= prodZ sizes)%Z
  end.
Proof.
  pose proof a_fits as Hf. pose proof (fits_prod _ Hf) as Hfp. destruct Ha as (Hw & Hd2 & Hp40 & _). fold sizes in Hd2, Hp40.
  unfold py_integerise. rewrite (as_nd_ok d_zero) by (auto; fold sizes; lia). cbn [bind]. fold sizes.
  unfold integeriser_new. rewrite sizes_mk. rewrite nd_sum_dbl by auto. rewrite a_flat. fold (array_sum a). cbn [bind].
  destruct total_facts as (Fa & Sa & _ & Sa2). pose proof T_small as HT.
  destruct (checked_round_total (array_sum a) Fa) as [(M & EM)|(e & EM)]; rewrite ?EM; cbn [bind]; auto.
  { split; auto. assert (p2 52 = 4 * p2 50) as -> by (change 52%Z with (2 + 50)%Z; rewrite bpow_plus; reflexivity). lra. }
  fold dim. destruct (Z.eqb_spec dim 1) as [E1|N1]; [unfold dim in E1; lia|].
  destruct marginals_cases as [(e & E & _)|(E & Hrd)]; rewrite E; cbn [bind]; auto. clear E.
  replace (map (fun d : Z => [d]) (zrange dim)) with (map c_dims cs) by (unfold cs; now rewrite map_map).
  pose proof (qisi_core_cases L fuel a cs 0 cs_small) as H.
  specialize (H ltac:(intros s Hs; rewrite (implied_unique cs s sizes Hs cs_implied); lia)).
  specialize (H ltac:(intros c Hc; apply cs_in in Hc as (d & Hd & ->); rewrite c_total_m; pose proof (m_total d Hd); lia)).
  specialize (H Hw ltac:(fold sizes; lia)). cbv zeta in H. fold sizes in H.
  unfold qisi_core in H. rewrite (as_nd_ok d_zero) in H by (auto; fold sizes; lia). fold sizes in H.
  assert (forall P : Prop, P -> ((~ ((forall c, In c cs -> proper (length sizes) (c_dims c)) /\ (prodZ sizes < Z.of_nat fuel)%Z)) -> (fuel < 32)%nat \/ (Z.of_nat fuel <= prodZ sizes)%Z)) as Hgood.
  { intros _ _ Hn. right. destruct (Z.lt_ge_cases (prodZ sizes) (Z.of_nat fuel)) as [Hlt|]; [|lia]. exfalso. apply Hn. split; auto.
    intros c Hc. apply cs_in in Hc as (d & Hd & ->). split; [repeat constructor; intros []|]. cbn [c_dims length]. lia. }
  specialize (Hgood True I).
  destruct (qisi_new fuel (map c_dims cs) (map nd_of cs) 0) as [q|e|w|]; cbn [bind] in H |- *; auto.
  2:{ destruct H as [H|[H|H]]; auto. vm_compute in H. discriminate. }
  destruct (qisi_solve L fuel q (map nd_of cs) (mk sizes (entry d_zero a))) as [[[st exn] [[c p] g]]|e|w|]; cbn [bind] in H |- *; auto.
  2:{ destruct H as [H|[H|H]]; auto. vm_compute in H. discriminate. }
  destruct H as (Hvc & _ & _ & Ht & Hpop & r & ex & Hc & Hcv & Ea & _). rewrite Ea, nd_copy_mk by auto. cbn [bind]. rewrite sizes_mk.
  rewrite index_loop_spec by apply Hf.
  rewrite (read_loop _ (fun i s => d_add s (d_mul (d_sub (d_ofZ (r i)) (entry d_zero a i)) (d_sub (d_ofZ (r i)) (entry d_zero a i))))).
  2:{ intros i s Hi. apply in_all_indices in Hi. now rewrite !nd_get_mk. }
  cbn [bind in_result in_conv in_rmse]. rewrite from_nd_mk by apply Hf. cbn [bind]. exists r. split; auto. split; [apply Hc|]. split; auto. split; [eauto|].
  split; [|split].
  - intros d Hd. destruct Hc as [_ ->]. rewrite <- c_total_m. symmetry. apply Ht. apply cs_in. eauto.
  - rewrite Hcv. rewrite (left_ok_meets cs sizes cs_implied r _ Hc Ht). split.
    + intros H d k Hd Hk. assert (In (CON [d] [ext d] (fun i => m d (nth 0 i 0%Z))) cs) as Hin by (apply cs_in; eauto).
      specialize (H _ Hin [k]). cbn [c_sizes c_dims c_at nth] in H. apply H. repeat constructor; lia.
    + intros H c' Hc' k Hk. apply cs_in in Hc' as (d & Hd & ->). cbn [c_sizes c_dims c_at] in *.
      inversion Hk as [|k0 ? ? ? ? Hk2]; subst. inversion Hk2; subst. cbn [nth]. apply H; auto.
  - unfold array_rms. cbn [flat]. rewrite flat_len. rewrite <- a_flat. fold sizes.
    assert (forall l acc, fold_left (fun s i => d_add s (d_mul (d_sub (d_ofZ (r i)) (entry d_zero a i)) (d_sub (d_ofZ (r i)) (entry d_zero a i)))) l acc =
      fold_left (fun s '(k, x) => d_add s (d_mul (d_sub (d_ofZ k) x) (d_sub (d_ofZ k) x))) (combine (map r l) (map (entry d_zero a) l)) acc) as Hsum.
    { induction l as [|i l IH]; intros acc; cbn [fold_left map combine]; auto. }
    rewrite Hsum. reflexivity.
Qed.

(** the result keeps the rounded total if the rounding of the 1-d sums and of the additions cannot add up to one *)
Lemma total_close d r M : (0 <= d < dim)%Z -> (ext d <= 8192)%Z -> IZR (prodZ sizes) * T <= IZR (2 ^ 48) ->
  (forall k, (0 <= k < ext d)%Z -> checked_round (slice_sum a d k) = Ok (m d k)) -> checked_round (array_sum a) = Ok M ->
  total sizes r = sumZ (map (m d) (zrange (ext d))) -> total sizes r = M.
Proof.
  intros Hd He HNT Hrd EM Ht. destruct total_facts as (_ & _ & Ha2 & _). pose proof T_small as HT.
  assert (2 * IZR (prodZ sizes) * ulpr * T <= / 16) as HNu.
  { replace (2 * IZR (prodZ sizes) * ulpr * T) with (2 * ulpr * (IZR (prodZ sizes) * T)) by ring.
    apply Rle_trans with (2 * ulpr * IZR (2 ^ 48)); [apply Rmult_le_compat_l; auto; pose proof ulpr_pos; lra|].
    rewrite IZR_p2 by lia. rewrite Rmult_assoc. rewrite <- bpow_plus. change (-53 + 48)%Z with (-5)%Z. change (p2 (-5)) with (/ 32). lra. }
  apply checked_round_inv in EM as (ra & [_ Va] & _ & Hra). rewrite <- Va in Hra.
  assert (Rabs (sumR (map (fun k => IZR (m d k)) (zrange (ext d))) - sumR (map (fun k => sumR (map B2R (cells d k))) (zrange (ext d)))) <=
    2 * IZR (prodZ sizes) * ulpr * sumR (map (fun k => sumR (map B2R (cells d k))) (zrange (ext d))) + IZR (Z.of_nat (length (zrange (ext d)))) * / 9998) as Herr.
  { apply sumR_err. intros k Hk. apply in_zrange in Hk. destruct (slice_facts d k) as (_ & _ & H1 & _).
    destruct (checked_round_inv _ _ (Hrd k Hk)) as (rk & [_ Vk] & _ & Hrk). rewrite <- Vk in Hrk. apply Rabs_le_inv in H1. apply Rabs_le_inv in Hrk. apply Rabs_le. lra. }
  rewrite cells_sum, sumR_IZR, <- Ht in Herr by auto. rewrite length_zrange, Z2Nat.id in Herr by (pose proof (ext_pos d Hd); lia).
  apply IZR_le in He. apply Rabs_le_inv in Herr. apply Rabs_le_inv in Hra. apply Rabs_le_inv in Ha2.
  assert (-1 < IZR (total sizes r - M) < 1) as [H1 H2] by (rewrite minus_IZR; lra).
  apply (lt_IZR (-1)) in H1. apply (lt_IZR _ 1) in H2. lia.
Qed.
End Array.

(** * The claims *)

(** C22 *)
Lemma nd_conv_claim L fuel a res conv rmse : nd_range a -> py_integerise L fuel a = Ok (res, conv, rmse) ->
  shape res = shape a /\ wf_array res /\ (forall i, index_in (shape a) i -> 0 <= entry 0 res i)%Z /\ rmse = array_rms res a /\
  (conv = true <-> forall d k, (0 <= d < Z.of_nat (length (shape a)))%Z -> (0 <= k < nth (Z.to_nat d) (shape a) 0)%Z ->
     rounds_to (B2R (slice_sum a d k)) (margin (shape a) [d] [k] (entry 0%Z res))).
Proof.
  intros Ha E. pose proof (nd_cases a Ha L fuel) as H. rewrite E in H. pose proof (a_fits a Ha) as Hf.
  destruct H as (r & -> & Hr & Hrd & _ & _ & Hcv & ->). cbn [shape]. split; auto. split; [apply wf_NDA_map; apply Hf|]. split; [intros i Hi; rewrite entry_NDA_map; auto|]. split; auto.
  rewrite Hcv. split; intros H d k Hd Hk; specialize (H d k Hd Hk); specialize (Hrd d k Hd Hk).
  - rewrite margin_NDA, H. destruct (checked_round_inv _ _ Hrd) as (x & [_ V] & _ & Hx). rewrite <- V in Hx. unfold rounds_to. lra.
  - rewrite margin_NDA in H. destruct (checked_round_inv _ _ Hrd) as (x & [_ V] & _ & Hx). rewrite <- V in Hx. unfold rounds_to in H.
    apply Rabs_lt_inv in H. apply Rabs_le_inv in Hx.
    match goal with |- ?x = ?y => assert (-1 < IZR (x - y) < 1) as [H1 H2] by (rewrite minus_IZR; lra) end.
    apply (lt_IZR (-1)) in H1. apply (lt_IZR _ 1) in H2. lia.
Qed.

Lemma nd_total_claim L fuel a res conv rmse : nd_range a -> py_integerise L fuel a = Ok (res, conv, rmse) ->
  (forall d, (0 <= d < Z.of_nat (length (shape a)))%Z -> exists m : Z -> Z,
     (forall k, (0 <= k < nth (Z.to_nat d) (shape a) 0)%Z -> rounds_to (B2R (slice_sum a d k)) (m k)) /\
     total (shape a) (entry 0%Z res) = sumZ (map m (zrange (nth (Z.to_nat d) (shape a) 0%Z)))) /\
  (forall d, (0 <= d < Z.of_nat (length (shape a)))%Z -> (nth (Z.to_nat d) (shape a) 0 <= 8192)%Z ->
     IZR (prodZ (shape a)) * sumR (map B2R (flat a)) <= IZR (2 ^ 48) -> rounds_to (B2R (array_sum a)) (total (shape a) (entry 0%Z res))).
Proof.
  intros Ha E. pose proof (nd_cases a Ha L fuel) as H. rewrite E in H.
  destruct H as (r & -> & Hr & Hrd & (M & EM) & Ht & _). rewrite total_NDA. split.
  - intros d Hd. eexists. split; [|exact (Ht d Hd)]. intros k Hk. specialize (Hrd d k Hd Hk).
    destruct (checked_round_inv _ _ Hrd) as (x & [_ V] & _ & Hx). rewrite <- V in Hx. unfold rounds_to. lra.
  - intros d Hd He HNT. rewrite (total_close a Ha d r M Hd He HNT (fun k Hk => Hrd d k Hd Hk) EM (Ht d Hd)).
    destruct (checked_round_inv _ _ EM) as (x & [_ V] & _ & Hx). rewrite <- V in Hx. unfold rounds_to. lra.
Qed.

Lemma nd_safe_claim L fuel a : nd_range a -> (32 <= fuel)%nat -> (prodZ (shape a) < Z.of_nat fuel)%Z ->
  (exists x, py_integerise L fuel a = Ok x) \/ exists e, py_integerise L fuel a = Throw e.
Proof.
  intros Ha H1 H2. pose proof (nd_cases a Ha L fuel) as H. destruct (py_integerise L fuel a) as [x|e|w|]; eauto; exfalso; lia.
Qed.
