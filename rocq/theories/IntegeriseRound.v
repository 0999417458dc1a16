(** checked_round, the one-dimensional case of Integeriser and prob2IntFreq. *)
From Coq Require Import ZArith Reals Lra Lia List Bool Psatz.
From Flocq Require Import Core.Core IEEE754.BinarySingleNaN.
From Verif Require Import Base Spec NDArray Float64 FloatProofs FloatExt RealSpec SpecFacts IndexProofs ArrayOps ArrayProofs Bind BindProofs MicroDbl Stat QisClaims
  Integerise IntegeriseSpec IntegeriseProofs IntegeriseDbl IntegeriseClaims.
Open Scope R_scope.

Lemma d_round_val x r : fin x r -> fin (d_round x) (IZR (ZnearestA r)).
Proof.
  intros [F <-]. destruct (Bnearbyint_correct 53 1024 Hemax mode_NA x) as (V & F' & _). split; [unfold d_round; now rewrite F'|].
  unfold d_round. rewrite V. unfold round, F2R, scaled_mantissa, cexp, FIX_exp. cbn [Fnum Fexp round_mode].
  change (p2 (-0)) with 1. change (p2 0) with 1. now rewrite !Rmult_1_r.
Qed.

Lemma p2_m26 : p2 (-26) = / 67108864. Proof. reflexivity. Qed.

Lemma tol_fin : exists t, fin round_tol t /\ t = RN (1 / 10000) /\ / 10100 <= t <= IZR 6711 * p2 (-26).
Proof.
  exists (RN (1 / 10000)). assert (RN (1 / 10000) <= IZR 6711 * p2 (-26)) as U.
  { apply RN_le_repr; [apply repr_dyadic; lia|]. rewrite p2_m26; lra. }
  assert (/ 10100 <= RN (1 / 10000)) as L.
  { apply Rle_trans with (IZR 6710 * p2 (-26)); [rewrite p2_m26; lra|]. apply RN_ge_repr; [apply repr_dyadic; lia|]. rewrite p2_m26; lra. }
  split; [|tauto]. apply (d_div_round d_one (d_ofZ 10000) 1 (IZR 10000)).
  - apply fin_one.
  - apply d_ofZ_exact. lia.
  - lra.
  - rewrite Rabs_pos_eq by lra. apply Rle_lt_trans with (p2 0); [rewrite p2_m26 in U; simpl; lra|apply bpow_lt; lia].
Qed.

Lemma checked_round_ok x r m : fin x r -> (- 2 ^ 53 <= m <= 2 ^ 53)%Z -> Rabs (r - IZR m) <= / 10000 -> checked_round x = Ok m.
Proof.
  intros Hx Hm Hr. assert (ZnearestA r = m) as Hz by (apply Znearest_imp; lra).
  pose proof (d_round_val x r Hx) as Hrd. rewrite Hz in Hrd. destruct tol_fin as (t & Ht & Et & Lt & Ut).
  assert (RN (Rabs (r - IZR m)) <= t) as Hle by (rewrite Et; apply RN_le; lra).
  assert (fin (d_sub x (d_round x)) (RN (r - IZR m))) as Hs.
  { apply d_sub_round; auto. rewrite RN_abs. eapply Rle_lt_trans; [exact Hle|]. apply Rle_lt_trans with (p2 0); [rewrite p2_m26 in Ut; simpl; lra|apply bpow_lt; lia]. }
  unfold checked_round. rewrite (proj2 (d_ltb_false _ _ _ _ Ht (d_abs_R _ _ Hs))) by (rewrite RN_abs; exact Hle).
  rewrite (d_to_i64_ok _ _ Hrd); rewrite Ztrunc_IZR; auto. lia.
Qed.

Lemma checked_round_inv x m : checked_round x = Ok m -> exists r, fin x r /\ m = ZnearestA r /\ Rabs (r - IZR m) <= / 9998.
Proof.
  unfold checked_round. destruct (d_ltb _ _) eqn:E; [discriminate|]. intros H. apply d_to_i64_inv in H as (r' & [F V] & Em & Hrange).
  assert (is_finite x = true) as Fx.
  { destruct (Bnearbyint_correct 53 1024 Hemax mode_NA x) as (_ & F' & _). unfold d_round in F. now rewrite F' in F. }
  set (r := B2R x). assert (fin x r) as Hx by now apply fin_B2R. exists r. split; auto.
  destruct (d_round_val x r Hx) as [_ V']. assert (m = ZnearestA r) as Hm by (rewrite Em, <- V, V'; apply Ztrunc_IZR). split; auto.
  pose proof (Znearest_half (Z.leb 0) r) as Hhalf. fold (ZnearestA r) in Hhalf. rewrite <- Hm in Hhalf.
  assert (fin (d_sub x (d_round x)) (RN (r - IZR m))) as Hs.
  { apply d_sub_round; auto; [rewrite Hm; now apply d_round_val|]. rewrite RN_abs. apply Rle_lt_trans with (p2 0); [|apply bpow_lt; lia].
    apply RN_le_repr; [apply repr_p2; lia|]. simpl. lra. }
  destruct tol_fin as (t & Ht & _ & _ & Ut). rewrite (d_ltb_false _ _ _ _ Ht (d_abs_R _ _ Hs)), RN_abs in E.
  destruct (Rle_or_lt (Rabs (r - IZR m)) (/ 9998)) as [|Hgt]; auto. exfalso.
  assert (IZR 6712 * p2 (-26) <= RN (Rabs (r - IZR m))) as H.
  { apply RN_ge_repr; [apply repr_dyadic; lia|]. left. eapply Rle_lt_trans; [|exact Hgt]. rewrite p2_m26. lra. }
  assert (IZR 6711 * p2 (-26) < IZR 6712 * p2 (-26)) by (apply Rmult_lt_compat_r; [apply bpow_gt_0|lra]). lra.
Qed.

Lemma add_zero_fin x : is_finite x = true -> fin (d_add d_zero x) (B2R x).
Proof.
  intros F. pose proof (fin_B2R x F) as Hx. rewrite <- (Rplus_0_l (B2R x)). apply d_add_exact; auto; [apply fin_zero| |]; rewrite Rplus_0_l.
  - now apply (fin_repr x).
  - now apply (fin_bound x).
Qed.

Lemma filter_single {A} (eqb : A -> A -> bool) : forall l k, (forall x y, eqb x y = true <-> x = y) -> NoDup l -> In k l -> filter (fun i => eqb i k) l = [k].
Proof.
  intros l k He. induction l as [|y l IH]; intros Hnd Hk; [destruct Hk|]. inversion Hnd as [|? ? Hni Hnd']; subst. simpl.
  destruct (eqb y k) eqn:E.
  - apply He in E. subst y. f_equal. assert (forall l', ~ In k l' -> filter (fun i => eqb i k) l' = []) as Hn.
    { induction l' as [|z l' IH']; intros H; auto. simpl. destruct (eqb z k) eqn:E; [apply He in E; subst; exfalso; apply H; now left|].
      apply IH'. intros H'. apply H. now right. }
    now apply Hn.
  - apply IH; auto. destruct Hk as [->|Hk]; auto. rewrite (proj2 (He k k)) in E; auto. discriminate.
Qed.

Lemma all_indices_1 n : all_indices [n] = map (fun i => [i]) (zrange n).
Proof. cbn [all_indices]. induction (zrange n) as [|k l IH]; cbn [flat_map map]; auto. Qed.

Lemma filter_map {A B} (f : A -> B) p l : filter p (map f l) = map f (filter (fun a => p (f a)) l).
Proof. induction l as [|a l IH]; simpl; auto. destruct (p (f a)); simpl; now rewrite IH. Qed.

Lemma reduce_vector n f : fits [n] -> reduce1 DblOps (mk [n] f) 0 = Ok (map (fun k => d_add d_zero (f [k])) (zrange n)).
Proof.
  intros Hf. rewrite (reduce1_mk DblOps [n] f 0 (fun k => d_add d_zero (f [k])) Hf); [reflexivity|cbn [length]; lia| |lia].
  intros k Hk. cbn [nth Z.to_nat] in Hk |- *. rewrite (vec_sum_add DblOps d_add) by auto. f_equal.
  rewrite all_indices_1, filter_map. cbn [nth]. rewrite (filter_single Z.eqb).
  - reflexivity.
  - intros; apply Z.eqb_eq.
  - apply NoDup_zrange.
  - now apply in_zrange.
Qed.

Lemma vector_claim L fuel n l M : (length l = Z.to_nat n)%nat -> (0 < n <= 2 ^ 20)%Z -> Forall nonneg_fin l ->
  is_finite (fold_left d_add l d_zero) = true -> (1 <= M < 2 ^ 31)%Z ->
  0 <= B2R (fold_left d_add l d_zero) - IZR M <= / 10000 -> (length l < fuel)%nat ->
  exists f rmse, py_integerise L fuel (NDA [n] l) = Ok (NDA [n] f, true, rmse) /\ length f = length l /\ Forall (fun k => 0 <= k)%Z f /\ sumZ f = M.
Proof.
  intros Hlen Hn Hl Hfin HM HS Hfuel. set (a := NDA [n] l). set (S := B2R (fold_left d_add l d_zero)) in *.
  assert (wf_array a) as Hw.
  { split; [discriminate|]. split; [repeat constructor; simpl; lia|]. simpl. lia. }
  assert (fits [n]) as Hf by (apply (wf_fits a); auto; cbn [shape a prodZ]; lia).
  unfold py_integerise. rewrite (as_nd_ok d_zero) by (auto; cbn [shape a prodZ]; lia). cbn [bind shape a].
  unfold integeriser_new. rewrite sizes_mk. cbn [length]. change (Z.of_nat 1 =? 1)%Z with true. cbn iota.
  assert (map (entry d_zero a) (all_indices [n]) = l) as Hmap by (apply (map_entry d_zero a); auto).
  rewrite nd_sum_dbl by auto. fold a. rewrite Hmap. cbn [bind].
  assert (fin (fold_left d_add l d_zero) S) as HSf by now apply fin_B2R.
  rewrite (checked_round_ok _ S M HSf) by (try lia; rewrite Rabs_pos_eq; lra). cbn [bind].
  rewrite reduce_vector by auto. cbn [bind].
  assert (Ztrunc S = M) as HT.
  { rewrite Ztrunc_floor by (assert (1 <= IZR M) by (apply IZR_le; lia); lra). apply Zfloor_imp. rewrite plus_IZR. lra. }
  rewrite (d_to_i32_ok _ S HSf); rewrite HT; [|lia]. cbn [bind].
  set (p := map (fun k => d_add d_zero (entry d_zero a [k])) (zrange n)).
  assert (p = map (d_add d_zero) l) as Hp.
  { unfold p. rewrite <- Hmap at 1. rewrite all_indices_1, !map_map. reflexivity. }
  assert (map B2R p = map B2R l) as HpR.
  { rewrite Hp, map_map. apply map_ext_in. intros x Hx. rewrite Forall_forall in Hl. apply add_zero_fin. now apply Hl. }
  assert (Forall nonneg_fin p) as Hpn.
  { rewrite Hp. apply Forall_forall. intros y Hy. apply in_map_iff in Hy as (x & <- & Hx). rewrite Forall_forall in Hl. destruct (Hl x Hx) as [F P].
    destruct (add_zero_fin x F) as [F' V']. split; auto. now rewrite V'. }
  assert (length p = length l) as Hpl by (rewrite Hp; apply map_length).
  destruct (sum_err l Hl Hfin ltac:(lia)) as (HS0 & Hle & Herr). fold S in HS0, Hle, Herr.
  set (T := sumR (map B2R l)) in *. set (nr := IZR (Z.of_nat (length l))) in *.
  assert (1 <= IZR M) as HM1 by (apply IZR_le; lia).
  assert (Rabs (sumR (map B2R (map (fun y => d_mul y (d_ofZ M)) (map (fun x => d_div x (d_ofZ M)) p))) - IZR M) < 1 /\
          Forall nonneg_fin (map (fun y => d_mul y (d_ofZ M)) (map (fun x => d_div x (d_ofZ M)) p))) as [Hsum Hnn].
  { rewrite (map_map (fun x => d_div x (d_ofZ M)) (fun y => d_mul y (d_ofZ M))). destruct (scale_all p (d_ofZ M) (IZR M) M Hpn) as [Hnn He].
    - apply d_ofZ_exact. lia.
    - lra.
    - apply Forall_forall. intros x Hx. rewrite Hp in Hx. apply in_map_iff in Hx as (y & <- & Hy).
      rewrite Forall_forall in Hl, Hle. destruct (add_zero_fin y (proj1 (Hl y Hy))) as [_ ->]. specialize (Hle y Hy). lra.
    - lia.
    - split; [|exact Hnn]. rewrite HpR in He. fold T in He. rewrite Hpl in He. fold nr in He.
      replace (T * IZR M / IZR M) with T in He by (field; lra). set (W := sumR (map B2R (map (fun x => d_mul (d_div x (d_ofZ M)) (d_ofZ M)) p))) in He |- *.
      assert (2 * nr * ulpr <= p2 (-32)) as Hnu by (apply (p2_prod_le 2 _ 1 20); lia).
      assert (0 <= T) as HT0 by (apply sumR_nonneg, nonneg_B2R; auto).
      assert (0 <= nr) as Hnr by (apply IZR_le; lia). pose proof (bpow_gt_0 radix2 (-53)) as Hu.
      assert (p2 (-32) <= / 2) as H32 by (apply Rle_trans with (p2 (-1)); [apply bpow_le; lia|right; reflexivity]).
      assert (Rabs (S - T) <= / 2 * T) as H3 by (eapply Rle_trans; [exact Herr|]; apply Rmult_le_compat_r; lra).
      assert (T <= 2 * S) as H4 by (rewrite Rabs_minus_sym in H3; pose proof (Rle_abs (T - S)); lra).
      assert (IZR M + 1 <= p2 31) as HM31 by (rewrite <- (plus_IZR M 1), <- IZR_p2 by lia; apply IZR_le; lia).
      assert (T <= p2 32) as HT32 by (change 32%Z with (31 + 1)%Z; rewrite bpow_plus; simpl (bpow radix2 1); lra).
      assert (Rabs (S - T) <= 1) as H5.
      { eapply Rle_trans; [exact Herr|]. apply Rle_trans with (p2 (-32) * p2 32); [apply Rmult_le_compat; auto; apply Rmult_le_pos; lra|].
        rewrite <- bpow_plus. simpl. lra. }
      assert (T <= p2 31 + 1) as HT31 by (rewrite Rabs_minus_sym in H5; pose proof (Rle_abs (T - S)); lra).
      assert (Rabs (S - T) <= / 2 + / 100) as H6.
      { eapply Rle_trans; [exact Herr|]. apply Rle_trans with (p2 (-32) * (p2 31 + 1)); [apply Rmult_le_compat; auto; apply Rmult_le_pos; lra|].
        rewrite Rmult_plus_distr_l, <- bpow_plus. change (-32 + 31)%Z with (-1)%Z. change (p2 (-1)) with (/ 2).
        assert (p2 (-32) <= / 100); [|lra]. apply Rle_trans with (p2 (-7)); [apply bpow_le; lia|simpl; lra]. }
      assert (3 * ulpr * T <= p2 (-19)) as H7.
      { apply Rle_trans with (p2 2 * ulpr * p2 32).
        - assert (3 <= p2 2) by (simpl; lra). apply Rmult_le_compat; auto; [apply Rmult_le_pos; lra|]. apply Rmult_le_compat_r; lra.
        - rewrite <- !bpow_plus. apply bpow_le. lia. }
      assert (nr * p2 (-1000) <= p2 (-19)) as H8.
      { apply Rle_trans with (p2 20 * p2 (-1000)); [apply Rmult_le_compat_r; [apply bpow_ge_0|rewrite <- IZR_p2 by lia; apply IZR_le; lia]|].
        rewrite <- bpow_plus. apply bpow_le. lia. }
      assert (p2 (-19) <= / 100) as H19 by (simpl; lra).
      replace (W - IZR M) with ((W - T) + ((S - IZR M) - (S - T))) by ring.
      eapply Rle_lt_trans; [apply Rabs_triang|]. pose proof (Rabs_triang (S - IZR M) (- (S - T))) as H9. rewrite Rabs_Ropp in H9.
      rewrite (Rabs_pos_eq (S - IZR M)) in H9 by lra.
      change (S - IZR M + - (S - T)) with (S - IZR M - (S - T)) in H9. lra. }
  destruct (integerise_dist_ok fuel (map (fun x => d_div x (d_ofZ M)) p) M ltac:(lia)) as (f & E & Hlf & H1 & H2 & _); auto.
  { rewrite map_length. lia. }
  rewrite E. cbn [bind]. rewrite map_length, Hpl in Hlf. rewrite Hlf, Hlen, Z2Nat.id by lia. rewrite nd_new_ok by auto. cbn [bind].
  assert (length (nd_data (mkp (T := Z) [n] (fun _ => None))) = Z.to_nat n) as Hld.
  { unfold mkp. cbn [nd_data]. rewrite map_length, all_indices_1, map_length. unfold zrange. now rewrite map_length, seq_length. }
  rewrite Hld, Z2Nat.id by lia. rewrite Z.leb_refl. cbn [bind in_result in_conv in_rmse].
  rewrite skipn_all2 by lia. rewrite app_nil_r. unfold from_nd, nd_values. cbn [nd_storage nd_data mkp nd_sizes]. rewrite map_length, Hlf, Hlen, Z2Nat.id by lia.
  replace (prodZ [n]) with n by (cbn [prodZ]; lia). rewrite Z.leb_refl, firstn_all2 by (rewrite map_length; lia).
  assert (forall g : list Z, mapM (fun c => match c with Some v => Ok v | None => UB "read of uninitialised memory" end) (map Some g) = Ok g) as Hval.
  { induction g as [|z g IH]; cbn [map mapM]; auto. cbn [bind]. rewrite IH. reflexivity. }
  rewrite Hval. cbn [bind]. exists f. eexists. split; [reflexivity|]. split; [lia|auto].
Qed.

(** * prob2IntFreq *)

Lemma fold_from_neg l : forall acc, Forall nonneg_fin l -> is_finite acc = true -> - 1 <= B2R acc ->
  is_finite (fold_left d_add l acc) = true -> let F := B2R (fold_left d_add l acc) in F <= 1 ->
  B2R acc <= F /\ Rabs (F - (B2R acc + sumR (map B2R l))) <= IZR (Z.of_nat (length l)) * ulpr.
Proof.
  induction l as [|x l IH]; intros acc Hl Fa H1 Hf F HF.
  - unfold F. cbn [fold_left map sumR fold_right length]. change (IZR (Z.of_nat 0)) with 0. rewrite Rplus_0_r, Rminus_diag_eq, Rabs_R0 by auto. lra.
  - inversion Hl as [|? ? [Fx Px] Hl']; subst. cbn [fold_left] in Hf, F.
    destruct (fold_add_finite l _ Hf) as [Hf1 _].
    destruct (d_add_fin acc x _ _ (fin_B2R _ Fa) (fin_B2R _ Fx) Hf1) as [_ V].
    assert (repr (B2R acc)) as Ra by (apply (fin_repr acc); now apply fin_B2R).
    assert (repr (B2R x)) as Rx by (apply (fin_repr x); now apply fin_B2R).
    assert (B2R acc <= RN (B2R acc + B2R x)) as L1 by (apply RN_ge_repr; auto; lra).
    destruct (IH (d_add acc x) Hl' Hf1 ltac:(lra) Hf HF) as [I1 I2]. fold F in I1, I2. split; [lra|].
    destruct (RN_plus_err' _ _ Ra Rx) as (e & He & E). rewrite V in I1, I2.
    cbn [map sumR fold_right length]. fold (sumR (map B2R l)). rewrite Nat2Z.inj_succ, succ_IZR.
    set (r := RN (B2R acc + B2R x)) in *. set (T := sumR (map B2R l)) in *.
    replace (F - (B2R acc + (B2R x + T))) with ((F - (r + T)) - r * e) by (replace (B2R acc + (B2R x + T)) with (B2R acc + B2R x + T) by ring; rewrite E; ring).
    assert (Rabs (r * e) <= ulpr) as H2.
    { rewrite Rabs_mult. rewrite <- (Rmult_1_l ulpr). apply Rmult_le_compat; try apply Rabs_pos; auto. apply Rabs_le. lra. }
    pose proof (Rabs_triang (F - (r + T)) (- (r * e))) as H3. rewrite Rabs_Ropp in H3.
    change (F - (r + T) + - (r * e)) with (F - (r + T) - r * e) in H3. lra.
Qed.

Lemma eps_fin : fin (d_mul (d_ofZ 1000) (d_lit 1 (-52))) (1000 * p2 (-52)).
Proof.
  pose proof (d_lit_exact 1 (-52) ltac:(lia) ltac:(lia) ltac:(lia)) as H. rewrite Rmult_1_l in H.
  apply d_mul_exact; auto.
  - apply (d_ofZ_exact 1000). lia.
  - apply (repr_dyadic 1000 (-52)); lia.
  - rewrite Rabs_pos_eq by (pose proof (bpow_ge_0 radix2 (-52)); lra). apply Rle_lt_trans with (p2 10 * p2 (-52)).
    + apply Rmult_le_compat_r; [apply bpow_ge_0|simpl; lra].
    + rewrite <- bpow_plus. apply bpow_lt. lia.
Qed.

Lemma prob2_claim fuel p pop : Forall nonneg_fin p -> (Z.of_nat (length p) <= 2 ^ 20)%Z -> (0 <= pop < 2 ^ 31)%Z -> (length p < fuel)%nat ->
  r_prob2IntFreq fuel p pop = Throw (RuntimeError "probabilities do not sum to unity") \/
  exists f, let X := map (fun y => d_mul y (d_ofZ pop)) p in
    r_prob2IntFreq fuel p pop = Ok (f, rms_diff X f) /\ length f = length p /\ Forall (fun k => 0 <= k)%Z f /\ sumZ f = pop /\ closest f (map B2R X).
Proof.
  intros Hp Hn Hpop Hfuel. unfold r_prob2IntFreq. destruct (Z.ltb_spec pop 0) as [|_]; [lia|].
  set (F := fold_left d_add p (d_ofZ (-1))). destruct (d_ltb _ (d_abs F)) eqn:E; [now left|right].
  assert (fin (d_ofZ (-1)) (-1)) as H1 by (apply (d_ofZ_exact (-1)); lia).
  assert (is_finite F = true) as HF.
  { assert (is_nan F = false) as Hnan.
    { apply fold_add_notnan; [destruct H1 as [H1 _]; now destruct (d_ofZ (-1))|]. intros x Hx. rewrite Forall_forall in Hp. now apply Hp. }
    destruct F as [s|s| |s m e B]; auto; try discriminate. }
  assert (B2R F <= 1000 * p2 (-52) /\ - (1000 * p2 (-52)) <= B2R F) as HFb.
  { rewrite (d_ltb_false _ _ _ _ eps_fin (d_abs_R _ _ (fin_B2R _ HF))) in E. apply Rabs_le_inv in E. lra. }
  assert (1000 * p2 (-52) <= p2 (-42)) as He.
  { apply Rle_trans with (p2 10 * p2 (-52)); [apply Rmult_le_compat_r; [apply bpow_ge_0|simpl; lra]|]. rewrite <- bpow_plus. apply bpow_le. lia. }
  assert (p2 (-42) <= p2 (-35)) as He2 by (apply bpow_le; lia).
  assert (p2 (-35) <= / 100) as He3 by (apply Rle_trans with (p2 (-7)); [apply bpow_le; lia|simpl; lra]).
  destruct (fold_from_neg p (d_ofZ (-1)) Hp (proj1 H1)) as [_ H2]; auto; [destruct H1 as [_ ->]; lra|fold F; lra|].
  fold F in H2. destruct H1 as [F1 V1]. rewrite V1 in H2. set (T := sumR (map B2R p)) in *. set (nr := IZR (Z.of_nat (length p))) in *.
  assert (nr * ulpr <= p2 (-33)) as Hnu.
  { change (-33)%Z with (20 + -53)%Z. rewrite bpow_plus. apply Rmult_le_compat_r; [apply bpow_ge_0|]. rewrite <- IZR_p2 by lia. apply IZR_le. lia. }
  assert (p2 (-33) = 4 * p2 (-35)) as E33 by (change (-33)%Z with (2 + -35)%Z; rewrite bpow_plus; reflexivity).
  assert (Rabs (T - 1) <= 5 * p2 (-35)) as HT.
  { apply Rabs_le. apply Rabs_le_inv in H2. lra. }
  assert (0 <= IZR pop <= p2 31) as HN by (split; [apply IZR_le; lia|rewrite <- IZR_p2 by lia; apply IZR_le; lia]).
  assert (0 <= T <= 2) as HT2 by (apply Rabs_le_inv in HT; lra).
  set (X := map (fun y => d_mul y (d_ofZ pop)) p).
  assert (forall y, In y p -> nonneg_fin (d_mul y (d_ofZ pop)) /\ Rabs (B2R (d_mul y (d_ofZ pop)) - IZR pop * B2R y) <= ulpr * (IZR pop * B2R y) + p2 (-1075)) as Hone.
  { intros y Hy. rewrite Forall_forall in Hp. destruct (Hp y Hy) as [Fy Py].
    assert (B2R y <= T) as Hy2 by (apply (sumR_ge1 B2R); auto; intros j Hj; now apply Hp).
    assert (0 <= IZR pop * B2R y) as H0 by (apply Rmult_le_pos; lra).
    assert (fin (d_mul y (d_ofZ pop)) (RN (IZR pop * B2R y))) as [F3 V3].
    { rewrite Rmult_comm. apply d_mul_round; [now apply fin_B2R|apply d_ofZ_exact; lia|]. rewrite Rmult_comm, Rabs_pos_eq by (now apply RN_nonneg).
      apply Rle_lt_trans with (p2 32); [|apply bpow_lt; lia]. apply RN_le_repr; [apply repr_p2; lia|].
      change 32%Z with (31 + 1)%Z. rewrite bpow_plus. apply Rmult_le_compat; simpl (bpow radix2 1); lra. }
    split; [split; auto; rewrite V3; now apply RN_nonneg|]. rewrite V3. now apply RN_err. }
  assert (Forall nonneg_fin X) as Hnn by (apply Forall_forall; intros z Hz; apply in_map_iff in Hz as (y & <- & Hy); now apply Hone).
  assert (Rabs (sumR (map B2R X) - IZR pop) < 1) as Hs.
  { unfold X. rewrite map_map. pose proof (sumR_err (fun y => B2R (d_mul y (d_ofZ pop))) (fun y => IZR pop * B2R y) ulpr (p2 (-1075)) p) as H.
    specialize (H ltac:(intros; now apply Hone)). rewrite sumR_mult in H. fold T nr in H. set (W := sumR (map (fun y => B2R (d_mul y (d_ofZ pop))) p)) in *.
    assert (ulpr * (IZR pop * T) <= p2 (-21)) as H3.
    { apply Rle_trans with (ulpr * (p2 31 * p2 1)); [|rewrite <- !bpow_plus; apply bpow_le; lia].
      apply Rmult_le_compat_l; [apply bpow_ge_0|]. apply Rmult_le_compat; simpl (bpow radix2 1); lra. }
    assert (nr * p2 (-1075) <= p2 (-21)) as H4.
    { apply Rle_trans with (p2 20 * p2 (-1075)); [apply Rmult_le_compat_r; [apply bpow_ge_0|rewrite <- IZR_p2 by lia; apply IZR_le; lia]|].
      rewrite <- bpow_plus. apply bpow_le. lia. }
    assert (p2 (-21) <= / 100) as H5 by (apply Rle_trans with (p2 (-7)); [apply bpow_le; lia|simpl; lra]).
    assert (Rabs (IZR pop * T - IZR pop) <= 5 * / 16) as H6.
    { replace (IZR pop * T - IZR pop) with (IZR pop * (T - 1)) by ring. rewrite Rabs_mult, (Rabs_pos_eq (IZR pop)) by lra.
      apply Rle_trans with (p2 31 * (5 * p2 (-35))); [apply Rmult_le_compat; try lra; apply Rabs_pos|].
      replace (p2 31 * (5 * p2 (-35))) with (5 * (p2 31 * p2 (-35))) by ring. rewrite <- bpow_plus. simpl. lra. }
    replace (W - IZR pop) with ((W - IZR pop * T) + (IZR pop * T - IZR pop)) by ring. eapply Rle_lt_trans; [apply Rabs_triang|].
    assert (Rabs (W - IZR pop * T) <= ulpr * (IZR pop * T) + nr * p2 (-1075)) as H7 by exact H. lra. }
  destruct (integerise_dist_ok fuel p pop Hpop Hfuel Hnn Hs) as (f & Ef & H). exists f. split; [exact Ef|exact H].
Qed.

Lemma nan_sum l : forall acc, (is_nan acc = true \/ Exists (fun x => is_nan x = true) l) -> is_nan (fold_left d_add l acc) = true.
Proof.
  assert (forall x y : double, is_nan x = true -> is_nan (d_add x y) = true) as N1 by (intros [] y; simpl; try discriminate; destruct y; reflexivity).
  assert (forall x y : double, is_nan y = true -> is_nan (d_add x y) = true) as N2 by (intros x []; simpl; try discriminate; destruct x; reflexivity).
  induction l as [|x l IH]; intros acc [H|H]; cbn [fold_left]; auto; try (inversion H; fail).
  inversion H; subst; apply IH; auto.
Qed.

(** NaN probabilities pass the check on their sum *)
Lemma prob2_nan_claim fuel p pop : Exists (fun x => is_nan x = true) p -> (0 <= pop < 2 ^ 31)%Z -> exists w, r_prob2IntFreq fuel p pop = UB w.
Proof.
  intros Hn Hpop. unfold r_prob2IntFreq. destruct (Z.ltb_spec pop 0) as [|_]; [lia|].
  pose proof (nan_sum p (d_ofZ (-1)) (or_intror Hn)) as Hs. destruct (fold_left d_add p (d_ofZ (-1))); try discriminate.
  destruct eps_fin as [Fe _]. assert (d_ltb (d_mul (d_ofZ 1000) (d_lit 1 (-52))) (d_abs B754_nan) = false) as -> by (destruct (d_mul (d_ofZ 1000) (d_lit 1 (-52))) as [[]|[]| |[] m e B]; reflexivity).
  unfold integerise_dist. assert (exists w, mapM (fun x => d_to_i32 (d_mul x (d_ofZ pop))) p = UB w) as [w ->]; [|eexists; reflexivity].
  induction Hn as [x l Hx|x l Hl [w IH]]; cbn [mapM].
  - destruct x; try discriminate. assert (d_mul B754_nan (d_ofZ pop) = B754_nan) as -> by (destruct (d_ofZ pop); reflexivity).
    unfold d_to_i32. cbn [is_finite andb bind]. eauto.
  - rewrite IH. unfold d_to_i32. destruct (_ && _); cbn [bind]; eauto.
Qed.
