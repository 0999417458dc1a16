(** Proofs about the individuals qis samples, for PropQuant.v. *)
From Coq Require Import Reals Psatz.
From Flocq Require Import Core.Core IEEE754.BinarySingleNaN.
From Verif Require Import Base Spec SpecFacts NDArray IndexProofs Float64 FloatProofs ArrayOps ArrayProofs Bind BindProofs
  SobolTable SobolSpec Sobol SobolTableProofs SobolProofs SobolClaims Micro Stat Qis SynthSpec MicroProofs PickProofs SampleProofs
  SplitProofs QisProofs QisClaims QuantSpec.
Open Scope Z_scope.

(** * pick *)

Notation cum w j := (sumZ (map w (zrange j))).
Definition psum (l : list Z) : Z := sumZ (map (fun x => Z.max 0 x) l).
Definition nsum (l : list Z) : Z := sumZ (map (fun x => Z.max 0 (- x)) l).

Lemma psum_app l l' : psum (l ++ l') = psum l + psum l'. Proof. unfold psum. now rewrite map_app, sumZ_app. Qed.
Lemma nsum_app l l' : nsum (l ++ l') = nsum l + nsum l'. Proof. unfold nsum. now rewrite map_app, sumZ_app. Qed.
Lemma psum_nonneg l : 0 <= psum l. Proof. induction l as [|x l IH]; unfold psum in *; unfold sumZ in *; cbn [map fold_right] in *; lia. Qed.
Lemma nsum_nonneg l : 0 <= nsum l. Proof. induction l as [|x l IH]; unfold nsum in *; unfold sumZ in *; cbn [map fold_right] in *; lia. Qed.
Lemma sum_between l : - nsum l <= sumZ l <= psum l. Proof. induction l as [|x l IH]; unfold psum, nsum in *; unfold sumZ in *; cbn [map fold_right] in *; lia. Qed.

Lemma total_signed dist : forall a acc, Z.abs acc + psum dist + nsum dist <= 2 ^ 53 ->
  fin a (IZR acc) -> fin (fold_left (fun a x => d_add a (d_ofZ x)) dist a) (IZR (acc + sumZ dist)).
Proof.
  induction dist as [|x dist IH]; intros a acc Hb Hf; simpl in *.
  - now rewrite Z.add_0_r.
  - unfold psum, nsum, sumZ in Hb. cbn [map fold_right] in Hb. fold (sumZ (map (fun x => Z.max 0 x) dist)) (sumZ (map (fun x => Z.max 0 (- x)) dist)) in Hb. fold (psum dist) (nsum dist) in Hb. pose proof (psum_nonneg dist). pose proof (nsum_nonneg dist).
    rewrite Z.add_assoc. apply IH; [lia|].
    rewrite plus_IZR. apply (d_add_exact _ _ _ _ Hf (d_ofZ_exact x ltac:(lia))).
    + rewrite <- plus_IZR. apply repr_Z. lia.
    + rewrite <- plus_IZR. apply (fin_bound (d_ofZ (acc + x))). apply d_ofZ_exact. lia.
Qed.

Lemma threshold_exact u s y : 0 <= u < 2 ^ 32 -> Z.abs s <= 2 ^ 21 -> fin y (IZR s) ->
  fin (d_mul (d_mul (d_ofZ u) (d_lit 1 (-32))) y) (IZR (u * s) * p2 (-32)).
Proof.
  intros Hu Hs Hy. replace (IZR (u * s) * p2 (-32))%R with (IZR u * p2 (-32) * IZR s)%R by (rewrite mult_IZR; ring).
  assert (Z.abs (u * s) <= 2 ^ 53) as Hb by nia.
  assert (repr (IZR u * p2 (-32) * IZR s)) as Hr.
  { replace (IZR u * p2 (-32) * IZR s)%R with (IZR (u * s) * p2 (-32))%R by (rewrite mult_IZR; ring). apply repr_dyadic; lia. }
  apply d_mul_exact; auto; [now apply scale32|].
  replace (IZR u * p2 (-32) * IZR s)%R with (IZR (u * s) * p2 (-32))%R by (rewrite mult_IZR; ring).
  rewrite Rabs_mult, (Rabs_pos_eq (p2 (-32))) by apply bpow_ge_0. rewrite <- abs_IZR.
  apply Rle_lt_trans with (p2 53 * p2 (-32))%R.
  - apply Rmult_le_compat_r; [apply bpow_ge_0|]. rewrite <- IZR_p2 by lia. apply IZR_le. lia.
  - rewrite <- bpow_plus. apply bpow_lt. lia.
Qed.

Lemma zrange_split n i : 0 <= i <= n -> zrange n = zrange i ++ map Z.of_nat (List.seq (Z.to_nat i) (Z.to_nat n - Z.to_nat i)).
Proof.
  intros H. unfold zrange. rewrite <- map_app. f_equal. replace (Z.to_nat n) with (Z.to_nat i + (Z.to_nat n - Z.to_nat i))%nat at 1 by lia.
  now rewrite seq_app.
Qed.

Lemma cum_succ w j : 0 <= j -> cum w (j + 1) = cum w j + w j.
Proof.
  intros Hj. replace (j + 1) with (Z.of_nat (S (Z.to_nat j))) by lia. rewrite zrange_snoc, map_app, sumZ_app.
  rewrite Z2Nat.id by lia. simpl. lia.
Qed.

Lemma cum_bound w n j : 0 <= j <= n -> - nsum (map w (zrange n)) <= cum w j <= psum (map w (zrange n)).
Proof.
  intros Hj. rewrite (zrange_split n j) by auto. rewrite map_app, psum_app, nsum_app.
  pose proof (sum_between (map w (zrange j))). pose proof (psum_nonneg (map w (map Z.of_nat (List.seq (Z.to_nat j) (Z.to_nat n - Z.to_nat j))))).
  pose proof (nsum_nonneg (map w (map Z.of_nat (List.seq (Z.to_nat j) (Z.to_nat n - Z.to_nat j))))). lia.
Qed.

Lemma pick_loop_first w n th t : fin th (IZR t * p2 (-32)) -> psum (map w (zrange n)) <= 2 ^ 53 -> nsum (map w (zrange n)) <= 2 ^ 53 ->
  forall m i, 0 <= i -> i + Z.of_nat m = n -> forall k,
  pick_loop (map w (map Z.of_nat (List.seq (Z.to_nat i) m))) th i (cum w i) = Ok k ->
  i <= k < n /\ t < 2 ^ 32 * cum w (k + 1) /\ forall j, i <= j < k -> 2 ^ 32 * cum w (j + 1) <= t.
Proof.
  intros Hth Hp Hn. induction m as [|m IH]; intros i Hi Him k E; [discriminate|].
  cbn [List.seq map pick_loop] in E. rewrite Z2Nat.id in E by lia. rewrite <- cum_succ in E by lia.
  pose proof (cum_bound w n (i + 1) ltac:(lia)) as Hb. rewrite i64_ok in E by lia. cbn [bind] in E.
  assert (forall a b : Z, (IZR a * p2 (-32) < IZR b)%R <-> a < 2 ^ 32 * b) as Hcmp.
  { intros a b. assert (IZR b = IZR (2 ^ 32 * b) * p2 (-32))%R as ->.
    { rewrite mult_IZR, IZR_p2 by lia. replace (p2 32 * IZR b * p2 (-32))%R with (IZR b * (p2 32 * p2 (-32)))%R by ring.
      rewrite <- bpow_plus. simpl. ring. }
    split; intros H.
    - apply lt_IZR. apply Rmult_lt_reg_r with (p2 (-32)); auto. apply bpow_gt_0.
    - apply Rmult_lt_compat_r; [apply bpow_gt_0|]. now apply IZR_lt. }
  pose proof (d_ofZ_exact (cum w (i + 1)) ltac:(lia)) as Hz.
  destruct (d_ltb th (d_ofZ (cum w (i + 1)))) eqn:El.
  - injection E as <-. apply (d_ltb_true _ _ _ _ Hth Hz) in El. apply Hcmp in El. split; [lia|]. split; auto. lia.
  - apply (d_ltb_false _ _ _ _ Hth Hz) in El. apply Rle_not_lt in El. rewrite Hcmp in El.
    replace (S (Z.to_nat i)) with (Z.to_nat (i + 1)) in E by lia.
    destruct (IH (i + 1) ltac:(lia) ltac:(lia) k E) as (H1 & H2 & H3). split; [lia|]. split; auto.
    intros j Hj. destruct (Z.eq_dec j i) as [->|]; [lia|]. apply H3. lia.
Qed.

Lemma pick_selects w n u k : 0 <= n -> psum (map w (zrange n)) <= 2 ^ 21 -> nsum (map w (zrange n)) <= 2 ^ 21 -> (u < 2 ^ 32)%N ->
  pick (map w (zrange n)) (unit_of u) = Ok k -> selects w n u k.
Proof.
  intros Hn Hp Hm Hu E. unfold pick, unit_of in E. rewrite qis_scale_lit in E.
  set (dist := map w (zrange n)) in *.
  pose proof (psum_nonneg dist). pose proof (nsum_nonneg dist).
  pose proof (total_signed dist d_zero 0 ltac:(lia) fin_zero) as Ht. rewrite Z.add_0_l in Ht.
  pose proof (sum_between dist) as Hsb.
  pose proof (threshold_exact (Z.of_N u) (sumZ dist) _ ltac:(lia) ltac:(lia) Ht) as Hth.
  assert (zrange n = map Z.of_nat (List.seq (Z.to_nat 0) (Z.to_nat n))) as Ez by reflexivity.
  unfold dist in E at 2. rewrite Ez in E.
  apply (pick_loop_first w n _ _ Hth ltac:(fold dist; lia) ltac:(fold dist; lia) (Z.to_nat n) 0 ltac:(lia) ltac:(lia) k) in E as (H1 & H2 & H3).
  unfold selects. fold dist. auto.
Qed.

(** * Slices *)

Lemma filter_unique {A} (q : A -> bool) y l : NoDup l -> In y l -> (forall x, In x l -> q x = true <-> x = y) -> filter q l = [y].
Proof.
  induction 1 as [|x l Hx Hl IH]; intros Hy Hq; [easy|]. simpl. destruct (q x) eqn:E.
  - apply (Hq x (or_introl eq_refl)) in E. subst x. f_equal.
    assert (forall l', (forall x, In x l' -> q x = false) -> filter q l' = []) as G.
    { induction l' as [|z l' IH']; simpl; intros Hz; auto. rewrite Hz by auto. auto. }
    apply G. intros x Hxl. apply not_true_is_false. intros Hqx. apply Hq in Hqx; [|now right]. now subst.
  - destruct Hy as [->|Hy].
    + assert (q y = true) by (apply Hq; auto; now left). congruence.
    + apply IH; auto. intros z Hz. apply Hq. now right.
Qed.

Lemma compatible_spec ix main x : length x = length ix ->
  compatible ix main x = true <-> forall j, (j < length ix)%nat -> nth (Z.to_nat (nth j ix 0)) main 0 < 0 \/ nth j x 0 = nth (Z.to_nat (nth j ix 0)) main 0.
Proof.
  unfold compatible. revert x. induction ix as [|d ix IH]; intros [|v x] Hl; try discriminate; simpl in *.
  - split; auto. intros _ j Hj. lia.
  - rewrite andb_true_iff, orb_true_iff, Z.ltb_lt, Z.eqb_eq. rewrite IH by lia. split.
    + intros [H1 H2] [|j] Hj; simpl; auto. apply H2. lia.
    + intros H. split; [apply (H 0%nat); lia|]. intros j Hj. apply (H (S j)). lia.
Qed.

Section Slice.
Context (sizes ix : list Z) (Hix : valid_dims (length sizes) ix) (Hfit : fits (proj ix sizes)).
Notation dim_of p := (nth (Z.to_nat p) ix 0).

Lemma U_valid main : valid_dims (length (proj ix sizes)) (U ix main).
Proof. unfold valid_dims. rewrite proj_length. apply Forall_forall. intros p Hp. apply U_in in Hp. tauto. Qed.

Lemma U_pos main : Forall (fun p => 0 <= p < Z.of_nat (length ix)) (U ix main).
Proof. apply Forall_forall. intros p Hp. apply U_in in Hp. tauto. Qed.

Lemma compatible_lift main c : partial_index sizes main -> index_in (proj (U ix main) (proj ix sizes)) c ->
  exists x, index_in (proj ix sizes) x /\ compatible ix main x = true /\ proj (U ix main) x = c.
Proof.
  intros [Lm Hpm] Hc. set (base := map (fun d => if -1 <? nth (Z.to_nat d) main 0 then nth (Z.to_nat d) main 0 else 0) ix).
  assert (length base = length ix) as Lb by (unfold base; now rewrite map_length).
  assert (forall j, (j < length ix)%nat -> nth j base 0 = if -1 <? nth (Z.to_nat (nth j ix 0)) main 0 then nth (Z.to_nat (nth j ix 0)) main 0 else 0) as Nb.
  { intros j Hj. unfold base. erewrite nth_error_nth; [reflexivity|]. rewrite nth_error_map, (nth_error_nth' ix 0) by lia. reflexivity. }
  assert (forall j, (j < length ix)%nat -> 0 <= nth j ix 0 < Z.of_nat (length sizes)) as Hd.
  { intros j Hj. unfold valid_dims in Hix. rewrite Forall_forall in Hix. apply Hix. now apply nth_In. }
  assert (index_in (proj ix sizes) base) as Hbase.
  { apply index_in_nth. rewrite Lb, proj_length. split; auto. intros j Hj. rewrite Nb, nth_proj by auto.
    specialize (Hd j Hj). specialize (Hpm (Z.to_nat (nth j ix 0)) ltac:(lia)).
    pose proof (fits_pos _ Hfit) as Hpos. unfold positive in Hpos. rewrite Forall_forall in Hpos.
    assert (0 < nth (Z.to_nat (nth j ix 0)) sizes 0) by (apply Hpos; unfold proj; apply in_map_iff; exists (nth j ix 0); split; auto; now apply nth_In).
    destruct (Z.ltb_spec (-1) (nth (Z.to_nat (nth j ix 0)) main 0)); lia. }
  exists (writes (U ix main) c base). split; [|split].
  - apply writes_index_in; auto; [apply U_NoDup|apply U_valid].
  - apply compatible_spec; [rewrite length_writes; auto|]. intros j Hj.
    destruct (Z.lt_ge_cases (nth (Z.to_nat (nth j ix 0)) main 0) 0) as [H|H]; [now left|right].
    rewrite nth_writes_other.
    + rewrite Nb by auto. destruct (Z.ltb_spec (-1) (nth (Z.to_nat (nth j ix 0)) main 0)); lia.
    + rewrite U_in, Nat2Z.id. lia.
    + eapply Forall_impl; [|apply U_pos]. intros a Ha. apply Ha.
  - apply proj_writes; [apply U_NoDup| |].
    + unfold valid_dims. rewrite Lb. apply U_pos.
    + rewrite (index_in_length _ _ Hc), proj_length. reflexivity.
Qed.

Lemma compatible_unique main x y : length x = length ix -> length y = length ix ->
  compatible ix main x = true -> compatible ix main y = true -> proj (U ix main) x = proj (U ix main) y -> x = y.
Proof.
  intros Lx Ly Hx Hy E. rewrite compatible_spec in Hx, Hy by auto.
  apply nth_ext with (d := 0) (d' := 0); [congruence|]. intros j Hj. rewrite Lx in Hj.
  destruct (Z.lt_ge_cases (nth (Z.to_nat (nth j ix 0)) main 0) 0) as [H|H].
  - assert (In (Z.of_nat j) (U ix main)) as Hin by (apply U_in; rewrite Nat2Z.id; lia).
    unfold proj in E. pose proof (ext_in_map E _ Hin) as E'. cbv beta in E'. now rewrite Nat2Z.id in E'.
  - destruct (Hx j Hj); [lia|]. destruct (Hy j Hj); [lia|]. congruence.
Qed.

(** the sum over a slice is the sum over the cells compatible with what was fixed *)
Lemma restrict_total main f g : partial_index sizes main ->
  (forall x, index_in (proj ix sizes) x -> compatible ix main x = true -> g (proj (U ix main) x) = f x) ->
  total (proj (U ix main) (proj ix sizes)) g = sum_where (proj ix sizes) (compatible ix main) f.
Proof.
  intros Hpm Hg. unfold sum_where. rewrite sum_filter.
  fold (total (proj ix sizes) (fun x => if compatible ix main x then f x else 0)).
  rewrite <- (total_margin (proj ix sizes) (U ix main)) by apply U_valid.
  unfold total. apply sumZ_map_ext. intros c Hc. apply in_all_indices in Hc.
  destruct (compatible_lift main c Hpm Hc) as (x & Hx & Hcx & Ex).
  assert (forall y, index_in (proj ix sizes) y -> length y = length ix) as Hlen by (intros y Hy; rewrite (index_in_length _ _ Hy), proj_length; auto).
  unfold margin, sum_where. rewrite sum_filter.
  rewrite (sumZ_map_ext _ (fun y => if list_eq_dec Z.eq_dec y x then f x else 0)).
  - rewrite sum_one; [|apply NoDup_all_indices|now apply in_all_indices]. rewrite <- Ex. now apply Hg.
  - intros y Hy. apply in_all_indices in Hy. destruct (list_eq_dec Z.eq_dec y x) as [->|Hne].
    + rewrite Ex, idx_eqb_refl, Hcx. reflexivity.
    + destruct (idx_eqb (proj (U ix main) y) c) eqn:E1; auto. destruct (compatible ix main y) eqn:E2; auto.
      exfalso. apply Hne. apply idx_eqb_true in E1. apply (compatible_unique main); auto. congruence.
Qed.

(** fixing one more dimension *)
Lemma U_upd main P p v : NoDup ix -> length main = length sizes -> U ix main = P ++ [p] -> 0 <= v ->
  U ix (upd main (Z.to_nat (dim_of p)) v) = P.
Proof.
  intros Hnd Lm EU Hv.
  assert (0 <= p < Z.of_nat (length ix)) as Hp.
  { assert (In p (U ix main)) as H by (rewrite EU; apply in_app_iff; right; now left). apply U_in in H. tauto. }
  pose proof (dim_of_valid sizes ix Hix p Hp) as Hd.
  assert (forall q, 0 <= q < Z.of_nat (length ix) ->
    nth (Z.to_nat (dim_of q)) (upd main (Z.to_nat (dim_of p)) v) 0 = if q =? p then v else nth (Z.to_nat (dim_of q)) main 0) as Hq.
  { intros q Hq. rewrite nth_upd by lia. pose proof (dim_of_valid sizes ix Hix q Hq) as Hdq. destruct (Z.eqb_spec q p) as [->|Hne].
    - now rewrite Nat.eqb_refl.
    - destruct (Nat.eqb_spec (Z.to_nat (dim_of q)) (Z.to_nat (dim_of p))) as [E|E]; auto. exfalso. apply Hne.
      assert (dim_of q = dim_of p) as E' by lia. apply (proj1 (NoDup_nth ix 0) Hnd) in E'; lia. }
  pose proof (U_NoDup ix main) as HN. rewrite EU in HN.
  assert (U ix (upd main (Z.to_nat (dim_of p)) v) = filter (fun q => negb (q =? p)) (U ix main)) as ->.
  { unfold U. clear - Hq Hv. assert (forall l, (forall q, In q l -> 0 <= q < Z.of_nat (length ix)) ->
      filter (fun q => negb (set_p ix (upd main (Z.to_nat (dim_of p)) v) q)) l =
      filter (fun q => negb (q =? p)) (filter (fun q => negb (set_p ix main q)) l)) as G.
    { induction l as [|q l IH]; intros Hl; auto. simpl. rewrite IH by (intros; apply Hl; now right).
      unfold set_p. rewrite (Hq q) by (apply Hl; now left).
      destruct (Z.eqb_spec q p) as [->|Hne].
      - destruct (Z.ltb_spec (-1) v); [|lia]. simpl. destruct (-1 <? nth (Z.to_nat (dim_of p)) main 0); simpl; auto. now rewrite Z.eqb_refl.
      - destruct (-1 <? nth (Z.to_nat (dim_of q)) main 0); simpl; auto. destruct (Z.eqb_spec q p); [easy|reflexivity]. }
    apply G. intros q Hin. now apply in_zrange in Hin. }
  rewrite EU, filter_app. simpl. rewrite Z.eqb_refl. simpl. rewrite app_nil_r.
  apply NoDup_remove_2 in HN. rewrite app_nil_r in HN. clear - HN. induction P as [|q P IH]; simpl in *; auto.
  destruct (Z.eqb_spec q p) as [->|Hne]; [tauto|]. simpl. f_equal. tauto.
Qed.

Lemma partial_upd main d v : partial_index sizes main -> 0 <= v < nth d sizes 0 -> (d < length sizes)%nat -> partial_index sizes (upd main d v).
Proof.
  intros [Lm Hp] Hv Hd. split; [now rewrite length_upd|]. intros e He. rewrite nth_upd by lia. destruct (Nat.eqb_spec e d) as [->|]; [lia|auto].
Qed.

Lemma compatible_upd main p v x : NoDup ix -> length main = length sizes -> In p (U ix main) -> 0 <= v -> length x = length ix ->
  compatible ix (upd main (Z.to_nat (dim_of p)) v) x = true -> compatible ix main x = true /\ nth (Z.to_nat p) x 0 = v.
Proof.
  intros Hnd Lm Hp Hv Lx H. apply U_in in Hp as [Hp Hu]. pose proof (dim_of_valid sizes ix Hix p Hp) as Hd.
  rewrite compatible_spec in H by auto. split.
  - apply compatible_spec; auto. intros j Hj. destruct (Nat.eq_dec j (Z.to_nat p)) as [->|Hne]; [left; lia|].
    destruct (H j Hj) as [H1|H1]; rewrite nth_upd_other in H1; auto;
      intros E; apply Hne; (apply (proj1 (NoDup_nth ix 0) Hnd); [lia|lia|]);
      unfold valid_dims in Hix; rewrite Forall_forall in Hix; pose proof (Hix _ (nth_In ix 0 Hj)); lia.
  - destruct (H (Z.to_nat p) ltac:(lia)) as [H1|H1]; rewrite nth_upd in H1 by lia; rewrite Nat.eqb_refl in H1; lia.
Qed.
End Slice.

(** * recursive_sample *)

Definition tpos (s : list Z) (g : list Z -> Z) : Z := total s (fun c => Z.max 0 (g c)).
Definition tneg (s : list Z) (g : list Z -> Z) : Z := total s (fun c => Z.max 0 (- g c)).

Lemma total_last s n g : 0 <= n -> total (s ++ [n]) g = sumZ (map (fun i => total s (fun c => g (c ++ [i]))) (zrange n)).
Proof.
  intros Hn. rewrite <- (total_margin (s ++ [n]) [Z.of_nat (length s)]).
  - unfold proj. simpl map. rewrite Nat2Z.id, app_nth2, Nat.sub_diag by lia. cbn [nth]. unfold total at 1.
    rewrite all_indices_1, map_map. apply sumZ_map_ext. intros i Hi. apply in_zrange in Hi. now apply margin_last.
  - constructor; [|constructor]. rewrite app_length. simpl. lia.
Qed.

Lemma psum_total s n g : 0 <= n -> psum (map (fun i => total s (fun c => g (c ++ [i]))) (zrange n)) <= tpos (s ++ [n]) g.
Proof.
  intros Hn. unfold tpos. rewrite total_last by auto. unfold psum. rewrite map_map. apply sumZ_map_le. intros i _. unfold total.
  pose proof (sum_between (map (fun c => g (c ++ [i])) (all_indices s))) as H. unfold psum in H. rewrite map_map in H.
  pose proof (psum_nonneg (map (fun c => g (c ++ [i])) (all_indices s))) as H0. unfold psum in H0. rewrite map_map in H0. lia.
Qed.

Lemma nsum_total s n g : 0 <= n -> nsum (map (fun i => total s (fun c => g (c ++ [i]))) (zrange n)) <= tneg (s ++ [n]) g.
Proof.
  intros Hn. unfold tneg. rewrite total_last by auto. unfold nsum. rewrite map_map. apply sumZ_map_le. intros i _. unfold total.
  pose proof (sum_between (map (fun c => g (c ++ [i])) (all_indices s))) as H. unfold nsum in H. rewrite map_map in H.
  pose proof (nsum_nonneg (map (fun c => g (c ++ [i])) (all_indices s))) as H0. unfold nsum in H0. rewrite map_map in H0. lia.
Qed.

Lemma tpos_last s n g i : 0 <= i < n -> tpos s (fun c => g (c ++ [i])) <= tpos (s ++ [n]) g.
Proof.
  intros Hi. unfold tpos. rewrite <- (margin_last s n i (fun c => Z.max 0 (g c)) Hi). unfold margin, sum_where, total.
  apply sum_filter_le. intros. lia.
Qed.
Lemma tneg_last s n g i : 0 <= i < n -> tneg s (fun c => g (c ++ [i])) <= tneg (s ++ [n]) g.
Proof.
  intros Hi. unfold tneg. rewrite <- (margin_last s n i (fun c => Z.max 0 (- g c)) Hi). unfold margin, sum_where, total.
  apply sum_filter_le. intros. lia.
Qed.

Lemma tabs_pn s g : tabs s g = tpos s g + tneg s g.
Proof. unfold tabs, tpos, tneg, total. rewrite <- sumZ_map_add. apply sumZ_map_ext. intros. lia. Qed.

Section Rec.
Context (c : con) (sizes : list Z) (f : list Z -> Z) (p : list N).
Notation ix := (c_dims c).
Notation dim_of q := (nth (Z.to_nat q) ix 0).
Context (Hix : valid_dims (length sizes) ix) (Hlen : Z.of_nat (length ix) < 2 ^ 31) (Hnd : NoDup ix)
  (Hsz : proj ix sizes = c_sizes c) (Hfit : fits (c_sizes c)) (Hlp : length p = length sizes) (Hp32 : Forall (fun u => u < 2 ^ 32)%N p).

Lemma select_weight main P q v g : partial_index sizes main -> U ix main = P ++ [q] ->
  (forall x, index_in (c_sizes c) x -> compatible ix main x = true -> g (proj (P ++ [q]) x) = f x) ->
  0 <= v < nth (Z.to_nat (dim_of q)) sizes 0 ->
  total (msz sizes ix P) (fun i => g (i ++ [v])) = weight c f (upd main (Z.to_nat (dim_of q)) v).
Proof.
  intros Hpm EU Hg Hv. pose proof Hpm as [Lm _].
  assert (In q (U ix main)) as Hq by (rewrite EU; apply in_app_iff; right; now left).
  pose proof (proj1 (proj1 (U_in ix main q) Hq)) as Hqr. pose proof (dim_of_valid sizes ix Hix q Hqr) as Hd.
  assert (U ix (upd main (Z.to_nat (dim_of q)) v) = P) as EU' by (apply (U_upd sizes); auto; lia).
  unfold weight. rewrite <- Hsz.
  rewrite <- (restrict_total sizes ix Hix ltac:(now rewrite Hsz) _ f (fun i => g (i ++ [v]))).
  - rewrite EU'. rewrite msz_proj; auto. rewrite <- EU'. apply U_pos.
  - apply partial_upd; auto. lia.
  - intros x Hx Hcx. assert (length x = length ix) as Lx by (rewrite (index_in_length _ _ Hx), proj_length; auto).
    rewrite Hsz in Hx. apply (compatible_upd sizes) in Hcx as [H1 H2]; auto; [|lia]. rewrite EU'.
    rewrite <- (Hg x) by auto. unfold proj. rewrite map_app. cbn [map]. now rewrite H2.
Qed.

Lemma rec_fills P : forall sm g main, P <> [] -> partial_index sizes main -> U ix main = P -> ranks sm P ->
  fits (msz sizes ix P) -> tpos (msz sizes ix P) g <= 2 ^ 21 -> tneg (msz sizes ix P) g <= 2 ^ 21 ->
  (forall x, index_in (c_sizes c) x -> compatible ix main x = true -> g (proj P x) = f x) ->
  forall main', recursive_sample (todo_of (us_of ix p) P) sm (mk (msz sizes ix P) g) ix main = Ok main' ->
  fills c sizes f p (rev (dims_of ix P)) main main'.
Proof.
  induction P as [|q P IH] using rev_ind; [easy|]. intros sm g main _ Hpm EU Hr Hf Htp Htn Hg main' E. pose proof Hpm as [Lm _].
  assert (In q (U ix main)) as Hq by (rewrite EU; apply in_app_iff; right; now left).
  pose proof (proj1 (proj1 (U_in ix main q) Hq)) as Hqr. pose proof (dim_of_valid sizes ix Hix q Hqr) as Hd.
  set (n := nth (Z.to_nat (dim_of q)) sizes 0).
  assert (msz sizes ix (P ++ [q]) = msz sizes ix P ++ [n]) as Em by (unfold msz; now rewrite map_app).
  assert (dims_of ix (P ++ [q]) = dims_of ix P ++ [dim_of q]) as Ed by (unfold dims_of; now rewrite map_app).
  assert (length (msz sizes ix P) = length P) as Lms by (unfold msz; now rewrite map_length).
  rewrite Em in *. rewrite Ed, rev_app_distr. cbn [rev app].
  assert (todo_of (us_of ix p) (P ++ [q]) = (q, us_of ix p q) :: todo_of (us_of ix p) P) as Et by (unfold todo_of; now rewrite map_app, rev_app_distr).
  rewrite Et in E.
  assert (0 <= n) as Hn0.
  { destruct Hf as (_ & Hpos & _). apply Forall_app in Hpos as [_ Hpos]. inversion Hpos. lia. }
  set (w := fun v => total (msz sizes ix P) (fun i => g (i ++ [v]))).
  assert (psum (map w (zrange n)) <= 2 ^ 21) as Hwp by (pose proof (psum_total (msz sizes ix P) n g Hn0); unfold w; lia).
  assert (nsum (map w (zrange n)) <= 2 ^ 21) as Hwn by (pose proof (nsum_total (msz sizes ix P) n g Hn0); unfold w; lia).
  assert ((us_of ix p q < 2 ^ 32)%N) as Hu.
  { unfold us_of. rewrite Forall_forall in Hp32. apply Hp32. apply nth_In. lia. }
  assert (forall k, selects w n (us_of ix p q) k -> selects (fun v => weight c f (upd main (Z.to_nat (dim_of q)) v)) n (us_of ix p q) k) as Hsel.
  { intros k. assert (forall j, j <= n -> cum w j = cum (fun v => weight c f (upd main (Z.to_nat (dim_of q)) v)) j) as Hc.
    { intros j Hj. apply sumZ_map_ext. intros v Hv. apply in_zrange in Hv. apply select_weight; auto. fold n. lia. }
    unfold selects. intros (H1 & H2 & H3). rewrite !Hc in H2 by lia. split; auto. split; auto.
    intros j Hj. specialize (H3 j Hj). rewrite !Hc in H3 by lia. auto. }
  destruct (list_eq_dec Z.eq_dec P []) as [->|HPne].
  - clear IH. cbn [todo_of map rev recursive_sample msz app dims_of] in *.
    rewrite nd_values_mk in E by auto. cbn [bind] in E. rewrite all_indices_1, map_map in E.
    assert (map (fun x => g [x]) (zrange n) = map w (zrange n)) as Ew.
    { apply map_ext. intros x. unfold w, total. simpl. lia. }
    rewrite Ew in E. destruct (pick _ _) as [k| | |] eqn:Ep; cbn [bind] in E; try discriminate.
    apply pick_selects in Ep; auto. rewrite (mi_set_ok sizes) in E by auto. injection E as <-.
    econstructor; [|constructor]. apply Hsel in Ep. exact Ep.
  - assert (msz sizes ix P <> []) as Hmne by (destruct P; [easy|discriminate]).
    destruct (fits_snoc_inv _ _ Hmne Hf) as [HfP Hn].
    assert (todo_of (us_of ix p) P <> []) as Hts.
    { unfold todo_of. intros E'. apply (f_equal (@length _)) in E'. rewrite rev_length, map_length in E'. destruct P; [easy|discriminate]. }
    assert (map_find sm q = Some (Z.of_nat (length P))) as Hsm.
    { specialize (Hr (length P)). rewrite app_nth2, Nat.sub_diag in Hr by lia. apply Hr. rewrite app_length. simpl. lia. }
    assert (ranks sm P) as HrP.
    { intros k Hk. specialize (Hr k). rewrite app_nth1 in Hr by lia. apply Hr. rewrite app_length. lia. }
    assert (Z.of_nat (length (P ++ [q])) <= Z.of_nat (length ix)) as LU.
    { rewrite <- EU. pose proof (NoDup_incl_length (l := U ix main) (l' := zrange (Z.of_nat (length ix))) (U_NoDup ix main)) as I.
      rewrite length_zrange, Nat2Z.id in I. enough (length (U ix main) <= length ix)%nat by lia. apply I.
      intros y Hy. apply in_zrange. apply U_in in Hy. tauto. }
    rewrite rec_cons, Hsm in E by auto. cbv zeta in E.
    assert (length (msz sizes ix P ++ [n]) = S (length P)) as LmS by (rewrite app_length; simpl; lia).
    rewrite app_length in LU. simpl in LU.
    rewrite reduce1_int_abs in E; auto; try (rewrite LmS; lia); try lia.
    2:{ fold (tabs (msz sizes ix P ++ [n]) g). rewrite tabs_pn. lia. }
    cbn [bind] in E.
    replace (nth (Z.to_nat (Z.of_nat (length P))) (msz sizes ix P ++ [n]) 0) with n in E.
    2:{ rewrite Nat2Z.id, app_nth2, Lms, Nat.sub_diag by lia. reflexivity. }
    assert (map (fun k => margin (msz sizes ix P ++ [n]) [Z.of_nat (length P)] [k] g) (zrange n) = map w (zrange n)) as Ew.
    { apply map_ext_in. intros k Hk. apply in_zrange in Hk. rewrite <- Lms. now apply margin_last. }
    rewrite Ew in E. destruct (pick _ _) as [k| | |] eqn:Ep; cbn [bind] in E; try discriminate.
    apply pick_selects in Ep; auto. rewrite (mi_set_ok sizes) in E by auto. cbn [bind] in E.
    assert (0 <= k < n) as Hk by apply Ep.
    rewrite <- Lms in E at 1. rewrite slice_last in E; auto; [|rewrite LmS; lia]. cbn [bind] in E.
    econstructor; [apply Hsel; exact Ep|]. eapply (IH sm (fun i => g (i ++ [k]))); eauto.
    + apply partial_upd; auto; lia.
    + apply (U_upd sizes); auto. lia.
    + pose proof (tpos_last (msz sizes ix P) n g k Hk). lia.
    + pose proof (tneg_last (msz sizes ix P) n g k Hk). lia.
    + intros x Hx Hcx. assert (length x = length ix) as Lx by (rewrite (index_in_length _ _ Hx), <- Hsz, proj_length; auto).
      apply (compatible_upd sizes) in Hcx as [H1 H2]; auto; [|lia].
      rewrite <- (Hg x) by auto. unfold proj. rewrite map_app. cbn [map]. now rewrite H2.
Qed.

Lemma missing_U main : missing c main = rev (dims_of ix (U ix main)).
Proof.
  unfold missing. f_equal.
  assert (forall l, filter (fun d => nth (Z.to_nat d) main 0 <? 0) (proj l ix) = dims_of ix (filter (fun q => negb (set_p ix main q)) l)) as G.
  { induction l as [|x l IH]; auto. unfold proj, dims_of in *. cbn [map filter]. rewrite IH. unfold set_p at 3.
    destruct (Z.ltb_spec (nth (Z.to_nat (dim_of x)) main 0) 0), (Z.ltb_spec (-1) (nth (Z.to_nat (dim_of x)) main 0)); simpl; try lia; reflexivity. }
  specialize (G (zrange (Z.of_nat (length ix)))). now rewrite proj_zrange in G.
Qed.

Lemma SL_compatible main x : length x = length ix -> compatible ix main x = true ->
  forall d v, In (d, v) (SL ix main) -> nth (Z.to_nat d) x 0 = v.
Proof.
  intros Lx Hcx d v Hin. unfold SL in Hin. apply in_map_iff in Hin as (q & [= -> <-] & Hq). apply filter_In in Hq as [Hq Hs].
  apply in_zrange in Hq. unfold set_p in Hs. apply Z.ltb_lt in Hs. rewrite compatible_spec in Hcx by auto.
  destruct (Hcx (Z.to_nat d) ltac:(lia)); [lia|auto].
Qed.

Lemma sample_fills main main' : partial_index sizes main -> tpos (c_sizes c) f <= 2 ^ 21 -> tneg (c_sizes c) f <= 2 ^ 21 ->
  sample ix p (mk (c_sizes c) f) main = Ok main' -> fills c sizes f p (missing c main) main main'.
Proof.
  intros Hpm Htp Htn E. pose proof Hpm as [Lm Hpm2]. unfold sample in E. rewrite (split_spec sizes) in E by auto. cbn [bind] in E.
  rewrite missing_U. set (UU := U ix main) in *.
  pose proof (U_pos ix main) as HU. fold UU in HU.
  destruct (todo_of (us_of ix p) UU) as [|t0 ts] eqn:Et.
  - injection E as <-. assert (UU = []) as EU.
    { destruct UU as [|u0 UU']; auto. unfold todo_of in Et. apply (f_equal (@length _)) in Et. rewrite rev_length, map_length in Et. discriminate. }
    rewrite EU. constructor.
  - assert (UU <> []) as HUne by (intros E'; rewrite E' in Et; discriminate).
    rewrite <- Et in E. clear t0 ts Et.
    assert (fixed_ok (proj ix sizes) (SL ix main)) as Hfix.
    { split.
      - rewrite SL_fst. apply NoDup_filter, NoDup_zrange.
      - apply Forall_forall. intros [q v] Hin. unfold SL in Hin. apply in_map_iff in Hin as (q' & [= -> <-] & Hq).
        apply filter_In in Hq as [Hq Hs]. apply in_zrange in Hq. unfold set_p in Hs. apply Z.ltb_lt in Hs.
        rewrite proj_length. split; auto. rewrite nth_proj by lia.
        pose proof (dim_of_valid sizes ix Hix q Hq). specialize (Hpm2 (Z.to_nat (nth (Z.to_nat q) ix 0)) ltac:(lia)). lia. }
    assert (fits (proj ix sizes)) as Hf by now rewrite Hsz.
    assert (fits (msz sizes ix UU)) as HfU.
    { rewrite msz_proj by auto. apply fits_proj; auto; [apply U_NoDup|]. rewrite proj_length. exact HU. }
    assert (exists g, slice (mk (proj ix sizes) f) (SL ix main) = Ok (mk (msz sizes ix UU) g) /\
       forall i, index_in (proj ix sizes) i -> (forall d v, In (d, v) (SL ix main) -> nth (Z.to_nat d) i 0 = v) ->
         g (proj UU i) = f i) as (g & Eg & Hg).
    { destruct (list_eq_dec (fun a b : Z * Z => ltac:(decide equality; apply Z.eq_dec)) (SL ix main) []) as [ES|ES].
      - rewrite ES, slice_nil by auto.
        assert (UU = zrange (Z.of_nat (length ix))) as EU.
        { unfold UU. rewrite <- (free_SL ix main (length ix)) by auto. rewrite ES. unfold free_dims. simpl.
          generalize (zrange (Z.of_nat (length ix))). induction l; simpl; congruence. }
        exists f. split.
        + rewrite msz_proj by auto. rewrite EU. f_equal.
          replace (Z.of_nat (length ix)) with (Z.of_nat (length (proj ix sizes))) by now rewrite proj_length.
          now rewrite proj_zrange.
        + intros i Hi _. rewrite EU. replace (Z.of_nat (length ix)) with (Z.of_nat (length i)).
          * now rewrite proj_zrange.
          * rewrite (index_in_length _ _ Hi), proj_length. reflexivity.
      - destruct (slice_mk (proj ix sizes) f (SL ix main)) as (g & Eg & Hg); auto.
        + pose proof (free_dims_length _ _ Hfix) as FL. rewrite proj_length, free_SL in FL by auto. fold UU in FL. rewrite proj_length.
          destruct UU; [easy|]. simpl in FL. lia.
        + rewrite proj_length. lia.
        + rewrite proj_length, free_SL by auto. fold UU. rewrite <- msz_proj by auto. auto.
        + rewrite proj_length, free_SL in Eg, Hg by auto. fold UU in Eg, Hg. exists g. split; auto. rewrite Eg, msz_proj; auto. }
    rewrite <- Hsz, Eg in E. cbn [bind] in E.
    assert (forall x, index_in (proj ix sizes) x -> compatible ix main x = true -> g (proj UU x) = f x) as Hgc.
    { intros x Hx Hcx. apply Hg; auto. apply SL_compatible; auto. rewrite (index_in_length _ _ Hx), proj_length. auto. }
    rewrite <- Hsz in Htp, Htn.
    eapply rec_fills; eauto.
    + apply (U_ranks sizes ix p); auto.
    + unfold tpos in *. rewrite msz_proj by auto. unfold UU.
      rewrite (restrict_total sizes ix Hix Hf main (fun x => Z.max 0 (f x))); auto.
      * eapply Z.le_trans; [|exact Htp]. unfold sum_where, total. apply sum_filter_le. intros. lia.
      * intros x Hx Hcx. fold UU. now rewrite Hgc.
    + unfold tneg in *. rewrite msz_proj by auto. unfold UU.
      rewrite (restrict_total sizes ix Hix Hf main (fun x => Z.max 0 (- f x))); auto.
      * eapply Z.le_trans; [|exact Htn]. unfold sum_where, total. apply sum_filter_le. intros. lia.
      * intros x Hx Hcx. fold UU. now rewrite Hgc.
    + now rewrite <- Hsz.
Qed.
End Rec.

(** * Changing the rest outside the array *)

Lemma selects_ext w w' n u k : (forall v, 0 <= v < n -> w v = w' v) -> selects w n u k -> selects w' n u k.
Proof.
  intros H. assert (forall j, j <= n -> cum w j = cum w' j) as Hc.
  { intros j Hj. apply sumZ_map_ext. intros v Hv. apply in_zrange in Hv. apply H. lia. }
  unfold selects. intros (H1 & H2 & H3). rewrite !Hc in H2 by lia. split; auto. split; auto.
  intros j Hj. specialize (H3 j Hj). rewrite !Hc in H3 by lia. auto.
Qed.

Lemma weight_ext c f f' main : (forall x, index_in (c_sizes c) x -> f x = f' x) -> weight c f main = weight c f' main.
Proof.
  intros H. unfold weight, sum_where. apply sumZ_map_ext. intros x Hx. apply filter_In in Hx as [Hx _]. apply H. now apply in_all_indices.
Qed.

Lemma fills_ext c sizes f f' p : (forall x, index_in (c_sizes c) x -> f x = f' x) ->
  forall ds main main', fills c sizes f p ds main main' -> fills c sizes f' p ds main main'.
Proof.
  intros H ds main main'. induction 1 as [main|d ds main k main' Hs Hf IH]; [constructor|]. econstructor; [|exact IH].
  eapply selects_ext; [|exact Hs]. intros v _. cbv beta. now apply weight_ext.
Qed.

(** * The loop *)

Lemma occ_snoc people i x : occurrences x (people ++ [i]) = inc (fun x => occurrences x people) i x.
Proof.
  unfold occurrences, inc, fupd. rewrite filter_app, app_length. simpl. destruct (idx_eqb x i) eqn:E; simpl.
  - apply idx_eqb_true in E. subst. lia.
  - lia.
Qed.

Lemma margin_ext sizes dims k r r' : (forall i, index_in sizes i -> r i = r' i) -> margin sizes dims k r = margin sizes dims k r'.
Proof.
  intros H. unfold margin, sum_where. apply sumZ_map_ext. intros x Hx. apply filter_In in Hx as [Hx _]. apply H. now apply in_all_indices.
Qed.

Lemma margin_occ sizes dims k people : Forall (index_in sizes) people ->
  margin sizes dims k (fun x => occurrences x people) = tally dims k people.
Proof.
  induction people as [|i people IH] using rev_ind; intros H.
  - unfold margin, sum_where, tally, occurrences. simpl. rewrite sumZ_map_const. lia.
  - apply Forall_app in H as [H Hi]. inversion Hi; subst.
    rewrite (margin_ext _ _ _ _ (inc (fun x => occurrences x people) i)) by (intros; apply occ_snoc).
    rewrite margin_inc, IH by auto. unfold tally. rewrite filter_app, app_length. simpl. destruct (idx_eqb (proj dims i) k); simpl; lia.
Qed.

Section Loop.
Context (cs : list con) (sizes : list Z).
Context (Hsm : forall c, In c cs -> csmall c) (Himp : implied cs sizes) (Hfit : fits sizes) (Hnn : forall c, In c cs -> nonneg c).
Context (Hnd : forall c, In c cs -> NoDup (c_dims c)).

Lemma rem_left c people x : Forall (index_in sizes) people -> rem sizes c (fun x => occurrences x people) x = left_of people c x.
Proof. intros H. unfold rem, left_of. now rewrite margin_occ. Qed.

Lemma tpos_rem c r t : In c cs -> counts sizes t r -> tpos (c_sizes c) (rem sizes c r) <= c_total c.
Proof.
  intros Hc [Hr _]. unfold tpos, c_total, total. apply sumZ_map_le. intros x Hx. apply in_all_indices in Hx.
  pose proof (Hnn c Hc x Hx). pose proof (margin_le_total sizes (c_dims c) x r Hr). unfold rem. lia.
Qed.

Lemma tneg_rem c r t : In c cs -> counts sizes t r -> tneg (c_sizes c) (rem sizes c r) <= t.
Proof.
  intros Hc [Hr <-]. rewrite <- (total_margin sizes (c_dims c)) by (apply (cdims cs); auto). rewrite (csizes cs) by auto.
  unfold tneg, total. apply sumZ_map_le. intros x Hx. apply in_all_indices in Hx.
  pose proof (Hnn c Hc x Hx). pose proof (margin_le_total sizes (c_dims c) x r Hr). unfold rem. lia.
Qed.

Lemma draw_individual people p t : Forall (index_in sizes) people -> counts sizes t (fun x => occurrences x people) ->
  t <= 2 ^ 21 -> (forall c, In c cs -> c_total c <= 2 ^ 21) -> length p = length sizes -> Forall (fun u => u < 2 ^ 32)%N p ->
  forall post pre main, cs = pre ++ post -> trail sizes pre main -> forall main',
  foldM (fun '(k, ix) main => let* a := vec_get (rems cs sizes (fun x => occurrences x people)) k in sample ix p a main)
             (numbered (Z.of_nat (length pre)) (map c_dims post)) main = Ok main' ->
  individual sizes (left_of people) p post main main'.
Proof.
  intros Hp Hc Ht Htot Hl Hu. induction post as [|c post IH]; intros pre main E Htr main' Ef.
  - cbn [map numbered foldM] in Ef. injection Ef as <-. constructor.
  - cbn [map numbered foldM] in Ef. rewrite (vec_get_rems cs sizes _ pre c post E) in Ef. cbn [bind] in Ef.
    assert (In c cs) as Hin by (rewrite E; apply in_app_iff; right; now left).
    destruct (sample_one cs sizes Hsm Himp _ t p c pre post main E Hc ltac:(lia) Hl Htr) as [Hs _].
    destruct Hs as [(e & Es)|(m1 & Es & Htr' & _)]; rewrite Es in Ef; cbn [bind] in Ef; [discriminate|].
    replace (Z.of_nat (length pre) + 1) with (Z.of_nat (length (pre ++ [c]))) in Ef by (rewrite app_length; simpl; lia).
    econstructor.
    + apply fills_ext with (f := rem sizes c (fun x => occurrences x people)); [intros; now apply rem_left|].
      destruct (Hsm c Hin) as (Hfc & Hl31 & _).
      eapply sample_fills; eauto.
      * now apply (cdims cs).
      * rewrite (clen cs sizes) by auto. auto.
      * now apply (csizes cs).
      * apply Htr.
      * pose proof (tpos_rem c _ t Hin Hc). specialize (Htot c Hin). lia.
      * pose proof (tneg_rem c _ t Hin Hc). lia.
    + eapply IH; [|exact Htr'|exact Ef]. now rewrite <- app_assoc.
Qed.

Context (cols : list (list N)) (Hcols : length cols = length sizes) (Hdir : Forall valid_directions cols).

(** the state after the individuals [people] *)
Definition pinv (v0 : N) (people : list (list Z)) (s : qstate) : Prop :=
  Forall (index_in sizes) people /\
  (forall t x, nth_error people t = Some x ->
     individual sizes (left_of (firstn t people)) (point_of cols (v0 + N.of_nat t + 1)) cs (repeat (-1) (length sizes)) x) /\
  exists v, view_of cols v (q_sobol s) /\ v_n v = (v0 + N.of_nat (length people))%N /\
    q_margs s = rems cs sizes (fun x => occurrences x people) /\ q_arr s = mk sizes (fun x => occurrences x people).

Lemma occ_counts people : Forall (index_in sizes) people -> counts sizes (Z.of_nat (length people)) (fun x => occurrences x people).
Proof.
  induction people as [|i people IH] using rev_ind; intros H.
  - split; [intros; unfold occurrences; simpl; lia|]. unfold total, occurrences. simpl. now rewrite sumZ_map_const.
  - apply Forall_app in H as [H Hi]. inversion Hi; subst. specialize (IH H).
    apply (counts_inc sizes _ _ i) in IH; auto. destruct IH as [Ha Hb]. split.
    + intros. unfold occurrences. lia.
    + rewrite app_length. simpl. replace (Z.of_nat (length people + 1)) with (Z.of_nat (length people) + 1) by lia. rewrite <- Hb.
      unfold total. apply sumZ_map_ext. intros x _. apply occ_snoc.
Qed.

Lemma step_people v0 people s s' : pinv v0 people s -> Z.of_nat (length people) <= 2 ^ 21 -> (forall c, In c cs -> c_total c <= 2 ^ 21) ->
  qis_step (length sizes) (map c_dims cs) s = Ok s' -> exists i, pinv v0 (people ++ [i]) s'.
Proof.
  intros (Hp & Hind & v & Hv & Hn & Em & Ea) Hl Htot E. unfold qis_step in E.
  destruct (N.eq_dec (v_n v) limit) as [El|Nl].
  { rewrite (sobol_buf_end cols v _ Hv El) in E. cbn [bind] in E. discriminate. }
  pose proof (view_n_le _ _ _ Hv) as Hle.
  destruct (sobol_buf_ok cols v _ Hdir Hv) as (sb & Eb & Hv'); [lia|]. rewrite Eb in E. cbn [bind] in E.
  pose proof (occ_counts people Hp) as Hc.
  set (p := point_of cols (v_n v + 1)) in *.
  assert (length p = length sizes) as Lp by (unfold p, point_of; now rewrite map_length).
  assert (Forall (fun u => u < 2 ^ 32)%N p) as Hu.
  { unfold p, point_of. rewrite Forall_map. revert Hdir. apply Forall_impl. intros m Hm. now apply coord_lt. }
  rewrite Em in E. fold (draw cs sizes (fun x => occurrences x people) p (repeat (-1) (length sizes))) in E.
  destruct (draw_safe cs sizes Hsm Himp Hfit (fun x => occurrences x people) _ p Hc ltac:(lia) Lp) as [(e & Ed)|(main & Ed & Hm)]; rewrite Ed in E; cbn [bind] in E; [discriminate|].
  rewrite (all_set sizes) in E by auto.
  destruct (decrement_ok cs sizes Hsm Himp Hnn (fun x => occurrences x people) _ main (q_conv s) Hc ltac:(lia) Hm) as (conv' & Edec & _).
  rewrite Edec in E. cbn [bind] in E. rewrite Ea, (increment_ok sizes Hfit _ (Z.of_nat (length people)) main) in E by (auto; lia). cbn [bind] in E.
  injection E as <-. exists main. split; [apply Forall_app; auto|]. split.
  - intros t x Hx. destruct (Nat.lt_ge_cases t (length people)) as [Hlt|Hge].
    + rewrite nth_error_app1 in Hx by auto. rewrite firstn_app. replace (t - length people)%nat with 0%nat by lia. simpl firstn. rewrite app_nil_r. auto.
    + assert (t < length (people ++ [main]))%nat as Hlt by (apply nth_error_Some; congruence).
      rewrite app_length in Hlt. simpl in Hlt. assert (t = length people) as -> by lia.
      rewrite nth_error_app2, Nat.sub_diag in Hx by lia. injection Hx as <-.
      rewrite firstn_app, Nat.sub_diag. simpl firstn. rewrite firstn_all, app_nil_r. rewrite <- Hn. fold p.
      unfold draw in Ed. eapply (draw_individual people p (Z.of_nat (length people)) Hp Hc Hl Htot Lp Hu cs [] _ eq_refl (trail_nil sizes Hfit) main Ed).
  - exists (SV (v_n v + 1) (v_n v + 1) (v_pos v)). cbn [q_sobol q_margs q_arr v_n]. split; auto. split; [rewrite app_length; simpl; lia|].
    split.
    + unfold rems. apply map_ext_in. intros c Hin. apply mk_ext. intros k _. unfold rem. f_equal. apply margin_ext. intros; symmetry; apply occ_snoc.
    + apply mk_ext. intros k _. symmetry. apply occ_snoc.
Qed.

Lemma loop_people v0 n : forall people s s', pinv v0 people s -> Z.of_nat (length people) + Z.of_nat n <= 2 ^ 21 ->
  (forall c, In c cs -> c_total c <= 2 ^ 21) ->
  foldM (fun (_ : unit) s => qis_step (length sizes) (map c_dims cs) s) (repeat tt n) s = Ok s' ->
  exists people', pinv v0 people' s' /\ length people' = (length people + n)%nat.
Proof.
  induction n as [|n IH]; intros people s s' Hi Hl Htot E.
  - simpl in E. injection E as <-. exists people. split; auto; lia.
  - simpl repeat in E. cbn [foldM] in E. destruct (qis_step _ _ s) as [s1| | |] eqn:Es; cbn [bind] in E; try discriminate.
    destruct (step_people v0 people s s1 Hi ltac:(lia) Htot Es) as (i & Hi1).
    destruct (IH (people ++ [i]) s1 s' Hi1) as (people' & Hp & Hlp); auto; [rewrite app_length; simpl; lia|].
    exists people'. split; auto. rewrite Hlp, app_length. simpl. lia.
Qed.

Lemma pinv_start sb v : view_of cols v sb -> pinv (v_n v) [] (QS sb (map nd_of cs) (mk sizes (fun _ => 0)) true).
Proof.
  intros Hv. split; [constructor|]. split; [intros [|t] x; discriminate|]. exists v. cbn [q_sobol q_margs q_arr].
  split; auto. split; [simpl; lia|]. split.
  - unfold rems. apply map_ext. intros c. unfold nd_of. apply mk_ext. intros k _. unfold rem. unfold margin, sum_where, occurrences.
    simpl. rewrite sumZ_map_const. lia.
  - apply mk_ext. intros k _. reflexivity.
Qed.
End Loop.

Lemma mk_inj {T} sizes (f g : list Z -> T) : fits sizes -> mk sizes f = mk sizes g -> forall i, index_in sizes i -> f i = g i.
Proof. intros Hf E i Hi. pose proof (nd_get_mk sizes f i Hf Hi) as H. rewrite E, nd_get_mk in H by auto. now injection H. Qed.

Lemma people_claim L fuel ilist mlist skips res : in_range ilist mlist ->
  (forall c, In c (cons_of ilist mlist) -> NoDup (c_dims c)) ->
  py_qis L fuel ilist mlist skips = Ok res -> qr_pop res <= 2 ^ 21 ->
  let cs := cons_of ilist mlist in let sizes := shape (qr_pop_array res) in
  exists points people, Z.of_nat (length people) = qr_pop res /\
    (forall t, (t < length people)%nat ->
       nth_draw (N.of_nat (length sizes)) (skipped (Z.to_N (u32 skips)) + N.of_nat t + 1) = Ok (points t)) /\
    sampled cs sizes points people /\
    (forall i, index_in sizes i -> entry 0 (qr_pop_array res) i = occurrences i people) /\
    (qr_conv res = true -> forall t c k, In c cs -> index_in (c_sizes c) k -> 0 <= left_of (firstn t people) c k).
Proof.
  intros Hr Hnd E Hpop cs. assert (forall c, In c cs -> csmall c) as Hsm by (intros c; now apply range_small).
  pose proof (conv_claim L fuel ilist mlist skips res Hr E) as Hconv.
  destruct (qis_cases L fuel ilist mlist skips Hr) as [[(e & E') _]|(Hv & sizes & Hvc & Hf & H)]; [congruence|].
  cbv zeta in H. destruct H as [(_ & e & E')|[(E' & _)|(Hu & Hd & cols & sb & v & Hlc & Hdir & Htab & Hvw & Hvn & H)]]; try congruence.
  destruct H as [(e & _ & E')|(s & r & El & Ea & Hc & Hcv & Hp & Ht & E')]; [congruence|]. fold cs in El, Ht, Hp, E'.
  set (pop := pop_of (c_total (hd con0 cs))) in *.
  rewrite E in E'. injection E' as Eres. rewrite Eres in Hpop, Hconv |- *. clear Eres E. cbn [qr_pop qr_pop_array qr_conv shape] in *.
  pose proof Hvc as (Hl2 & Himp & Hd2 & Hnn & _).
  pose proof (pinv_start cs sizes cols Hlc sb v Hvw) as Hinv.
  assert (0 <= pop) as Hp0.
  { destruct Hc as [H1 H2]. fold cs pop in H2. rewrite <- H2. now apply total_nonneg. }
  unfold repeatM in El.
  destruct (loop_people cs sizes Hsm Himp Hf Hnn Hnd cols Hlc Hdir (v_n v) (Z.to_nat pop) [] _ s Hinv) as (people & (Hpi & Hind & v' & Hv' & Hn' & _ & Ea') & Hlp); auto.
  { simpl. lia. } { intros c Hin. rewrite (Ht c Hin). lia. }
  simpl in Hlp. exists (fun t => point_of cols (v_n v + N.of_nat t + 1)), people. split; [lia|]. 
  assert (forall i, index_in sizes i -> entry 0 (NDA sizes (map r (all_indices sizes))) i = occurrences i people) as Hocc.
  { intros i Hi. rewrite entry_NDA_map by auto. rewrite Ea in Ea'. apply (mk_inj sizes _ _ Hf Ea' i Hi). }
  split; [|split; [exact Hind|split; [exact Hocc|]]].
  - intros t Hlt.
    pose proof (view_n_le _ _ _ Hv') as Hle.
    assert (skipped (Z.to_N (u32 skips)) = v_n v) as -> by (rewrite Hvn; reflexivity).
    destruct (nth_draw_ok (N.of_nat (length sizes)) (v_n v + N.of_nat t + 1) ltac:(lia) ltac:(lia)) as (cols' & Edr & Ht' & _).
    rewrite Nat2N.id in Ht'. assert (cols' = cols) as -> by (symmetry; eapply table_unique; eauto).
    exact Edr.
  - intros Hcv' t c k Hin Hk. pose proof (proj1 Hconv Hcv' c Hin k Hk) as Hm.
    rewrite (margin_ext _ _ _ _ _ Hocc), margin_occ in Hm by auto. unfold left_of.
    enough (tally (c_dims c) k (firstn t people) <= tally (c_dims c) k people) by lia.
    unfold tally. rewrite <- (firstn_skipn t people) at 2. rewrite filter_app, app_length. lia.
Qed.

(** * The relation determines the population *)

Lemma selects_unique w n u k k' : selects w n u k -> selects w n u k' -> k = k'.
Proof.
  intros (H1 & H2 & H3) (H1' & H2' & H3'). destruct (Z.lt_trichotomy k k') as [H|[H|H]]; auto.
  - specialize (H3' k ltac:(lia)). lia.
  - specialize (H3 k' ltac:(lia)). lia.
Qed.

Lemma fills_unique c sizes rest p ds main m1 : fills c sizes rest p ds main m1 -> forall m2, fills c sizes rest p ds main m2 -> m1 = m2.
Proof.
  induction 1 as [main|d ds main k m1 Hs Hf IH]; intros m2 H2.
  - now inversion H2.
  - inversion H2 as [|? ? ? k' ? Hs' Hf']; subst. pose proof (selects_unique _ _ _ _ _ Hs Hs') as <-. auto.
Qed.

Lemma individual_unique sizes rest p cs main m1 : individual sizes rest p cs main m1 -> forall m2, individual sizes rest p cs main m2 -> m1 = m2.
Proof.
  induction 1 as [main|c cs main a m1 Hf Hi IH]; intros m2 H2.
  - now inversion H2.
  - inversion H2 as [|? ? ? b ? Hf' Hi']; subst. pose proof (fills_unique _ _ _ _ _ _ _ Hf _ Hf') as <-. auto.
Qed.

Lemma sampled_unique cs sizes points people people' : sampled cs sizes points people -> sampled cs sizes points people' ->
  length people = length people' -> people = people'.
Proof.
  intros H H' Hl. assert (forall n, (n <= length people)%nat -> firstn n people = firstn n people') as G.
  { induction n as [|n IH]; intros Hn; auto. specialize (IH ltac:(lia)).
    destruct (nth_error people n) as [x|] eqn:Ex; [|apply nth_error_None in Ex; lia].
    destruct (nth_error people' n) as [x'|] eqn:Ex'; [|apply nth_error_None in Ex'; lia].
    pose proof (H n x Ex) as Hx. pose proof (H' n x' Ex') as Hx'. rewrite IH in Hx.
    pose proof (individual_unique _ _ _ _ _ _ Hx _ Hx') as <-.
    assert (forall l, nth_error l n = Some x -> firstn (S n) l = firstn n l ++ [x]) as F.
    { clear. induction n as [|n IH]; intros [|y l]; simpl; intros E; try discriminate; [now injection E as ->|]. f_equal. now apply IH. }
    rewrite !F, IH; auto. }
  specialize (G (length people) ltac:(lia)). rewrite firstn_all in G. rewrite Hl, firstn_all in G. auto.
Qed.

(** * Non-negative weights *)

Lemma cum_mono w n i j : (forall v, 0 <= v < n -> 0 <= w v) -> 0 <= i <= j -> j <= n -> cum w i <= cum w j.
Proof.
  intros Hw Hij Hj. rewrite (zrange_split j i) by auto. rewrite map_app, sumZ_app.
  enough (0 <= sumZ (map w (map Z.of_nat (List.seq (Z.to_nat i) (Z.to_nat j - Z.to_nat i))))) by lia.
  apply sumZ_nonneg. intros x Hx. rewrite map_map in Hx. apply in_map_iff in Hx as (m & <- & Hm). apply in_seq in Hm. apply Hw. lia.
Qed.

Lemma quantile_claim w n u : (forall v, 0 <= v < n -> 0 <= w v) -> 0 < sumZ (map w (zrange n)) -> (u < 2 ^ 32)%N ->
  (exists k, selects w n u k) /\
  (forall k, selects w n u k <->
     0 <= k < n /\ 2 ^ 32 * sumZ (map w (zrange k)) <= Z.of_N u * sumZ (map w (zrange n)) < 2 ^ 32 * sumZ (map w (zrange (k + 1)))).
Proof.
  intros Hw Hs Hu.
  assert (0 < n) as Hn. { destruct (Z.lt_ge_cases 0 n); auto. unfold zrange in Hs. replace (Z.to_nat n) with 0%nat in Hs by lia. simpl in Hs. lia. }
  split.
  - assert (forall m, Z.of_nat m <= n -> (exists k, selects w n u k) \/ 2 ^ 32 * cum w (Z.of_nat m) <= Z.of_N u * cum w n) as G.
    { induction m as [|m IH]; intros Hm.
      - right. simpl (zrange _). simpl. nia.
      - destruct (IH ltac:(lia)) as [H|H]; [now left|].
        destruct (Z.lt_ge_cases (Z.of_N u * cum w n) (2 ^ 32 * cum w (Z.of_nat m + 1))) as [Hlt|Hge].
        + left. exists (Z.of_nat m). split; [lia|]. split; auto. intros j Hj.
          pose proof (cum_mono w n (j + 1) (Z.of_nat m) Hw ltac:(lia) ltac:(lia)). lia.
        + right. now replace (Z.of_nat (S m)) with (Z.of_nat m + 1) by lia. }
    destruct (G (Z.to_nat n) ltac:(lia)) as [H|H]; auto. rewrite Z2Nat.id in H by lia. nia.
  - intros k. split.
    + intros (H1 & H2 & H3). split; auto. split; auto. destruct (Z.eq_dec k 0) as [->|Hk].
      * simpl (zrange 0). simpl. nia.
      * specialize (H3 (k - 1) ltac:(lia)). now replace (k - 1 + 1) with k in H3 by lia.
    + intros (H1 & H2 & H3). split; auto. split; auto. intros j Hj.
      pose proof (cum_mono w n (j + 1) k Hw ltac:(lia) ltac:(lia)). lia.
Qed.

(** * Above 2^21 the threshold is rounded *)

Lemma rounding_claim : exists w n u k k', (forall v, 0 <= v < n -> 0 <= w v) /\ 2 ^ 21 < sumZ (map w (zrange n)) < 2 ^ 21 + 1000 /\ (u < 2 ^ 32)%N /\
  pick (map w (zrange n)) (unit_of u) = Ok k /\ selects w n u k' /\ k <> k'.
Proof.
  exists (fun v => if v =? 0 then 2097696 else 89), 2, 4294785079%N, 1, 0.
  split; [intros v _; destruct (v =? 0); lia|]. split; [vm_compute; auto|]. split; [reflexivity|]. split; [vm_compute; reflexivity|]. split; [|lia].
  split; [lia|]. split; [vm_compute; reflexivity|]. lia.
Qed.
