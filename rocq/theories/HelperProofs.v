(** The helper functions of NDArrayUtils.h and the element access of the distributions (C76, C77). *)
From Coq Require Import Reals Psatz.
From Flocq Require Import Core.Core IEEE754.BinarySingleNaN.
From Verif Require Import Base Spec SpecFacts NDArray IndexProofs Float64 FloatProofs FloatExt ArrayOps ArrayProofs Bind BindProofs MicroProofs IpfProofs Ddwr DdwrProofs Helpers HelperSpec.
Open Scope Z_scope.

Lemma forallb_ext {A} (f g : A -> bool) l : (forall x, f x = g x) -> forallb f l = forallb g l.
Proof. intros H. induction l; cbn; congruence. Qed.

Lemma fold_i64 (op : Z -> Z -> Z) l : forall acc,
  foldM (fun x a => i64 (op a x)) l acc =
    if forallb (fun k => in_i64 (fold_left op (firstn k l) acc)) (seq 1 (length l)) then Ok (fold_left op l acc) else UB "signed 64-bit overflow".
Proof.
  induction l as [|x l IH]; intros acc; [reflexivity|]. cbn [foldM length seq forallb fold_left firstn]. unfold i64 at 1.
  destruct (in_i64 (op acc x)); [|reflexivity]. cbn [bind andb]. rewrite IH. rewrite <- (seq_shift _ 1).
  assert (forall g (ks : list nat), forallb g (map S ks) = forallb (fun k => g (S k)) ks) as -> by (intros g ks; induction ks; cbn; congruence). reflexivity.
Qed.

Lemma fold_sum l acc : fold_left Z.add l acc = acc + sumZ l.
Proof. revert acc. induction l as [|x l IH]; intros acc; cbn [fold_left]; [cbn; lia|]. rewrite IH. change (sumZ (x :: l)) with (x + sumZ l). lia. Qed.
Lemma fold_prod l acc : fold_left Z.mul l acc = acc * prodZ l.
Proof. revert acc. induction l as [|x l IH]; intros acc; cbn [fold_left]; [cbn; lia|]. rewrite IH. change (prodZ (x :: l)) with (x * prodZ l). ring. Qed.

Lemma in_i64_iff z : in_i64 z = true <-> int64 z.
Proof. unfold in_i64, int64. rewrite andb_true_iff, Z.leb_le, Z.ltb_lt. tauto. Qed.

Lemma prefixes_b (f : list Z -> Z) l : f [] = 0 \/ f [] = 1 ->
  forallb (fun k => in_i64 (f (firstn k l))) (seq 1 (length l)) = true <-> (forall pre post, l = pre ++ post -> int64 (f pre)).
Proof.
  intros H0. rewrite forallb_forall. split.
  - intros H pre post ->. destruct pre as [|x pre]; [unfold int64; destruct H0 as [-> | ->]; lia|].
    specialize (H (length (x :: pre))). rewrite firstn_app, firstn_all, Nat.sub_diag, app_nil_r in H. apply in_i64_iff, H. apply in_seq. rewrite app_length. cbn [length]. lia.
  - intros H k Hk. apply in_i64_iff. apply (H _ (skipn k l)). now rewrite firstn_skipn.
Qed.

Lemma sum_helper_claim v : (vec_sum IntOps v = Ok (sumZ v) <-> forall pre post, v = pre ++ post -> int64 (sumZ pre)) /\
  (vec_sum IntOps v <> Ok (sumZ v) -> exists w, vec_sum IntOps v = UB w).
Proof.
  assert (vec_sum IntOps v = if forallb (fun k => in_i64 (sumZ (firstn k v))) (seq 1 (length v)) then Ok (sumZ v) else UB "signed 64-bit overflow") as E.
  { unfold vec_sum. cbn [n_add n_zero IntOps]. rewrite (fold_i64 Z.add), fold_sum, Z.add_0_l.
    match goal with |- (if ?a then _ else _) = (if ?b then _ else _) => assert (a = b) as ->; [|reflexivity] end.
    apply forallb_ext. intros k. now rewrite fold_sum. }
  rewrite <- (prefixes_b sumZ v) by now left. rewrite E. destruct forallb; split; try tauto; try (split; congruence). intros _. eauto.
Qed.

Lemma product_helper_claim v : (vec_product IntOps 1 v = Ok (prodZ v) <-> forall pre post, v = pre ++ post -> int64 (prodZ pre)) /\
  (vec_product IntOps 1 v <> Ok (prodZ v) -> exists w, vec_product IntOps 1 v = UB w).
Proof.
  assert (vec_product IntOps 1 v = if forallb (fun k => in_i64 (prodZ (firstn k v))) (seq 1 (length v)) then Ok (prodZ v) else UB "signed 64-bit overflow") as E.
  { unfold vec_product. cbn [n_mul IntOps]. rewrite (fold_i64 Z.mul), fold_prod, Z.mul_1_l.
    match goal with |- (if ?a then _ else _) = (if ?b then _ else _) => assert (a = b) as ->; [|reflexivity] end.
    apply forallb_ext. intros k. rewrite fold_prod. now rewrite Z.mul_1_l. }
  rewrite <- (prefixes_b prodZ v) by now right. rewrite E. destruct forallb; split; try tauto; try (split; congruence). intros _. eauto.
Qed.

Lemma is_zero_int_claim v : is_zero_vec IntOps v = true <-> Forall (fun x => x = 0) v.
Proof. unfold is_zero_vec. rewrite forallb_forall, Forall_forall. cbn [n_eqb n_zero IntOps]. split; intros H x Hx; [apply Z.eqb_eq|apply Z.eqb_eq]; auto. Qed.
Lemma is_zero_dbl_claim v : is_zero_vec DblOps v = true <-> Forall (fun x => is_finite x = true /\ B2R x = 0%R) v.
Proof.
  unfold is_zero_vec. rewrite forallb_forall, Forall_forall. cbn [n_eqb n_zero DblOps].
  assert (forall x, d_eqb x d_zero = true <-> is_finite x = true /\ B2R x = 0%R) as Hx.
  { intros [s|s| |s m e B]; split; try (intros [H1 H2]); try discriminate; try (now split).
    - intros H. destruct s; discriminate H.
    - intros H. destruct s; discriminate H.
    - exfalso. cbn [B2R] in H2. apply eq_0_F2R in H2. destruct s; discriminate. }
  split; intros H x Hi; apply Hx; auto.
Qed.

(** marginalProduct: the rows before [done] have been multiplied *)
Lemma mp_loop m : forall idx pre acc, places m idx ->
  foldM (fun '(d, row) p => let* i := vec_get (pre ++ idx) d in let* x := vec_get row i in i64 (p * x)) (numbered (Z.of_nat (length pre)) m) acc =
  foldM (fun x a => i64 (a * x)) (chosen m idx) acc.
Proof.
  induction m as [|row m IH]; intros idx pre acc H; [destruct idx; reflexivity|]. inversion H as [|? i ? idx' Hi Ht]; subst. cbn [numbered foldM chosen].
  rewrite vec_get_ok with (d := 0) by (rewrite app_length; cbn [length]; lia). rewrite Nat2Z.id, app_nth2, Nat.sub_diag by lia. cbn [nth bind].
  rewrite vec_get_ok with (d := 0) by lia. cbn [bind]. destruct (i64 (acc * nth (Z.to_nat i) row 0)) as [a| | |]; cbn [bind]; auto.
  replace (Z.of_nat (length pre) + 1) with (Z.of_nat (length (pre ++ [i]))) by (rewrite app_length; cbn [length]; lia).
  rewrite <- (IH idx' (pre ++ [i]) a Ht). now rewrite <- app_assoc.
Qed.

Lemma marginal_product_claim m idx : places m idx ->
  (marginal_product IntOps 1 m idx = Ok (prodZ (chosen m idx)) <-> forall pre post, chosen m idx = pre ++ post -> int64 (prodZ pre)) /\
  (marginal_product IntOps 1 m idx <> Ok (prodZ (chosen m idx)) -> exists w, marginal_product IntOps 1 m idx = UB w).
Proof.
  intros H. assert (marginal_product IntOps 1 m idx = vec_product IntOps 1 (chosen m idx)) as -> by exact (mp_loop m idx [] 1 H). apply product_helper_claim.
Qed.

Lemma mp_bad m : forall idx pre acc, length m = length idx -> ~ places m idx ->
  exists w, foldM (fun '(d, row) p => let* i := vec_get (pre ++ idx) d in let* x := vec_get row i in i64 (p * x)) (numbered (Z.of_nat (length pre)) m) acc = UB w.
Proof.
  induction m as [|row m IH]; intros [|i idx] pre acc El H; try discriminate; [exfalso; apply H; constructor|]. injection El as El. cbn [numbered foldM].
  rewrite vec_get_ok with (d := 0) by (rewrite app_length; cbn [length]; lia). rewrite Nat2Z.id, app_nth2, Nat.sub_diag by lia. cbn [nth bind].
  destruct (Z_lt_ge_dec i 0) as [Hi|Hi]; [eexists; unfold vec_get; destruct (Z.leb_spec 0 i); [lia|]; reflexivity|].
  destruct (Z_lt_ge_dec i (Z.of_nat (length row))) as [Hj|Hj].
  - rewrite vec_get_ok with (d := 0) by lia. cbn [bind]. unfold i64 at 1. destruct in_i64; cbn [bind]; [|eauto].
    replace (Z.of_nat (length pre) + 1) with (Z.of_nat (length (pre ++ [i]))) by (rewrite app_length; cbn [length]; lia).
    replace (pre ++ i :: idx) with ((pre ++ [i]) ++ idx) by now rewrite <- app_assoc. apply IH; auto. intros Hp. apply H. constructor; auto. lia.
  - eexists. unfold vec_get. destruct (Z.leb_spec 0 i); [|lia]. destruct (nth_error row (Z.to_nat i)) eqn:E; [|reflexivity].
    exfalso. assert (Z.to_nat i < length row)%nat by (apply nth_error_Some; congruence). lia.
Qed.

Lemma marginal_product_bad_claim m idx : length m = length idx -> ~ places m idx -> exists w, marginal_product IntOps 1 m idx = UB w.
Proof. intros El H. exact (mp_bad m idx [] 1 El H). Qed.

Lemma allclose_nan_claim x : allclose DblOps [d_div d_zero d_zero] [x] = true.
Proof. destruct x; reflexivity. Qed.
Lemma pow79 : (p2 (-79) * 604462909807314587353088 = 1)%R.
Proof.
  replace 604462909807314587353088%R with (p2 79) by (rewrite <- IZR_p2 by lia; reflexivity). rewrite <- bpow_plus. reflexivity.
Qed.
Lemma close_real x y : is_finite x = true -> is_finite y = true ->
  ((Rabs (B2R x - B2R y) <= / 100000000)%R -> n_close DblOps x y = true) /\
  (n_close DblOps x y = true -> (Rabs (B2R x - B2R y) <= / 100000000 * (1 + / 2 ^ 52))%R).
Proof.
  intros Fx Fy. pose proof pow79 as E79. assert (fin d_1em8 (IZR 6044629098073146 * p2 (-79))) as Ht by (apply d_lit_exact; lia).
  assert (/ 100000000 = p2 (-79) * (604462909807314587353088 / 100000000))%R as E8 by (unfold Rdiv; rewrite <- Rmult_assoc, E79; ring).
  assert (0 < p2 (-79))%R as H79 by apply bpow_gt_0. cbn [n_close DblOps]. rewrite negb_true_iff.
  assert (Rabs (RN (B2R x - B2R y)) <= IZR 6044629098073146 * p2 (-79) <-> d_ltb d_1em8 (d_abs (d_sub x y)) = false)%R as Hiff.
  { destruct (Rlt_bool_spec (Rabs (RN (B2R x - B2R y))) (p2 1024)) as [H|H].
    - assert (fin (d_sub x y) (RN (B2R x - B2R y))) as Hs by (apply d_sub_round; auto; split; auto). apply d_abs_R in Hs. symmetry. now apply d_ltb_false.
    - generalize (Bminus_correct 53 1024 Hprec Hemax mode_NE x y Fx Fy). rewrite Rlt_bool_false by exact H. intros [E _]. apply overflow_inf in E. fold (d_sub x y) in E. rewrite E. split.
      + intros H'. exfalso. assert (1 <= p2 1024)%R as H0 by (apply (bpow_le radix2 0 1024); lia). clear - H H' H0 E79 H79. generalize dependent (p2 1024). intros. lra.
      + intros H'. exfalso. revert H'. destruct (Bsign x); vm_compute; discriminate. }
  rewrite <- Hiff. rewrite RN_abs. split; intros H.
  - apply RN_le_repr; [apply repr_dyadic; lia|]. lra.
  - destruct (Rle_lt_dec (Rabs (B2R x - B2R y)) (/ 100000000 * (1 + / 2 ^ 52))) as [|Hl]; auto. exfalso.
    assert (IZR 6044629098073147 * p2 (-79) <= RN (Rabs (B2R x - B2R y)))%R; [|lra].
    apply RN_ge_repr; [apply repr_dyadic; lia|]. lra.
Qed.

Lemma allclose_dbl_claim a b : Forall (fun x => is_finite x = true) a -> Forall (fun x => is_finite x = true) b ->
  (Forall2 (fun x y => (Rabs (B2R x - B2R y) <= / 100000000)%R) a b -> allclose DblOps a b = true) /\
  (allclose DblOps a b = true -> Forall2 (fun x y => (Rabs (B2R x - B2R y) <= / 100000000 * (1 + / 2 ^ 52))%R) a b).
Proof.
  unfold allclose. intros Ha. revert b. induction Ha as [|x a Hx Ha IH]; intros [|y b] Hb; cbn [length Nat.eqb combine forallb andb].
  - split; [auto|constructor].
  - split; [intros H; inversion H|discriminate].
  - split; [intros H; inversion H|discriminate].
  - inversion Hb; subst. specialize (IH b H2) as [I1 I2]. destruct (close_real x y Hx H1) as [C1 C2]. rewrite !andb_true_iff in *. split.
    + intros H. inversion H; subst. destruct (I1 H7). auto.
    + intros (L & C & R). constructor; auto.
Qed.
Lemma allclose_int_claim a b : allclose IntOps a b = true <-> a = b.
Proof. apply allclose_int. Qed.

(** diff *)
Lemma diff_claim {T U} (dt : T) (du : U) (g : T -> U -> double) (a : ndarray T) (b : ndarray U) c : wf_array a -> wf_array b -> wf_array c -> prodZ (shape a) < 2 ^ 60 ->
  shape b = shape a -> shape c = shape a ->
  (let* x := as_nd a in let* y := as_nd b in let* d := as_nd c in let* r := diff (fun x y => Ok (g x y)) x y d in from_nd r) =
  Ok (NDA (shape a) (map (fun i => g (entry dt a i) (entry du b i)) (all_indices (shape a)))).
Proof.
  intros Ha Hb Hc Hp Eb Ec. pose proof (wf_fits a Ha Hp) as Hf.
  rewrite (as_nd_ok dt a) by auto. rewrite (as_nd_ok du b) by (auto; now rewrite Eb). rewrite (as_nd_ok d_zero c) by (auto; now rewrite Ec). cbn [bind].
  unfold diff. rewrite sizes_mk, index_loop_spec by apply Hf. rewrite Eb, Ec. change (mk (shape a) (entry d_zero c)) with (mkp (shape a) (fun i => Some (entry d_zero c i))).
  rewrite (foldM_ext _ (fun i d => nd_set d i (g (entry dt a i) (entry du b i)))).
  - rewrite fill_loop by auto. cbn [bind]. apply from_nd_mk. apply Hf.
  - intros i d Hi. apply in_all_indices in Hi. rewrite !nd_get_mk by auto. reflexivity.
Qed.

Lemma diff_prefix n (F : list Z -> outcome double) (l : list (list Z)) : fits [n] -> (forall i, In i l -> index_in [n] i /\ exists e, F i = Ok e) ->
  forall h, exists h', foldM (fun i d => let* e := F i in nd_set d i e) l (mkp [n] h) = Ok (mkp [n] h').
Proof.
  intros Hf. induction l as [|i l IH]; intros Hl h; cbn [foldM]; [eauto|]. destruct (Hl i (or_introl eq_refl)) as (Hi & e & ->). cbn [bind].
  rewrite nd_set_mkp by auto. cbn [bind]. apply IH. intros i' H'. apply Hl. now right.
Qed.

Lemma zrange_split n k : 0 <= k < n -> zrange n = zrange k ++ k :: map (fun j => k + 1 + j) (zrange (n - k - 1)).
Proof.
  intros Hk. unfold zrange. replace (Z.to_nat n) with (Z.to_nat k + S (Z.to_nat (n - k - 1)))%nat by lia. rewrite seq_app, map_app. f_equal. cbn [Nat.add seq map]. f_equal; [lia|].
  rewrite map_map. assert (forall a m b, map Z.of_nat (seq (S a + b) m) = map (fun j => Z.of_nat a + 1 + Z.of_nat j) (seq b m)) as E.
  { intros a m. induction m as [|m IH]; intros b; cbn [seq map]; auto. f_equal; [lia|]. rewrite <- (IH (S b)). f_equal. f_equal. lia. }
  specialize (E (Z.to_nat k) (Z.to_nat (n - k - 1)) 0%nat). rewrite Nat.add_0_r in E. rewrite E. apply map_ext. intros. lia.
Qed.

Lemma diff_short_claim n k la lb (c : ndarray double) (g : Z -> Z -> double) : 0 < k < n -> n < 2 ^ 60 -> Z.of_nat (length la) = n -> Z.of_nat (length lb) = k -> wf_array c -> shape c = [n] ->
  exists w, (let* x := as_nd (NDA [n] la) in let* y := as_nd (NDA [k] lb) in let* d := as_nd c in diff (fun x y => Ok (g x y)) x y d) = UB w.
Proof.
  intros Hk Hn La Lb Hc Ec.
  assert (forall q l, 0 < q -> Z.of_nat (length l) = q -> wf_array (NDA [q] l : ndarray Z)) as Hw.
  { intros q l Hq E. split; [discriminate|]. split; [now constructor|]. cbn [shape flat]. change (prodZ [q]) with (q * 1). lia. }
  assert (forall q, prodZ [q] = q) as Hp by (intros q; change (prodZ [q]) with (q * 1); lia).
  rewrite (as_nd_ok 0 (NDA [n] la)) by (try apply Hw; auto; cbn [shape]; rewrite ?Hp; lia). rewrite (as_nd_ok 0 (NDA [k] lb)) by (try apply Hw; auto; cbn [shape]; rewrite ?Hp; lia).
  rewrite (as_nd_ok d_zero c) by (auto; rewrite Ec, Hp; lia). cbn [bind shape]. rewrite Ec.
  pose proof (wf_fits (NDA [n] la) (Hw n la ltac:(lia) La) ltac:(cbn [shape]; rewrite Hp; lia)) as Fn. pose proof (wf_fits (NDA [k] lb) (Hw k lb ltac:(lia) Lb) ltac:(cbn [shape]; rewrite Hp; lia)) as Fk. cbn [shape] in Fn, Fk.
  unfold diff. rewrite sizes_mk, index_loop_spec by apply Fn. set (x := entry 0 _). set (y := entry 0 _).
  assert (all_indices [n] = map (fun i => [i]) (zrange n)) as ->.
  { cbn [all_indices map]. induction (zrange n) as [|i r IH]; cbn; congruence. }
  rewrite (zrange_split n k) by lia. rewrite map_app. cbn [map]. rewrite foldM_app.
  destruct (diff_prefix n (fun i => let* a := nd_get (mk [n] x) i in let* b := nd_get (mk [k] y) i in Ok (g a b)) (map (fun i => [i]) (zrange k)) Fn) with (h := fun i => Some (entry d_zero c i)) as (h' & E).
  { intros i Hi. apply in_map_iff in Hi as (j & <- & Hj). apply in_zrange in Hj. assert (index_in [n] [j]) by (repeat constructor; lia). assert (index_in [k] [j]) by (repeat constructor; lia).
    split; auto. rewrite !nd_get_mk by auto. cbn [bind]. eauto. }
  rewrite (foldM_ext _ (fun i d => let* e := (let* a := nd_get (mk [n] x) i in let* b := nd_get (mk [k] y) i in Ok (g a b)) in nd_set d i e)).
  2:{ intros i d _. destruct (nd_get (mk [n] x) i); cbn [bind]; auto. destruct (nd_get (mk [k] y) i); auto. }
  change (mk [n] (entry d_zero c)) with (mkp [n] (fun i => Some (entry d_zero c i))). rewrite E. cbn [bind foldM].
  rewrite nd_get_mk by (auto; repeat constructor; lia). cbn [bind].
  unfold nd_get at 1, nd_offset. cbn [mk mkp nd_offs strides offset_from nd_data].
  change (prodZ []) with 1. rewrite i64_ok by lia. cbn [bind]. replace (u64 (0 + 1 * k)) with k by (unfold u64; rewrite Z.mod_small by lia; lia).
  assert (nth_error (map (fun i => Some (y i)) (all_indices [k])) (Z.to_nat k) = None) as ->; [|eexists; reflexivity].
  apply nth_error_None. rewrite map_length. pose proof (length_all_indices [k] ltac:(repeat constructor; lia)). rewrite Hp in H. lia.
Qed.

(** * operator[] *)

Lemma scale_top S : 0 < S < 2 ^ 32 -> dd_scale (2 ^ 32 - 1) S = Ok (S - 1).
Proof.
  intros HS. assert (variate (2 ^ 32 - 1)) as Hr by (split; lia). destruct (scale_ok _ S Hr HS) as (v & E & Hv). rewrite E. f_equal.
  pose proof (scale_fin (2 ^ 32 - 1) S Hr ltac:(lia)) as Hf. unfold dd_scale, d_to_u32 in E. rewrite (d_trunc _ _ Hf) in E. destruct Hf as [F _]. rewrite F in E. cbn [andb] in E.
  destruct andb in E; [|discriminate]. injection E as E.
  assert (IZR (S - 1) <= RN (IZR (2 ^ 32 - 1) / IZR (2 ^ 32) * IZR S))%R as Hlow.
  { apply RN_ge_repr; [apply repr_Z; lia|]. rewrite minus_IZR.
    assert (IZR S <= IZR (2 ^ 32))%R by (apply IZR_le; lia). assert (0 < IZR (2 ^ 32))%R by (apply IZR_lt; lia). rewrite minus_IZR.
    replace ((IZR (2 ^ 32) - 1) / IZR (2 ^ 32) * IZR S)%R with (IZR S - IZR S / IZR (2 ^ 32))%R by (field; lra).
    assert (IZR S / IZR (2 ^ 32) <= 1)%R by (apply Rmult_le_reg_r with (IZR (2 ^ 32)); auto; unfold Rdiv; rewrite Rmult_assoc, Rinv_l by lra; lra). lra. }
  assert (S - 1 <= v); [|lia]. rewrite <- E. rewrite <- (Ztrunc_IZR (S - 1)). now apply Ztrunc_le.
Qed.

Lemma search_out rest : forall r idx s, 0 <= s -> s + sumZ rest <= r -> r < 2 ^ 32 -> Forall (fun x => 0 <= x) rest -> dd_search r idx s rest = UB "vector access out of bounds".
Proof.
  induction rest as [|x rest IH]; intros r idx s Hs Hr Hb Hn; cbn [dd_search].
  - change (sumZ []) with 0 in Hr. destruct (Z.leb_spec s r); [reflexivity|lia].
  - change (sumZ (x :: rest)) with (x + sumZ rest) in Hr. inversion Hn; subst. pose proof (sumZ_nn rest H2). destruct (Z.leb_spec s r); [|lia].
    rewrite u32_id by lia. apply IH; auto; lia.
Qed.

Lemma edit_lower_claim freq i v : frequencies freq -> (i < length freq)%nat -> 0 <= v < nth i freq 0 ->
  exists d, ddwr_edit (ddwr_new freq) (Z.of_nat i) v = Ok d /\ exists w, ddwr_draw d (2 ^ 32 - 1) = UB w.
Proof.
  intros Hf Hi Hv. pose proof Hf as [Hn Hb]. rewrite new_ok by auto. unfold ddwr_edit. cbn [dd_freq dd_sum]. rewrite vec_set_ok by lia. cbn [bind]. rewrite Nat2Z.id. eexists. split; [reflexivity|].
  pose proof (nth_le_sum freq i Hn Hi). pose proof (sumZ_upd freq i v Hi) as Hs. pose proof (nn_upd freq i v Hn ltac:(lia)) as Hn'.
  eexists. unfold ddwr_draw. cbn [dd_sum dd_freq]. destruct (Z.eqb_spec (sumZ freq) 0); [lia|]. rewrite scale_top by lia. cbn [bind].
  destruct (upd freq i v) as [|x rest] eqn:E; [reflexivity|]. inversion Hn'; subst. change (sumZ (x :: rest)) with (x + sumZ rest) in Hs. rewrite search_out by (auto; lia). reflexivity.
Qed.

Lemma draw_stale freq s r : frequencies freq -> variate r -> 0 < s <= sumZ freq ->
  exists j, ddwr_draw (DD freq s) r = Ok (Z.of_nat j, DD (less freq j) (s - 1)) /\ (j < length freq)%nat /\ 0 < nth j freq 0 /\
    frequencies (less freq j) /\ sumZ (less freq j) = sumZ freq - 1.
Proof.
  intros Hf Hr Hs. pose proof Hf as [Hn Hb]. unfold ddwr_draw. cbn [dd_sum dd_freq]. destruct (Z.eqb_spec s 0); [lia|].
  destruct (scale_ok r s Hr ltac:(lia)) as (v & -> & Hv). cbn [bind]. destruct freq as [|x rest]; [cbn in Hs; lia|].
  change (sumZ (x :: rest)) with (x + sumZ rest) in Hs, Hb. inversion Hn; subst.
  destruct (search_ok rest v 0 0 x) as (j & E & Hj & Hp); auto; try lia. rewrite Z.add_0_l in E. rewrite E. cbn [bind]. rewrite Z.add_0_l.
  destruct (take_ok (x :: rest) j Hf Hj Hp) as (Et & Hf' & Hs'). exists j.
  assert (dd_take (DD (x :: rest) s) (Z.of_nat j) = Ok (DD (less (x :: rest) j) (s - 1))) as ->; [|repeat split; auto; apply Hf'].
  pose proof (nth_le_sum (x :: rest) j Hn Hj). change (sumZ (x :: rest)) with (x + sumZ rest) in H.
  unfold dd_take. cbn [dd_freq dd_sum]. rewrite vec_get_ok with (d := 0) by (cbn [length]; lia). cbn [bind]. rewrite vec_set_ok by (cbn [length]; lia). cbn [bind]. rewrite Nat2Z.id.
  rewrite !u32_id by lia. reflexivity.
Qed.

Lemma draws_stale rs : forall freq s, frequencies freq -> Forall variate rs -> Z.of_nat (length rs) <= s <= sumZ freq ->
  exists is freq', ddwr_draws (DD freq s) rs = Ok (is, DD freq' (s - Z.of_nat (length rs))) /\ length is = length rs /\ sumZ freq' = sumZ freq - Z.of_nat (length rs).
Proof.
  induction rs as [|r rs IH]; intros freq s Hf Hr Hl; cbn [ddwr_draws].
  - exists [], freq. cbn [length] in *. rewrite !Z.sub_0_r. auto.
  - inversion Hr; subst. cbn [length] in Hl. destruct (draw_stale freq s r Hf H1 ltac:(lia)) as (j & E & Hj & Hp & Hf' & Hs). rewrite E. cbn [bind].
    destruct (IH (less freq j) (s - 1) Hf' H2 ltac:(lia)) as (is & freq' & E' & L1 & Hs'). rewrite E'. cbn [bind].
    exists (Z.of_nat j :: is), freq'. cbn [length]. split; [|split; lia]. do 3 f_equal. lia.
Qed.

Lemma edit_raise_claim freq i v rs : frequencies freq -> (i < length freq)%nat -> nth i freq 0 < v -> sumZ freq + (v - nth i freq 0) < 2 ^ 32 ->
  Forall variate rs -> Z.of_nat (length rs) = sumZ freq ->
  exists d drawn d', ddwr_edit (ddwr_new freq) (Z.of_nat i) v = Ok d /\ ddwr_draws d rs = Ok (drawn, d') /\ length drawn = length rs /\
    sumZ (dd_freq d') = v - nth i freq 0 /\ forall r, ddwr_draw d' r = Throw (RuntimeError "distribution is depleted").
Proof.
  intros Hf Hi Hv Ht Hr Hl. pose proof Hf as [Hn Hb]. pose proof (nth_le_sum freq i Hn Hi). pose proof (sumZ_upd freq i v Hi) as Hs. pose proof (nn_upd freq i v Hn ltac:(lia)) as Hn'.
  rewrite new_ok by auto. unfold ddwr_edit. cbn [dd_freq dd_sum]. rewrite vec_set_ok by lia. cbn [bind]. rewrite Nat2Z.id.
  destruct (draws_stale rs (upd freq i v) (sumZ freq)) as (is & freq' & E & L & S'); auto; [split; auto; lia|lia|].
  do 3 eexists. split; [reflexivity|]. split; [exact E|]. split; auto. cbn [dd_freq]. split; [lia|]. intros r. unfold ddwr_draw. cbn [dd_sum].
  destruct (Z.eqb_spec (sumZ freq - Z.of_nat (length rs)) 0); [reflexivity|lia].
Qed.

Lemma edit_read_claim freq i : (i < length freq)%nat -> ddwr_at (ddwr_new freq) (Z.of_nat i) = Ok (nth i freq 0).
Proof. intros Hi. unfold ddwr_at. cbn [ddwr_new dd_freq]. rewrite vec_get_ok with (d := 0) by lia. now rewrite Nat2Z.id. Qed.
Lemma edit_out_claim freq i v : ~ 0 <= i < Z.of_nat (length freq) -> (exists w, ddwr_at (ddwr_new freq) i = UB w) /\ (exists w, ddwr_edit (ddwr_new freq) i v = UB w).
Proof.
  intros Hi. unfold ddwr_at, ddwr_edit, vec_get, vec_set. cbn [ddwr_new dd_freq]. destruct (Z.leb_spec 0 i); [|cbn; eauto]. 
  destruct (nth_error freq (Z.to_nat i)) eqn:E; [assert (Z.to_nat i < length freq)%nat by (apply nth_error_Some; congruence); lia|]. destruct (Z.ltb_spec i (Z.of_nat (length freq))); [lia|]. cbn. eauto.
Qed.
Lemma edit_balanced_claim freq i j v w : frequencies freq -> (i < length freq)%nat -> (j < length freq)%nat -> i <> j -> 0 <= v -> 0 <= w ->
  v + w = nth i freq 0 + nth j freq 0 ->
  (let* d := ddwr_edit (ddwr_new freq) (Z.of_nat i) v in ddwr_edit d (Z.of_nat j) w) = Ok (ddwr_new (upd (upd freq i v) j w)).
Proof.
  intros Hf Hi Hj Hij Hv Hw E. pose proof Hf as [Hn Hb]. rewrite new_ok by auto. unfold ddwr_edit at 1. cbn [dd_freq dd_sum]. rewrite vec_set_ok by lia. cbn [bind]. rewrite Nat2Z.id.
  unfold ddwr_edit. cbn [dd_freq dd_sum]. rewrite vec_set_ok by (rewrite length_upd; lia). cbn [bind]. rewrite Nat2Z.id.
  assert (sumZ (upd (upd freq i v) j w) = sumZ freq) as Es by (rewrite !sumZ_upd by (rewrite ?length_upd; auto); rewrite nth_upd_other by lia; lia).
  rewrite new_ok; [now rewrite Es|]. split; [|lia]. apply nn_upd; auto. now apply nn_upd.
Qed.
