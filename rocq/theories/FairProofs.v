(** integerise(frac, pop) is a fair division, up to rounding (C90). *)
From Coq Require Import ZArith Reals Lra Lia List Bool Psatz.
From Flocq Require Import Core.Core IEEE754.BinarySingleNaN.
From Verif Require Import Base Spec SpecFacts Float64 FloatProofs FloatExt RealSpec IndexProofs ArrayOps Bind MicroDbl Integerise IntegeriseSpec IntegeriseProofs
  IntegeriseDbl IntegeriseClaims IntegeriseRound IntegeriseExamples.
Open Scope Z_scope.

(** * Exchanging two entries *)

Lemma sum_upd (l : list Z) : forall i v, (i < length l)%nat -> sumZ (upd l i v) = sumZ l - nth i l 0 + v.
Proof.
  induction l as [|x l IH]; intros [|i] v Hi; cbn [length] in Hi; try lia; cbn [upd nth]; unfold sumZ in *; cbn [fold_right]; [lia|].
  rewrite IH by lia. lia.
Qed.

Definition sq (k : Z) (x : R) : R := ((IZR k - x) * (IZR k - x))%R.

Lemma dist_upd f : forall X i v, (i < length f)%nat -> length X = length f ->
  sq_dist (upd f i v) X = (sq_dist f X - sq (nth i f 0%Z) (nth i X 0) + sq v (nth i X 0))%R.
Proof.
  induction f as [|k f IH]; intros [|x X] [|i] v Hi HX; cbn [length] in *; try lia; cbn [upd nth]; unfold sq_dist, sumR in *; cbn [combine map fold_right].
  - unfold sq. lra.
  - rewrite IH by lia. lra.
Qed.

Lemma closest_order f X i j : closest f X -> (i < length f)%nat -> (j < length f)%nat -> (nth i X 0 < nth j X 0)%R -> nth i f 0 <= nth j f 0.
Proof.
  intros [H1 H2] Hi Hj Hlt. assert (length X = length f) as HX by (clear - H1; induction H1; cbn [length]; congruence).
  assert (i <> j) as Hij by (intros ->; lra). apply Z.nlt_ge. intros Hk.
  set (g := upd (upd f i (nth j f 0)) j (nth i f 0)).
  assert (nth j (upd f i (nth j f 0)) 0 = nth j f 0) as Ej by (apply nth_upd_other; congruence).
  specialize (H2 g). unfold g in H2. rewrite !length_upd in H2. specialize (H2 eq_refl).
  rewrite sum_upd, Ej, sum_upd in H2 by (rewrite ?length_upd; auto). specialize (H2 ltac:(lia)).
  rewrite dist_upd, Ej, dist_upd in H2 by (rewrite ?length_upd; auto). unfold sq in H2. apply IZR_lt in Hk.
  assert (0 < (IZR (nth i f 0%Z) - IZR (nth j f 0%Z)) * (nth j X 0 - nth i X 0))%R by (apply Rmult_lt_0_compat; lra). nra.
Qed.

Lemma closest_near f X i : closest f X -> (i < length f)%nat -> (Rabs (IZR (nth i f 0%Z) - nth i X 0) < 1)%R.
Proof.
  intros [H _]. revert i. induction H as [|k x f X Hk H IH]; intros [|i] Hi; cbn [length nth] in *; try lia; auto. apply IH. lia.
Qed.

(** * std::max_element never prefers a later element that is not greater *)

Lemma ltb_trans x y z : d_ltb x y = true -> d_ltb y z = true -> d_ltb x z = true.
Proof. rewrite !d_ltb_iff. intros (? & ? & ?) (? & ? & ?). repeat split; auto. lra. Qed.
Lemma ltb_irrefl x : d_ltb x x = false.
Proof. apply not_true_iff_false. rewrite d_ltb_iff. intros (_ & _ & H). lra. Qed.

(** [b] is not above [a] *)
Definition under (b a : double) : Prop := (forall m, d_ltb m a = false -> d_ltb m b = false) /\ d_ltb a b = false.

Lemma max_from_range l : forall s best m, max_from l s best m = best \/ (s <= max_from l s best m)%nat.
Proof.
  induction l as [|x l IH]; intros s best m; cbn [max_from]; [now left|]. destruct (d_ltb m x).
  - right. destruct (IH (S s) s x); lia.
  - destruct (IH (S s) best m); [now left|right; lia].
Qed.

Lemma max_from_skip l : forall s best m b q, (best < s)%nat -> d_ltb m b = false -> nth_error l q = Some b -> max_from l s best m <> (s + q)%nat.
Proof.
  induction l as [|x l IH]; intros s best m b [|q] Hs Hm Hq; cbn [nth_error] in Hq; try discriminate; cbn [max_from].
  - injection Hq as ->. rewrite Hm. destruct (max_from_range l (S s) best m); lia.
  - replace (s + S q)%nat with (S s + q)%nat by lia. destruct (d_ltb m x) eqn:E.
    + apply (IH _ _ _ b); auto. destruct (d_ltb x b) eqn:E'; auto. pose proof (ltb_trans _ _ _ E E'). congruence.
    + apply (IH _ _ _ b); auto.
Qed.

Lemma max_from_under l : forall s best m a b p q, (best < s)%nat -> (p < q)%nat -> nth_error l p = Some a -> nth_error l q = Some b -> under b a ->
  max_from l s best m <> (s + q)%nat.
Proof.
  induction l as [|x l IH]; intros s best m a b [|p] [|q] Hs Hpq Hp Hq Hu; cbn [nth_error] in *; try discriminate; try lia; cbn [max_from];
    replace (s + S q)%nat with (S s + q)%nat by lia.
  - injection Hp as ->. destruct Hu as [U1 U2]. destruct (d_ltb m a) eqn:E; apply (max_from_skip _ _ _ _ b); auto.
  - destruct (d_ltb m x); apply (IH _ _ _ a b p q); auto; lia.
Qed.

Lemma max_under l k i j a b : max_element l = Ok k -> (i < j)%nat -> nth_error l i = Some a -> nth_error l j = Some b -> under b a -> k <> j.
Proof.
  destruct l as [|x l]; intros E Hij Hi Hj Hu; [discriminate|]. cbn [max_element] in E. injection E as <-.
  destruct j as [|j]; [lia|]. cbn [nth_error] in Hj. destruct i as [|i].
  - injection Hi as ->. apply (max_from_skip l 1 0 a b j); auto. apply Hu.
  - cbn [nth_error] in Hi. apply (max_from_under l 1 0 x a b i j); auto. lia.
Qed.

(** * The loop *)

Definition dec (x : double) : double := d_sub x d_one.
Definition lead (i j : nat) (f0 : Z) (a b : double) (f : list Z) (r : list double) : Prop := exists n m : nat, (m <= n)%nat /\
  nth_error f i = Some (f0 + Z.of_nat n) /\ nth_error f j = Some (f0 + Z.of_nat m) /\
  nth_error r i = Some (Nat.iter n dec a) /\ nth_error r j = Some (Nat.iter m dec b).

Lemma lead_loop i j f0 a b pop : (i < j)%nat -> (forall n, under (Nat.iter n dec b) (Nat.iter n dec a)) ->
  forall fuel f r f' r', lead i j f0 a b f r -> fill_loop fuel pop f r = Ok (f', r') -> lead i j f0 a b f' r'.
Proof.
  intros Hij Hu. induction fuel as [|fuel IH]; intros f r f' r' Hl E; cbn [fill_loop] in E; [discriminate|].
  destruct (sum_i32 f) as [s| | |]; cbn [bind] in E; try discriminate. destruct (s <? pop); [|injection E as <- <-; exact Hl].
  destruct (max_element r) as [k| | |] eqn:Ek; cbn [bind] in E; try discriminate.
  destruct (vec_get f (Z.of_nat k)) as [x| | |] eqn:Ex; cbn [bind] in E; try discriminate.
  unfold i32 in E. destruct (in_i32 (x + 1)); cbn [bind] in E; try discriminate.
  apply vec_get_inv in Ex as [Hk Ex]. rewrite Nat2Z.id in Ex. rewrite vec_set_ok in E by auto. cbn [bind] in E. rewrite Nat2Z.id in E.
  destruct (vec_get r (Z.of_nat k)) as [y| | |] eqn:Ey; cbn [bind] in E; try discriminate.
  apply vec_get_inv in Ey as [Hk' Ey]. rewrite Nat2Z.id in Ey. rewrite vec_set_ok in E by auto. cbn [bind] in E. rewrite Nat2Z.id in E.
  apply IH in E; auto. destruct Hl as (n & m & Hnm & H1 & H2 & H3 & H4).
  assert (k < length f)%nat as Lf by lia. assert (k < length r)%nat as Lr by lia.
  unfold lead. rewrite !nth_error_upd by auto. destruct (Nat.eqb_spec i k) as [<-|Ni].
  - exists (S n), m. replace (Nat.eqb j i) with false by (symmetry; apply Nat.eqb_neq; lia). rewrite H1 in Ex. injection Ex as <-. rewrite H3 in Ey. injection Ey as <-.
    split; [lia|]. repeat split; auto. f_equal. lia.
  - destruct (Nat.eqb_spec j k) as [<-|Nj]; [|exists n, m; auto].
    exists n, (S m). rewrite H2 in Ex. injection Ex as <-. rewrite H4 in Ey. injection Ey as <-.
    assert (m <> n) as Hne.
    { intros ->. apply (max_under r j i j _ _ Ek Hij H3 H4 (Hu n)). reflexivity. }
    split; [lia|]. repeat split; auto. f_equal. lia.
Qed.

Lemma mapM_nth {A B} (g : A -> outcome B) l : forall ys i x, mapM g l = Ok ys -> nth_error l i = Some x -> exists y, nth_error ys i = Some y /\ g x = Ok y.
Proof.
  induction l as [|a l IH]; intros ys [|i] x E Hi; cbn [nth_error] in Hi; try discriminate; cbn [mapM] in E;
    destruct (g a) as [y| | |] eqn:Ey; cbn [bind] in E; try discriminate; destruct (mapM g l) as [zs| | |]; cbn [bind] in E; try discriminate; injection E as <-.
  - injection Hi as ->. exists y. auto.
  - apply (IH zs i x); auto.
Qed.

(** * The scaled fractions *)

Lemma scaled_val frac pop x : fractions frac -> 0 <= pop < 2 ^ 31 -> In x frac ->
  fin (d_mul (d_div x (fold_left d_add frac d_zero)) (d_ofZ pop)) (RN (RN (B2R x / B2R (fold_left d_add frac d_zero)) * IZR pop)).
Proof.
  intros Hfr Hp Hx. destruct (frac_sum frac Hfr) as (_ & HS & Hle & _). destruct Hfr as (Hl & _ & _ & Hf).
  rewrite Forall_forall in Hl, Hle. destruct (Hl x Hx) as [Fx Px]. specialize (Hle x Hx). set (S := B2R (fold_left d_add frac d_zero)) in *.
  assert (0 <= B2R x / S <= 1)%R as Hq.
  { split; [apply Rmult_le_pos; [lra|left; now apply Rinv_0_lt_compat]|]. apply Rmult_le_reg_r with S; auto. unfold Rdiv. rewrite Rmult_assoc, Rinv_l; lra. }
  assert (0 <= RN (B2R x / S) <= 1)%R as Hr.
  { split; [now apply RN_nonneg|]. apply RN_le_repr; [|lra]. change 1%R with (bpow radix2 0). apply repr_p2. lia. }
  assert (fin (d_div x (fold_left d_add frac d_zero)) (RN (B2R x / S))) as Hd.
  { apply d_div_round; [now apply fin_B2R|now apply fin_B2R|lra|]. rewrite Rabs_pos_eq by lra. apply Rle_lt_trans with (bpow radix2 0); [simpl; lra|]. apply bpow_lt. lia. }
  assert (0 <= IZR pop <= bpow radix2 31)%R as HN by (split; [apply IZR_le; lia|rewrite <- IZR_p2 by lia; apply IZR_le; lia]).
  apply d_mul_round; [exact Hd|apply d_ofZ_exact; lia|].
  assert (0 <= RN (B2R x / S) * IZR pop <= bpow radix2 31)%R as Hm by (split; [apply Rmult_le_pos; lra|]; rewrite <- (Rmult_1_l (bpow radix2 31)); apply Rmult_le_compat; lra).
  rewrite Rabs_pos_eq by (apply RN_nonneg; lra). apply Rle_lt_trans with (bpow radix2 31); [|apply bpow_lt; lia]. apply RN_le_repr; [apply repr_p2; lia|lra].
Qed.

Lemma nth_scaled frac pop i : (i < length frac)%nat ->
  nth i (scaled frac pop) d_zero = d_mul (d_div (nth i frac d_zero) (fold_left d_add frac d_zero)) (d_ofZ pop).
Proof.
  intros Hi. unfold scaled. set (g := fun x => _). rewrite (nth_indep _ d_zero (g d_zero)) by (now rewrite map_length). now rewrite map_nth.
Qed.

Lemma scaled_le frac pop i j : fractions frac -> 0 <= pop < 2 ^ 31 -> (i < length frac)%nat -> (j < length frac)%nat ->
  (B2R (nth i frac d_zero) <= B2R (nth j frac d_zero))%R -> (B2R (nth i (scaled frac pop) d_zero) <= B2R (nth j (scaled frac pop) d_zero))%R.
Proof.
  intros Hfr Hp Hi Hj Hle. rewrite !nth_scaled by auto. pose proof (frac_sum frac Hfr) as (_ & HS & _).
  destruct (scaled_val frac pop _ Hfr Hp (nth_In _ d_zero Hi)) as [_ ->]. destruct (scaled_val frac pop _ Hfr Hp (nth_In _ d_zero Hj)) as [_ ->].
  apply RN_le. apply Rmult_le_compat_r; [apply IZR_le; lia|]. apply RN_le. apply Rmult_le_compat_r; [left; now apply Rinv_0_lt_compat|exact Hle].
Qed.

Lemma iter_shift {A} (g : A -> A) n x : Nat.iter (S n) g x = Nat.iter n g (g x).
Proof. induction n as [|n IH]; [reflexivity|]. cbn [Nat.iter nat_rect] in *. now rewrite IH. Qed.

Lemma under_refl x : under x x.
Proof. split; [auto|apply ltb_irrefl]. Qed.

Lemma under_dec a b k : is_finite a = true -> is_finite b = true -> B2R a = B2R b -> d_to_i32 a = Ok k ->
  d_to_i32 b = Ok k /\ forall n, under (Nat.iter n dec (d_sub b (d_ofZ k))) (Nat.iter n dec (d_sub a (d_ofZ k))).
Proof.
  intros Fa Fb E Hk. destruct (Req_dec (B2R a) 0) as [Z0|N0].
  - assert (exists s, a = B754_zero s) as (s & ->).
    { destruct a as [s|s| |s m e H]; try discriminate; [eauto|]. cbn [B2R] in Z0. apply eq_0_F2R in Z0. destruct s; discriminate. }
    assert (exists s, b = B754_zero s) as (s' & ->).
    { rewrite E in Z0. destruct b as [s'|s'| |s' m e H]; try discriminate; [eauto|]. cbn [B2R] in Z0. apply eq_0_F2R in Z0. destruct s'; discriminate. }
    assert (k = 0) as -> by (destruct s; vm_compute in Hk; congruence). split; [destruct s'; reflexivity|].
    assert (dec (d_sub (B754_zero s') (d_ofZ 0)) = dec (d_sub (B754_zero s) (d_ofZ 0))) as Ed by (apply B2SF_inj; destruct s, s'; vm_compute; reflexivity).
    intros [|n].
    + cbn [Nat.iter nat_rect].
      assert (forall t, is_nan (d_sub (B754_zero t) (d_ofZ 0)) = false /\ ev (d_sub (B754_zero t) (d_ofZ 0)) = 0%R) as Hz.
      { intros t. assert (d_sub (B754_zero t) (d_ofZ 0) = B754_zero t) as -> by (apply B2SF_inj; destruct t; vm_compute; reflexivity). split; reflexivity. }
      destruct (Hz s) as [N1 V1], (Hz s') as [N2 V2]. split.
      * intros m Hm. apply not_true_iff_false in Hm. apply not_true_iff_false. intros H. apply Hm. apply d_ltb_iff in H as (? & _ & H). apply d_ltb_iff.
        repeat split; auto. lra.
      * apply not_true_iff_false. rewrite d_ltb_iff. intros (_ & _ & H). lra.
    + rewrite !iter_shift, Ed. apply under_refl.
  - assert (a = b) as <-.
    { apply B2R_inj; auto; [destruct a as [s|s| |s m e H]|destruct b as [s|s| |s m e H]]; try discriminate; try reflexivity; cbn [B2R] in *; lra. }
    split; [exact Hk|]. intros n. apply under_refl.
Qed.

Lemma nth_map_div s frac i : (i < length frac)%nat -> nth i (map (fun y => d_div y s) frac) d_zero = d_div (nth i frac d_zero) s.
Proof. intros Hi. set (g := fun x => _). rewrite (nth_indep _ d_zero (g d_zero)) by (now rewrite map_length). now rewrite map_nth. Qed.

Lemma to_i32_fin x k : d_to_i32 x = Ok k -> is_finite x = true.
Proof. unfold d_to_i32. destruct (is_finite x); [auto|discriminate]. Qed.

(** equal shares: the one listed first is served first *)
Lemma dist_first fuel p pop f rmse : integerise_dist fuel p pop = Ok (f, rmse) -> forall i j, (i < j)%nat -> (j < length p)%nat ->
  B2R (d_mul (nth j p d_zero) (d_ofZ pop)) = B2R (d_mul (nth i p d_zero) (d_ofZ pop)) -> nth j f 0 <= nth i f 0.
Proof.
  intros E' i j Hij Hj Heq. assert (i < length p)%nat as Hi by lia. unfold integerise_dist in E'.
  destruct (mapM _ p) as [f1| | |] eqn:Em; cbn [bind] in E'; try discriminate.
  destruct (fill_loop fuel pop f1 _) as [[f2 r2]| | |] eqn:El; cbn [bind] in E'; try discriminate. injection E' as -> _.
  pose proof (nth_error_nth' p d_zero Hi) as Px. pose proof (nth_error_nth' p d_zero Hj) as Py. set (x := nth i p d_zero) in *. set (y := nth j p d_zero) in *.
  destruct (mapM_nth _ _ _ _ _ Em Px) as (kx & Nx & Kx). destruct (mapM_nth _ _ _ _ _ Em Py) as (ky & Ny & Ky).
  destruct (under_dec (d_mul x (d_ofZ pop)) (d_mul y (d_ofZ pop)) kx (to_i32_fin _ _ Kx) (to_i32_fin _ _ Ky) ltac:(now rewrite Heq) Kx) as [Ky' Hu].
  rewrite Ky in Ky'. injection Ky' as ->.
  assert (forall k z v, nth_error p k = Some z -> nth_error f1 k = Some v ->
    nth_error (map (fun '(x, k) => d_sub (d_mul x (d_ofZ pop)) (d_ofZ k)) (combine p f1)) k = Some (d_sub (d_mul z (d_ofZ pop)) (d_ofZ v))) as Hr.
  { clear. intros k z v. revert p f1. induction k as [|k IH]; intros [|a p] [|b f]; cbn [nth_error combine map]; try discriminate.
    - intros H1 H2. injection H1 as ->. injection H2 as ->. reflexivity.
    - apply IH. }
  apply (lead_loop i j kx _ _ pop Hij Hu) in El.
  - destruct El as (n & m & Hnm & H1 & H2 & _). rewrite (nth_error_nth _ _ _ H1), (nth_error_nth _ _ _ H2). lia.
  - exists 0%nat, 0%nat. cbn [Nat.iter nat_rect]. rewrite Z.add_0_r. repeat split; auto.
Qed.

Lemma nth_repeat_lt (x : Z) n i : (i < n)%nat -> nth i (repeat x n) 0 = x.
Proof. revert n. induction i as [|i IH]; intros [|n] Hi; try lia; cbn [repeat nth]; [reflexivity|]. apply IH. lia. Qed.

Lemma sumZ_repeat x n : sumZ (repeat x n) = Z.of_nat n * x.
Proof. induction n as [|n IH]; [reflexivity|]. cbn [repeat]. unfold sumZ in *. cbn [fold_right]. lia. Qed.

Lemma stairs c l : (forall x, In x l -> x = c \/ x = c + 1) -> (forall i j, (i < j)%nat -> (j < length l)%nat -> nth j l 0 <= nth i l 0) ->
  exists k, (k <= length l)%nat /\ l = repeat (c + 1) k ++ repeat c (length l - k).
Proof.
  induction l as [|x l IH]; intros Hx Hd; [exists 0%nat; split; [lia|reflexivity]|].
  destruct IH as (k & Hk & El).
  { intros y Hy. apply Hx. now right. }
  { intros i j Hij Hj. apply (Hd (S i) (S j)); cbn [length]; lia. }
  destruct (Hx x (or_introl eq_refl)) as [->| ->].
  - exists 0%nat. split; [lia|]. cbn [repeat app length Nat.sub]. f_equal.
    destruct k as [|k]; [rewrite El at 1; cbn [repeat app]; now rewrite Nat.sub_0_r|]. exfalso.
    assert (nth 1 (c :: l) 0 <= nth 0 (c :: l) 0) as H by (apply Hd; cbn [length]; lia). cbn [nth] in H. rewrite El in H. cbn [repeat app nth] in H. lia.
  - exists (S k). split; [cbn [length]; lia|]. cbn [repeat app length Nat.sub]. now f_equal.
Qed.

Section Claims.
Context (fuel : nat) (frac : list double) (pop : Z) (f : list Z) (rmse : double).
Hypothesis Hfr : fractions frac.
Hypothesis Hp : 0 <= pop < 2 ^ 31.
Hypothesis Hfu : (length frac < fuel)%nat.
Hypothesis E : py_integerise1d fuel (NDA [Z.of_nat (length frac)] frac) pop = Ok (f, rmse).
Let X := map B2R (scaled frac pop).

Lemma len_f : length f = length frac.
Proof. destruct (integerise1d_claim fuel frac pop Hfr Hp Hfu) as (f' & E' & H & _). rewrite E in E'. injection E' as <- _. exact H. Qed.

Lemma nth_X i : nth i X 0%R = B2R (nth i (scaled frac pop) d_zero).
Proof. unfold X. change 0%R with (B2R d_zero). apply map_nth. Qed.

Lemma order_claim i j : (i < length frac)%nat -> (j < length frac)%nat ->
  (B2R (nth i (scaled frac pop) d_zero) < B2R (nth j (scaled frac pop) d_zero))%R -> nth i f 0 <= nth j f 0.
Proof.
  intros Hi Hj H. pose proof (closest_claim fuel frac pop f rmse Hfr Hp Hfu E) as Hc. apply (closest_order f X i j Hc); rewrite ?len_f; auto. now rewrite !nth_X.
Qed.

Lemma near_claim i : (i < length frac)%nat -> (Rabs (IZR (nth i f 0%Z) - B2R (nth i (scaled frac pop) d_zero)) < 1)%R.
Proof.
  intros Hi. rewrite <- nth_X. apply closest_near; [|now rewrite len_f]. exact (closest_claim fuel frac pop f rmse Hfr Hp Hfu E).
Qed.

Lemma whole_claim i z : (i < length frac)%nat -> B2R (nth i (scaled frac pop) d_zero) = IZR z -> nth i f 0 = z.
Proof.
  intros Hi Hz. pose proof (near_claim i Hi) as H. rewrite Hz, <- minus_IZR, <- abs_IZR in H. apply lt_IZR in H. lia.
Qed.

Lemma one_claim i j : (i < length frac)%nat -> (j < length frac)%nat ->
  (B2R (nth i frac d_zero) <= B2R (nth j frac d_zero))%R -> nth i f 0 <= nth j f 0 + 1.
Proof.
  intros Hi Hj H. apply (scaled_le frac pop i j Hfr Hp Hi Hj) in H. pose proof (near_claim i Hi) as H1. pose proof (near_claim j Hj) as H2.
  apply Rabs_def2 in H1, H2. assert (IZR (nth i f 0%Z) < IZR (nth j f 0%Z + 2))%R as H3 by (rewrite plus_IZR; lra). apply lt_IZR in H3. lia.
Qed.

Lemma first_claim i j : (i < j)%nat -> (j < length frac)%nat ->
  (B2R (nth j frac d_zero) <= B2R (nth i frac d_zero))%R -> nth j f 0 <= nth i f 0.
Proof.
  intros Hij Hj H. assert (i < length frac)%nat as Hi by lia. apply (scaled_le frac pop j i Hfr Hp Hj Hi) in H.
  destruct (Rle_lt_or_eq_dec _ _ H) as [Hlt|Heq]; [now apply order_claim|].
  pose proof E as E'. unfold py_integerise1d in E'. destruct (pop <? 0); [discriminate|]. cbn [to_vector shape length Nat.eqb bind flat] in E'.
  apply (dist_first _ _ _ _ _ E' i j Hij); rewrite ?map_length; auto; rewrite !(nth_map_div _ frac) by lia; rewrite <- !nth_scaled by auto; auto.
Qed.

Lemma equal_claim : (forall i, (i < length frac)%nat -> B2R (nth i frac d_zero) = B2R (nth 0 frac d_zero)) ->
  let n := Z.of_nat (length frac) in forall i, (i < length frac)%nat -> nth i f 0 = pop / n + (if Z.of_nat i <? pop mod n then 1 else 0).
Proof.
  intros He n i Hi. assert (length frac <> 0)%nat as Hn by lia.
  assert (forall a b, (a < length frac)%nat -> (b < length frac)%nat -> (B2R (nth a frac d_zero) <= B2R (nth b frac d_zero))%R) as Hle
    by (intros a b Ha Hb; rewrite (He a Ha), (He b Hb); lra).
  set (c := nth (length frac - 1) f 0).
  destruct (stairs c f) as (k & Hk & Ef).
  - intros x Hx. destruct (In_nth f x 0 Hx) as (a & Ha & <-). rewrite len_f in Ha. unfold c.
    assert (nth a f 0 <= nth (length frac - 1) f 0 + 1) by (apply one_claim; [lia|lia|apply Hle; lia]).
    destruct (Nat.eq_dec a (length frac - 1)) as [->|Hne]; [now left|].
    assert (nth (length frac - 1) f 0 <= nth a f 0) by (apply first_claim; [lia|lia|apply Hle; lia]). lia.
  - intros a b Hab Hb. rewrite len_f in Hb. apply first_claim; [lia|lia|apply Hle; lia].
  - rewrite len_f in Hk, Ef. destruct (integerise1d_claim fuel frac pop Hfr Hp Hfu) as (f' & E' & _ & _ & Hs & _). rewrite E in E'. injection E' as <- _.
    assert (k <> length frac) as Hkn.
    { intros ->. assert (nth (length frac - 1) f 0 = c + 1) as H; [|fold c in H; lia].
      rewrite Ef, Nat.sub_diag, app_nil_r. apply nth_repeat_lt. lia. }
    rewrite Ef, sumZ_app, !sumZ_repeat in Hs.
    assert (pop = n * c + Z.of_nat k) as Hpop by (unfold n; nia).
    assert (pop / n = c) as -> by (symmetry; apply (Z.div_unique pop n c (Z.of_nat k)); lia).
    assert (pop mod n = Z.of_nat k) as -> by (symmetry; apply (Z.mod_unique pop n c (Z.of_nat k)); lia).
    rewrite Ef. destruct (Z.ltb_spec (Z.of_nat i) (Z.of_nat k)).
    + rewrite app_nth1 by (rewrite repeat_length; lia). rewrite nth_repeat_lt by lia. reflexivity.
    + rewrite app_nth2 by (rewrite repeat_length; lia). rewrite repeat_length, nth_repeat_lt by lia. lia.
Qed.
End Claims.

(** * Examples *)

Definition exA3 : list double := [d_ofZ 6; d_ofZ 6; d_ofZ 2].
Lemma exA3_frac : fractions exA3. Proof. apply fractions_by. vm_compute. reflexivity. Qed.
Lemma exA3_10 : exists rmse, py_integerise1d 4 (NDA [3] exA3) 10 = Ok ([4; 4; 2], rmse). Proof. apply freq_inv. vm_compute. reflexivity. Qed.
Lemma exA3_11 : exists rmse, py_integerise1d 4 (NDA [3] exA3) 11 = Ok ([5; 5; 1], rmse). Proof. apply freq_inv. vm_compute. reflexivity. Qed.

Definition exC3 : list double := [d_ofZ 8444249301319679; d_ofZ 8444249301319680; d_ofZ 16663318621270836].
Lemma exC3_frac : fractions exC3. Proof. apply fractions_by. vm_compute. reflexivity. Qed.
Lemma exC3_2 : exists rmse, py_integerise1d 4 (NDA [3] exC3) 2 = Ok ([1; 0; 1], rmse). Proof. apply freq_inv. vm_compute. reflexivity. Qed.

Lemma alabama_claim : exists fuel frac pop f g rmse rmse' i, fractions frac /\ (length frac < fuel)%nat /\ (i < length frac)%nat /\ 0 <= pop /\ pop + 1 < 2 ^ 31 /\
  py_integerise1d fuel (NDA [Z.of_nat (length frac)] frac) pop = Ok (f, rmse) /\
  py_integerise1d fuel (NDA [Z.of_nat (length frac)] frac) (pop + 1) = Ok (g, rmse') /\ nth i g 0 < nth i f 0.
Proof.
  destruct exA3_10 as [m H], exA3_11 as [m' H']. exists 4%nat, exA3, 10, [4; 4; 2], [5; 5; 1], m, m', 2%nat.
  split; [exact exA3_frac|]. split; [cbn; lia|]. split; [cbn; lia|]. split; [lia|]. split; [lia|]. split; [exact H|]. split; [exact H'|]. cbn. lia.
Qed.

Lemma strict_claim : exists fuel frac pop f rmse i j, fractions frac /\ (length frac < fuel)%nat /\ (i < length frac)%nat /\ (j < length frac)%nat /\ 0 <= pop < 2 ^ 31 /\
  py_integerise1d fuel (NDA [Z.of_nat (length frac)] frac) pop = Ok (f, rmse) /\
  (B2R (nth i frac d_zero) < B2R (nth j frac d_zero))%R /\ nth j f 0 < nth i f 0.
Proof.
  destruct exC3_2 as [m H]. exists 4%nat, exC3, 2, [1; 0; 1], m, 0%nat, 1%nat.
  split; [exact exC3_frac|]. split; [cbn; lia|]. split; [cbn; lia|]. split; [cbn; lia|]. split; [lia|]. split; [exact H|]. split; [|cbn; lia].
  cbn [nth exC3]. rewrite (proj2 (d_ofZ_exact 8444249301319679 ltac:(lia))), (proj2 (d_ofZ_exact 8444249301319680 ltac:(lia))). apply IZR_lt. lia.
Qed.

(** * prob2IntFreq *)

Section R.
Context (fuel : nat) (p : list double) (pop : Z) (f : list Z) (rmse : double).
Hypothesis H1 : Forall nonneg_fin p.
Hypothesis H2 : Z.of_nat (length p) <= 2 ^ 20.
Hypothesis H3 : 0 <= pop < 2 ^ 31.
Hypothesis H4 : (length p < fuel)%nat.
Hypothesis E : r_prob2IntFreq fuel p pop = Ok (f, rmse).

Lemma r_closest : length f = length p /\ closest f (map (fun y => B2R (d_mul y (d_ofZ pop))) p).
Proof.
  destruct (prob2_claim fuel p pop H1 H2 H3 H4) as [Et|(f' & E' & Hl & _ & _ & Hc)]; [congruence|].
  rewrite E in E'. injection E' as <- _. rewrite map_map in Hc. auto.
Qed.

Lemma r_nth i : (i < length p)%nat -> nth i (map (fun y => B2R (d_mul y (d_ofZ pop))) p) 0%R = B2R (d_mul (nth i p d_zero) (d_ofZ pop)).
Proof. intros Hi. set (g := fun x => B2R _). rewrite (nth_indep _ 0%R (g d_zero)) by (now rewrite map_length). now rewrite map_nth. Qed.

Lemma r_order_claim i j : (i < length p)%nat -> (j < length p)%nat ->
  (B2R (d_mul (nth i p d_zero) (d_ofZ pop)) < B2R (d_mul (nth j p d_zero) (d_ofZ pop)))%R -> nth i f 0 <= nth j f 0.
Proof. intros Hi Hj H. destruct r_closest as [Hl Hc]. apply (closest_order f _ i j Hc); try lia. now rewrite !r_nth. Qed.

Lemma r_near i : (i < length p)%nat -> (Rabs (IZR (nth i f 0%Z) - B2R (d_mul (nth i p d_zero) (d_ofZ pop))) < 1)%R.
Proof. intros Hi. destruct r_closest as [Hl Hc]. rewrite <- r_nth by auto. apply closest_near; auto. lia. Qed.

Lemma r_whole_claim i z : (i < length p)%nat -> B2R (d_mul (nth i p d_zero) (d_ofZ pop)) = IZR z -> nth i f 0 = z.
Proof. intros Hi Hz. pose proof (r_near i Hi) as H. rewrite Hz, <- minus_IZR, <- abs_IZR in H. apply lt_IZR in H. lia. Qed.

Lemma r_dist : integerise_dist fuel p pop = Ok (f, rmse).
Proof. pose proof E as E'. unfold r_prob2IntFreq in E'. destruct (pop <? 0); [discriminate|]. destruct (d_ltb _ _); [discriminate|]. exact E'. Qed.

Lemma r_val i : (i < length p)%nat -> B2R (d_mul (nth i p d_zero) (d_ofZ pop)) = RN (B2R (nth i p d_zero) * IZR pop).
Proof.
  intros Hi. pose proof r_dist as E'. unfold integerise_dist in E'. destruct (mapM _ p) as [f1| | |] eqn:Em; cbn [bind] in E'; try discriminate.
  destruct (mapM_nth _ _ _ _ _ Em (nth_error_nth' p d_zero Hi)) as (k & _ & Hk). apply to_i32_fin in Hk.
  assert (fin (d_ofZ pop) (IZR pop)) as [Fp Vp] by (apply d_ofZ_exact; lia).
  pose proof (Bmult_correct 53 1024 Hprec Hemax mode_NE (nth i p d_zero) (d_ofZ pop)) as C. rewrite Vp in C.
  change (Bmult mode_NE (nth i p d_zero) (d_ofZ pop)) with (d_mul (nth i p d_zero) (d_ofZ pop)) in C.
  destruct (Rlt_bool _ _); [exact (proj1 C)|]. exfalso. destruct (d_mul (nth i p d_zero) (d_ofZ pop)); try discriminate Hk; discriminate C.
Qed.

Lemma r_le i j : (i < length p)%nat -> (j < length p)%nat -> (B2R (nth i p d_zero) <= B2R (nth j p d_zero))%R ->
  (B2R (d_mul (nth i p d_zero) (d_ofZ pop)) <= B2R (d_mul (nth j p d_zero) (d_ofZ pop)))%R.
Proof. intros Hi Hj H. rewrite !r_val by auto. apply RN_le. apply Rmult_le_compat_r; [apply IZR_le; lia|exact H]. Qed.

Lemma r_one_claim i j : (i < length p)%nat -> (j < length p)%nat -> (B2R (nth i p d_zero) <= B2R (nth j p d_zero))%R -> nth i f 0 <= nth j f 0 + 1.
Proof.
  intros Hi Hj H. apply r_le in H; auto. pose proof (r_near i Hi) as A. pose proof (r_near j Hj) as B.
  apply Rabs_def2 in A, B. assert (IZR (nth i f 0%Z) < IZR (nth j f 0%Z + 2))%R as C by (rewrite plus_IZR; lra). apply lt_IZR in C. lia.
Qed.

Lemma r_first_claim i j : (i < j)%nat -> (j < length p)%nat -> (B2R (nth j p d_zero) <= B2R (nth i p d_zero))%R -> nth j f 0 <= nth i f 0.
Proof.
  intros Hij Hj H. assert (i < length p)%nat as Hi by lia. apply r_le in H; auto.
  destruct (Rle_lt_or_eq_dec _ _ H) as [Hlt|Heq]; [now apply r_order_claim|]. exact (dist_first _ _ _ _ _ r_dist i j Hij Hj Heq).
Qed.
End R.
