(** The largest-remainder loop of src/Integerise.cpp. *)
From Coq Require Import ZArith Reals Lra Lia List Bool.
From Flocq Require Import Core.Core IEEE754.BinarySingleNaN Sterbenz.
From Verif Require Import Base Spec NDArray Float64 FloatProofs RealSpec SpecFacts IndexProofs ArrayOps Bind Integerise IntegeriseSpec.
Open Scope R_scope.

Lemma list_nth {A} (d : A) l : l = map (fun i => nth i l d) (seq 0 (length l)).
Proof.
  induction l as [|x l IH]; auto. simpl. f_equal. rewrite <- seq_shift, map_map. exact IH.
Qed.

Lemma sumR_le {A} (f g : A -> R) l : (forall i, In i l -> f i <= g i) -> sumR (map f l) <= sumR (map g l).
Proof. induction l as [|x l IH]; intros H; simpl; [lra|]. apply Rplus_le_compat; [apply H; now left|apply IH; intros; apply H; now right]. Qed.
Lemma sumR_IZR {A} (f : A -> Z) l : sumR (map (fun i => IZR (f i)) l) = IZR (sumZ (map f l)).
Proof. induction l as [|x l IH]; simpl; auto. now rewrite IH, plus_IZR. Qed.
Lemma sumR_plus {A} (f g : A -> R) l : sumR (map (fun i => f i + g i) l) = sumR (map f l) + sumR (map g l).
Proof. induction l as [|x l IH]; simpl; [lra|]. rewrite IH. lra. Qed.
Lemma sumR_mult {A} k (f : A -> R) l : sumR (map (fun i => k * f i) l) = k * sumR (map f l).
Proof. induction l as [|x l IH]; simpl; [lra|]. rewrite IH. lra. Qed.
Lemma sumR_ext {A} (f g : A -> R) l : (forall i, In i l -> f i = g i) -> sumR (map f l) = sumR (map g l).
Proof. intros H. f_equal. now apply map_ext_in. Qed.
Lemma sumR_ge1 {A} (f : A -> R) l i : (forall j, In j l -> 0 <= f j) -> In i l -> f i <= sumR (map f l).
Proof.
  induction l as [|x l IH]; intros H Hi; [destruct Hi|]. simpl.
  assert (0 <= sumR (map f l)) as H0.
  { clear -H. induction l as [|y l IH]; simpl; [lra|]. pose proof (H y ltac:(right; now left)).
    assert (0 <= sumR (map f l)); [|lra]. apply IH. intros j [->|Hj]; apply H; [now left|right; now right]. }
  destruct Hi as [->|Hi]; [lra|]. pose proof (H x ltac:(now left)). assert (f i <= sumR (map f l)); [|lra].
  apply IH; auto. intros j Hj. apply H. now right.
Qed.

Lemma sumZ_ge1 {A} (f : A -> Z) l i : (forall j, In j l -> 0 <= f j)%Z -> In i l -> (f i <= sumZ (map f l))%Z.
Proof.
  induction l as [|x l IH]; intros H Hi; [destruct Hi|]. cbn [map sumZ fold_right]. fold (sumZ (map f l)).
  assert (0 <= sumZ (map f l))%Z by (apply sumZ_nonneg; intros y Hy; apply in_map_iff in Hy as (k & <- & Hk); apply H; now right).
  pose proof (H x ltac:(now left)). destruct Hi as [->|Hi]; [lia|]. assert (f i <= sumZ (map f l))%Z; [|lia].
  apply IH; auto. intros j Hj. apply H. now right.
Qed.

(** * Remainders *)

Lemma repr_frac x : repr x -> 0 <= x < p2 52 -> repr (x - IZR (Zfloor x)).
Proof.
  intros Hx [H0 H1]. pose proof (Zfloor_lb x) as L. pose proof (Zfloor_ub x) as U.
  destruct (Rlt_or_le x 1) as [Hs|Hs].
  - replace (Zfloor x) with 0%Z; [now rewrite Rminus_0_r|]. symmetry. apply Zfloor_imp. rewrite plus_IZR. lra.
  - assert (1 <= Zfloor x)%Z as H1' by (apply Zfloor_lub; lra). apply IZR_le in H1' as H1R.
    apply sterbenz; auto; [apply fexp_valid|apply fexp_mono| |].
    + apply repr_Z. assert (Zfloor x < 2 ^ 52)%Z; [|lia]. apply lt_IZR. rewrite IZR_p2 by lia. lra.
    + split; lra.
Qed.

Lemma d_to_i32_ok x r : fin x r -> (- 2 ^ 31 <= Ztrunc r < 2 ^ 31)%Z -> d_to_i32 x = Ok (Ztrunc r).
Proof.
  intros Hx Hr. unfold d_to_i32. rewrite (d_trunc x r Hx). destruct Hx as [-> _]. unfold in_i32.
  rewrite (proj2 (Z.leb_le _ _)), (proj2 (Z.ltb_lt _ _)) by lia. reflexivity.
Qed.

Lemma max_from_spec l : forall i best m (all : list double), Forall (fun x => is_finite x = true) l -> is_finite m = true ->
  (forall k, (k < length l)%nat -> nth (i + k) all d_zero = nth k l d_zero) ->
  nth best all d_zero = m -> (best < i)%nat ->
  (forall k, (k < i)%nat -> B2R (nth k all d_zero) <= B2R m) ->
  let j := max_from l i best m in
  (j < i + length l)%nat /\ forall k, (k < i + length l)%nat -> B2R (nth k all d_zero) <= B2R (nth j all d_zero).
Proof.
  induction l as [|x l IH]; intros i best m all Hf Hm Hl Hb Hbi Hle; cbn [max_from length].
  - rewrite Nat.add_0_r. split; auto. intros k Hk. rewrite Hb. auto.
  - inversion Hf as [|? ? Hx Hf']; subst. pose proof (Hl O ltac:(simpl; lia)) as H0. rewrite Nat.add_0_r in H0. simpl in H0.
    assert (forall k, (k < length l)%nat -> nth (S i + k) all d_zero = nth k l d_zero) as Hl'.
    { intros k Hk. specialize (Hl (S k) ltac:(simpl; lia)). now rewrite Nat.add_succ_r in Hl. }
    rewrite Nat.add_succ_r, <- Nat.add_succ_l.
    destruct (d_ltb (nth best all d_zero) x) eqn:E.
    + rewrite (d_ltb_true _ _ _ _ (fin_B2R _ Hm) (fin_B2R _ Hx)) in E. apply IH; auto.
      intros k Hk. destruct (Nat.eq_dec k i) as [->|Hne]; [rewrite H0; lra|]. specialize (Hle k ltac:(lia)). lra.
    + rewrite (d_ltb_false _ _ _ _ (fin_B2R _ Hm) (fin_B2R _ Hx)) in E. apply IH; auto.
      intros k Hk. destruct (Nat.eq_dec k i) as [->|Hne]; [rewrite H0; lra|]. apply Hle. lia.
Qed.

Lemma max_element_ok l : l <> [] -> Forall (fun x => is_finite x = true) l ->
  exists j, max_element l = Ok j /\ (j < length l)%nat /\ forall k, (k < length l)%nat -> B2R (nth k l d_zero) <= B2R (nth j l d_zero).
Proof.
  destruct l as [|x l]; [congruence|]. intros _ Hf. inversion Hf as [|? ? Hx Hf']; subst. cbn [max_element].
  eexists. split; [reflexivity|]. change (length (x :: l)) with (1 + length l)%nat. apply max_from_spec; auto.
  intros k Hk. assert (k = O) as -> by lia. simpl. lra.
Qed.

Lemma sum_i32_ok f : Forall (fun k => 0 <= k)%Z f -> (sumZ f < 2 ^ 31)%Z -> sum_i32 f = Ok (sumZ f).
Proof.
  unfold sum_i32. intros Hf Hs.
  assert (forall l acc, Forall (fun k => 0 <= k)%Z l -> (0 <= acc)%Z -> (acc + sumZ l < 2 ^ 31)%Z ->
    foldM (fun x s => i32 (s + x)) l acc = Ok (acc + sumZ l)%Z) as H.
  { induction l as [|x l IH]; intros acc Hl Ha Hb; cbn [foldM sumZ fold_right].
    - now rewrite Z.add_0_r.
    - inversion Hl as [|? ? Hx Hl']; subst. change (fold_right Z.add 0%Z l) with (sumZ l) in *. cbn [sumZ fold_right] in Hb.
      change (fold_right Z.add 0%Z l) with (sumZ l) in Hb.
      assert (0 <= sumZ l)%Z as Hp by (clear -Hl'; induction Hl'; simpl; lia).
      unfold i32, in_i32. rewrite (proj2 (Z.leb_le _ _)), (proj2 (Z.ltb_lt _ _)) by lia. cbn [andb bind].
      rewrite IH by (auto; lia). f_equal. lia. }
  rewrite H; auto; lia.
Qed.

Section LargestRemainder.
Variables (xd : list double) (pop : Z).
Hypothesis Hpop : (0 <= pop < 2 ^ 31)%Z.
Hypothesis Hx : Forall nonneg_fin xd.
Hypothesis Hsum : Rabs (sumR (map B2R xd) - IZR pop) < 1.

Let n := length xd.
Let x (i : nat) : R := B2R (nth i xd d_zero).
Let fl (i : nat) : Z := Zfloor (x i).
Let rem (i : nat) : R := x i - IZR (fl i).
Let b2z (b : bool) : Z := if b then 1%Z else 0%Z.
Let rd (i : nat) (b : bool) : double :=
  let r := d_sub (nth i xd d_zero) (d_ofZ (fl i)) in if b then d_sub r d_one else r.

Lemma sum_x : sumR (map B2R xd) = sumR (map x (seq 0 n)).
Proof. rewrite (list_nth d_zero xd) at 1. rewrite map_map. reflexivity. Qed.

Lemma x_ok i : (i < n)%nat -> fin (nth i xd d_zero) (x i) /\ 0 <= x i.
Proof.
  intros Hi. rewrite Forall_forall in Hx. destruct (Hx (nth i xd d_zero)) as [H1 H2]; [now apply nth_In|].
  split; auto. now split.
Qed.

Lemma x_le i : (i < n)%nat -> x i < IZR pop + 1.
Proof.
  intros Hi. apply Rle_lt_trans with (sumR (map x (seq 0 n))).
  - apply (sumR_ge1 x); [|apply in_seq; lia]. intros j Hj. apply in_seq in Hj. apply x_ok. lia.
  - rewrite <- sum_x. apply Rabs_def2 in Hsum. lra.
Qed.

Lemma fl_range i : (i < n)%nat -> (0 <= fl i <= pop)%Z.
Proof.
  intros Hi. destruct (x_ok i Hi) as [_ H0]. split; [apply Zfloor_lub; simpl; lra|].
  assert (fl i < pop + 1)%Z; [|lia]. apply lt_IZR. rewrite plus_IZR. eapply Rle_lt_trans; [apply Zfloor_lb|]. now apply x_le.
Qed.

Lemma rem_range i : 0 <= rem i < 1.
Proof. unfold rem, fl. pose proof (Zfloor_lb (x i)). pose proof (Zfloor_ub (x i)). lra. Qed.

Lemma fl_fin i : (i < n)%nat -> fin (d_ofZ (fl i)) (IZR (fl i)).
Proof. intros Hi. apply d_ofZ_exact. pose proof (fl_range i Hi). lia. Qed.

Lemma small_p2 r : Rabs r <= 2 ^ 40 -> Rabs r < p2 1024.
Proof. intros H. eapply Rle_lt_trans; [exact H|]. apply Rle_lt_trans with (p2 40); [simpl; lra|apply bpow_lt; lia]. Qed.

Lemma RN_small r : Rabs r <= 2 ^ 40 -> Rabs (RN r) < p2 1024.
Proof.
  intros H. rewrite RN_abs. apply Rle_lt_trans with (p2 40); [|apply bpow_lt; lia].
  apply RN_le_repr; [apply repr_p2; lia|]. eapply Rle_trans; [exact H|]. simpl. lra.
Qed.

Lemma rd_false i : (i < n)%nat -> fin (rd i false) (rem i).
Proof.
  intros Hi. destruct (x_ok i Hi) as [Hf H0]. pose proof (rem_range i) as Hr. apply d_sub_exact; auto; [now apply fl_fin| |].
  - apply repr_frac; [now apply (fin_repr (nth i xd d_zero))|]. split; auto. eapply Rlt_le_trans; [now apply x_le|].
    rewrite <- (plus_IZR pop 1), <- IZR_p2 by lia. apply IZR_le. lia.
  - apply small_p2. fold (rem i). rewrite Rabs_pos_eq; lra.
Qed.

Lemma rem_lt1 i : (i < n)%nat -> rem i <= 1 - p2 (-53).
Proof.
  intros Hi. pose proof (rem_range i) as Hr. assert (repr (rem i)) as Hrep by (apply (fin_repr (rd i false)); now apply rd_false).
  assert (pred radix2 fx 1 = 1 - p2 (-53)) as <-.
  { change 1 with (p2 0) at 1. rewrite pred_bpow. change (fx 0) with (-53)%Z. simpl (p2 0). lra. }
  apply pred_ge_gt; auto; [apply fexp_valid|apply (repr_p2 0); lia|lra].
Qed.

Lemma rd_true i : (i < n)%nat -> fin (rd i true) (RN (rem i - 1)) /\ RN (rem i - 1) < 0.
Proof.
  intros Hi. pose proof (rem_range i) as Hr. split.
  - apply d_sub_round; [now apply rd_false|apply fin_one|]. apply RN_small. rewrite Rabs_left1; lra.
  - pose proof (rem_lt1 i Hi). apply Rle_lt_trans with (- p2 (-53)); [|pose proof (bpow_gt_0 radix2 (-53)); lra].
    apply RN_le_repr; [apply generic_format_opp, repr_p2; lia|]. lra.
Qed.

(** the remainder kept by the loop is the difference between the scaled value and the frequency *)
Lemma rd_diff i b : (i < n)%nat -> rd i b = d_sub (nth i xd d_zero) (d_ofZ (fl i + b2z b)).
Proof.
  intros Hi. destruct b; [|unfold rd, b2z; now rewrite Z.add_0_r].
  destruct (rd_true i Hi) as [[F1 V1] Hneg]. pose proof (fl_range i Hi) as Hfl. pose proof (rem_range i) as Hr.
  assert (fin (d_sub (nth i xd d_zero) (d_ofZ (fl i + 1))) (RN (rem i - 1))) as [F2 V2].
  { replace (rem i - 1) with (x i - IZR (fl i + 1)) by (unfold rem; rewrite plus_IZR; lra). apply d_sub_round.
    - now apply x_ok.
    - apply d_ofZ_exact. lia.
    - apply RN_small. replace (x i - IZR (fl i + 1)) with (rem i - 1) by (unfold rem; rewrite plus_IZR; lra). rewrite Rabs_left1; lra. }
  apply B2R_inj.
  - destruct (rd i true); simpl in *; auto; try discriminate. lra.
  - simpl b2z. destruct (d_sub (nth i xd d_zero) (d_ofZ (fl i + 1))); simpl in *; auto; try discriminate. lra.
  - simpl b2z. now rewrite V1, V2.
Qed.

Definition inv (inc : nat -> bool) (f : list Z) (r : list double) : Prop :=
  f = map (fun i => fl i + b2z (inc i))%Z (seq 0 n) /\ r = map (fun i => rd i (inc i)) (seq 0 n) /\
  forall i j, (i < n)%nat -> (j < n)%nat -> inc i = true -> 0 < rem i /\ (inc j = false -> rem j <= rem i).

Definition cnt (inc : nat -> bool) : Z := sumZ (map (fun i => b2z (inc i)) (seq 0 n)).

Lemma cnt_le inc : (0 <= cnt inc <= Z.of_nat n)%Z.
Proof.
  assert (forall l, 0 <= sumZ (map (fun i => b2z (inc i)) l) <= Z.of_nat (length l))%Z as H.
  { induction l as [|y l IH]; [simpl; lia|]. cbn [map length sumZ fold_right]. fold (sumZ (map (fun i => b2z (inc i)) l)).
    destruct (inc y); unfold b2z at 1 3; lia. }
  specialize (H (seq 0 n)). now rewrite seq_length in H.
Qed.

Lemma fin_rd i b : (i < n)%nat -> is_finite (rd i b) = true.
Proof. intros Hi. destruct b; [now apply rd_true|now apply rd_false]. Qed.

Lemma nth_seq_map {A} (g : nat -> A) d i : (i < n)%nat -> nth i (map g (seq 0 n)) d = g i.
Proof. intros Hi. rewrite (nth_indep _ d (g O)) by now rewrite map_length, seq_length. rewrite map_nth, seq_nth; auto. Qed.

(** while individuals are missing, some index not yet chosen has a positive remainder *)
Lemma some_left inc f r : inv inc f r -> (sumZ f < pop)%Z -> exists i, (i < n)%nat /\ inc i = false /\ 0 < rem i.
Proof.
  intros (-> & _ & Ho) Hs.
  destruct (existsb (fun i => negb (inc i) && Rlt_bool 0 (rem i)) (seq 0 n)) eqn:E.
  - apply existsb_exists in E as (i & Hi & E). apply in_seq in Hi. apply andb_prop in E as [E1 E2].
    exists i. split; [lia|]. split; [now destruct (inc i)|]. destruct (Rlt_bool_spec 0 (rem i)); [auto|discriminate].
  - exfalso. assert (sumR (map x (seq 0 n)) <= sumR (map (fun i => IZR (fl i + b2z (inc i))) (seq 0 n))) as H.
    { apply sumR_le. intros i Hi.
      assert ((fun i => negb (inc i) && Rlt_bool 0 (rem i)) i = false) as E'.
      { destruct (negb (inc i) && Rlt_bool 0 (rem i)) eqn:E'; auto. rewrite <- E. symmetry. apply existsb_exists. now exists i. }
      cbn beta in E'. rewrite plus_IZR. pose proof (rem_range i). destruct (inc i); unfold b2z; simpl in E'.
      - unfold rem in *. lra.
      - destruct (Rlt_bool_spec 0 (rem i)); [discriminate|]. unfold rem in *. lra. }
    rewrite sumR_IZR, <- sum_x in H. apply Rabs_def2 in Hsum.
    assert (IZR (sumZ (map (fun i => fl i + b2z (inc i)) (seq 0 n))%Z) <= IZR (pop - 1)) as H' by (apply IZR_le; lia).
    rewrite minus_IZR in H'. lra.
Qed.

Lemma cnt_upd inc j : (j < n)%nat -> inc j = false -> cnt (fun i => if Nat.eqb i j then true else inc i) = (cnt inc + 1)%Z.
Proof.
  intros Hj Hinc. unfold cnt.
  assert (forall l, NoDup l -> sumZ (map (fun i => b2z (if Nat.eqb i j then true else inc i)) l)
    = (sumZ (map (fun i => b2z (inc i)) l) + if in_dec Nat.eq_dec j l then 1 else 0)%Z) as H.
  { induction l as [|y l IH]; intros Hnd; [reflexivity|]. inversion Hnd as [|? ? Hni Hnd']; subst. simpl. unfold sumZ in *.
    rewrite IH by auto. destruct (Nat.eq_dec y j) as [->|Hne].
    - rewrite Nat.eqb_refl, Hinc. destruct (in_dec Nat.eq_dec j l); [tauto|]. unfold b2z. lia.
    - rewrite (proj2 (Nat.eqb_neq y j)) by auto. destruct (in_dec Nat.eq_dec j l); lia. }
  rewrite H by apply seq_NoDup. destruct (in_dec Nat.eq_dec j (seq 0 n)) as [|Hn]; auto. exfalso. apply Hn. apply in_seq. lia.
Qed.

Lemma upd_seq {A} (g : nat -> A) j v : (j < n)%nat ->
  upd (map g (seq 0 n)) j v = map (fun i => if Nat.eqb i j then v else g i) (seq 0 n).
Proof.
  intros Hj. apply (nth_ext _ _ v v); [now rewrite length_upd, !map_length|].
  rewrite length_upd, map_length, seq_length. intros i Hi.
  rewrite nth_upd by (rewrite map_length, seq_length; auto). rewrite !nth_seq_map by auto. reflexivity.
Qed.

Lemma fill_ok fuel : forall inc f r, inv inc f r -> (sumZ f <= pop)%Z -> (Z.of_nat n - cnt inc < Z.of_nat fuel)%Z ->
  exists inc' f' r', fill_loop fuel pop f r = Ok (f', r') /\ inv inc' f' r' /\ sumZ f' = pop.
Proof.
  induction fuel as [|fuel IH]; intros inc f r Hinv Hle Hfuel; [pose proof (cnt_le inc); lia|].
  cbn [fill_loop]. pose proof Hinv as (Ef & Er & Ho).
  assert (Forall (fun k => 0 <= k)%Z f) as Hnn.
  { rewrite Ef. apply Forall_forall. intros k Hk. apply in_map_iff in Hk as (i & <- & Hi). apply in_seq in Hi.
    pose proof (fl_range i ltac:(lia)). destruct (inc i); unfold b2z; lia. }
  rewrite sum_i32_ok by (auto; lia). cbn [bind].
  destruct (Z.ltb_spec (sumZ f) pop) as [Hlt|Hge].
  2:{ exists inc, f, r. split; auto. split; auto. lia. }
  destruct (some_left inc f r Hinv Hlt) as (i0 & Hi0 & Hinc0 & Hpos).
  assert (length r = n) as Hlr by (rewrite Er, map_length, seq_length; auto).
  assert (length f = n) as Hlf by (rewrite Ef, map_length, seq_length; auto).
  destruct (max_element_ok r) as (j & Ej & Hj & Hmax).
  { intros ->. simpl in Hlr. lia. }
  { rewrite Er. apply Forall_forall. intros d Hd. apply in_map_iff in Hd as (i & <- & Hi). apply in_seq in Hi. apply fin_rd. lia. }
  rewrite Ej. cbn [bind]. 
  assert (j < n)%nat as Hj' by exact (eq_ind _ (fun k => (j < k)%nat) Hj _ Hlr). clear Hj. rename Hj' into Hj.
  assert (forall k, (k < n)%nat -> B2R (nth k r d_zero) <= B2R (nth j r d_zero)) as Hmax'
    by (intros k Hk; apply Hmax; exact (eq_ind _ (fun m => (k < m)%nat) Hk _ (eq_sym Hlr))). clear Hmax. rename Hmax' into Hmax.
  assert (forall i, (i < n)%nat -> nth i r d_zero = rd i (inc i)) as Hnr by (intros i Hi; rewrite Er; now apply (nth_seq_map (fun i => rd i (inc i)))).
  assert (forall i, (i < n)%nat -> nth i f 0%Z = (fl i + b2z (inc i))%Z) as Hnf
    by (intros i Hi; rewrite Ef; now apply (nth_seq_map (fun i => fl i + b2z (inc i))%Z)).
  assert (inc j = false) as Hincj.
  { destruct (inc j) eqn:E; auto. exfalso. specialize (Hmax i0 Hi0). rewrite !Hnr, E, Hinc0 in Hmax by auto.
    destruct (rd_false i0 Hi0) as [_ V0]. destruct (rd_true j Hj) as [[_ Vj] Hneg]. rewrite V0, Vj in Hmax. lra. }
  assert (forall i, (i < n)%nat -> inc i = false -> rem i <= rem j) as Hbig.
  { intros i Hi Hi'. specialize (Hmax i Hi). rewrite !Hnr, Hincj, Hi' in Hmax by auto.
    destruct (rd_false i Hi) as [_ V0]. destruct (rd_false j Hj) as [_ V1]. now rewrite V0, V1 in Hmax. }
  assert (0 < rem j) as Hposj by (specialize (Hbig i0 Hi0 Hinc0); lra).
  assert (nth_error f j = Some (fl j)) as Hgf.
  { rewrite (nth_error_nth' f 0%Z) by lia. rewrite Hnf, Hincj by auto. unfold b2z. now rewrite Z.add_0_r. }
  assert (nth_error r j = Some (rd j false)) as Hgr by (rewrite (nth_error_nth' r d_zero) by lia; now rewrite Hnr, Hincj).
  unfold vec_get. rewrite (proj2 (Z.leb_le 0 (Z.of_nat j))) by lia. rewrite !Nat2Z.id, Hgf. cbn [bind].
  pose proof (fl_range j Hj) as Hflj. pose proof (x_le j Hj) as Hxj.
  assert (fl j + 1 <= pop)%Z as Hflj1.
  { assert (fl j <= sumZ f)%Z; [|lia]. rewrite Ef. apply Z.le_trans with ((fun i => fl i + b2z (inc i)) j)%Z; [rewrite Hincj; unfold b2z; lia|].
    apply (sumZ_ge1 (fun i => fl i + b2z (inc i))%Z).
    - intros i Hi. apply in_seq in Hi. pose proof (fl_range i ltac:(lia)). destruct (inc i); unfold b2z; lia.
    - apply in_seq. lia. }
  unfold i32, in_i32. rewrite (proj2 (Z.leb_le _ _)), (proj2 (Z.ltb_lt _ _)) by lia. cbn [andb bind].
  rewrite !vec_set_ok by lia. cbn [bind]. rewrite Nat2Z.id, Hgr. cbn [bind]. rewrite vec_set_ok by lia. cbn [bind]. rewrite Nat2Z.id.
  set (inc' := fun i => if Nat.eqb i j then true else inc i).
  assert (upd f j (fl j + 1)%Z = map (fun i => fl i + b2z (inc' i))%Z (seq 0 n)) as Ef'.
  { rewrite Ef, upd_seq by auto. apply map_ext. intros i. unfold inc'. destruct (Nat.eqb_spec i j) as [->|]; auto. }
  assert (upd r j (d_sub (rd j false) d_one) = map (fun i => rd i (inc' i)) (seq 0 n)) as Er'.
  { rewrite Er, upd_seq by auto. apply map_ext. intros i. unfold inc'. destruct (Nat.eqb_spec i j) as [->|]; auto. }
  assert (sumZ (upd f j (fl j + 1)%Z) = sumZ f + 1)%Z as Esum.
  { rewrite Ef', Ef, !sumZ_map_add. fold (cnt inc') (cnt inc). unfold inc'. rewrite cnt_upd by auto. lia. }
  rewrite Ef', Er'. apply (IH inc').
  - split; [reflexivity|]. split; [reflexivity|]. intros i k Hi Hk. unfold inc'.
    destruct (Nat.eqb_spec i j) as [->|Hij]; destruct (Nat.eqb_spec k j) as [->|Hkj]; intros Hi'.
    + split; [auto|discriminate].
    + split; [auto|]. intros Hk'. now apply Hbig.
    + split; [now apply (Ho i i)|discriminate].
    + now apply Ho.
  - rewrite <- Ef', Esum. lia.
  - unfold inc'. rewrite cnt_upd by auto. lia.
Qed.

Lemma combine_map {A B C} (f : A -> B) (g : A -> C) l : combine (map f l) (map g l) = map (fun i => (f i, g i)) l.
Proof. induction l as [|a l IH]; simpl; auto. now rewrite IH. Qed.

Lemma sq_dist_seq (h : nat -> Z) : sq_dist (map h (seq 0 n)) (map B2R xd) = sumR (map (fun i => (IZR (h i) - x i) * (IZR (h i) - x i)) (seq 0 n)).
Proof.
  unfold sq_dist. rewrite (list_nth d_zero xd) at 1. rewrite map_map. fold n. rewrite combine_map, map_map. reflexivity.
Qed.

Lemma sq_int (d : Z) : Rabs (IZR d) <= IZR d * IZR d.
Proof. rewrite <- abs_IZR, <- mult_IZR. apply IZR_le. nia. Qed.

Lemma argmax (e : nat -> R) m : (0 < m)%nat -> exists i, (i < m)%nat /\ forall j, (j < m)%nat -> e j <= e i.
Proof.
  induction m as [|m IH]; intros Hm; [lia|]. destruct m as [|m].
  - exists O. split; auto. intros j Hj. replace j with O by lia. lra.
  - destruct (IH ltac:(lia)) as (i & Hi & H). destruct (Rle_or_lt (e (S m)) (e i)) as [Hle|Hlt].
    + exists i. split; [lia|]. intros j Hj. destruct (Nat.eq_dec j (S m)) as [->|]; auto. apply H. lia.
    + exists (S m). split; [lia|]. intros j Hj. destruct (Nat.eq_dec j (S m)) as [->|]; [lra|]. specialize (H j ltac:(lia)). lra.
Qed.

Lemma closest_ok inc f r : inv inc f r -> closest f (map B2R xd).
Proof.
  intros (-> & _ & Ho). set (h := fun i => (fl i + b2z (inc i))%Z). set (e := fun i => x i - IZR (h i)).
  assert (forall i, (i < n)%nat -> e i = rem i - IZR (b2z (inc i))) as He by (intros; unfold e, h, rem; rewrite plus_IZR; lra).
  split.
  - rewrite (list_nth d_zero xd) at 1. rewrite map_map. fold n.
    assert (forall l, (forall i, In i l -> (i < n)%nat) -> Forall2 (fun k y => Rabs (IZR k - y) < 1) (map h l) (map (fun i => B2R (nth i xd d_zero)) l)) as H.
    { induction l as [|i l IH]; intros Hl; simpl; constructor; [|apply IH; intros; apply Hl; now right].
      fold (x i). specialize (Hl i ltac:(now left)). specialize (He i Hl). pose proof (rem_range i). unfold e in He.
      rewrite Rabs_minus_sym. rewrite He. destruct (inc i) eqn:E; unfold b2z; simpl.
      - destruct (Ho i i Hl Hl E). apply Rabs_def1; lra.
      - apply Rabs_def1; lra. }
    apply H. intros i Hi. apply in_seq in Hi. lia.
  - intros g Hlg Hsg. rewrite map_length, seq_length in Hlg.
    rewrite (list_nth 0%Z g) in Hsg |- *. rewrite Hlg in Hsg |- *. set (k := fun i => nth i g 0%Z) in *.
    change (fun i => (fl i + b2z (inc i))%Z) with h in Hsg |- *. rewrite !sq_dist_seq.
    destruct (Nat.eq_dec n 0) as [E0|Hn0]; [rewrite E0; simpl; lra|].
    destruct (argmax e n ltac:(lia)) as (i0 & Hi0 & Hmax). set (lam := e i0 - / 2).
    assert (forall i, (i < n)%nat -> Rabs (e i - lam) <= / 2) as Hlam.
    { intros i Hi. specialize (Hmax i Hi). unfold lam.
      assert (e i0 - 1 <= e i); [|apply Rabs_le; lra].
      rewrite !He by auto. pose proof (rem_range i0). pose proof (rem_range i).
      destruct (inc i) eqn:E1; destruct (inc i0) eqn:E2; unfold b2z; simpl; try lra.
      destruct (Ho i i0 Hi Hi0 E1) as [_ H2]. specialize (H2 E2). lra. }
    assert (sumR (map (fun i => (IZR (h i) - x i) * (IZR (h i) - x i)) (seq 0 n))
      + 2 * lam * (sumR (map (fun i => IZR (h i)) (seq 0 n)) - sumR (map (fun i => IZR (k i)) (seq 0 n)))
      <= sumR (map (fun i => (IZR (k i) - x i) * (IZR (k i) - x i)) (seq 0 n))) as H.
    { replace (sumR (map (fun i => IZR (h i)) (seq 0 n)) - sumR (map (fun i => IZR (k i)) (seq 0 n)))
        with (sumR (map (fun i => IZR (h i)) (seq 0 n)) + sumR (map (fun i => - 1 * IZR (k i)) (seq 0 n))) by (rewrite sumR_mult; lra).
      rewrite <- sumR_plus, <- sumR_mult, <- sumR_plus. apply sumR_le. intros i Hi. apply in_seq in Hi.
      specialize (Hlam i ltac:(lia)). pose proof (sq_int (k i - h i)) as Hd. rewrite minus_IZR in Hd.
      assert (x i = e i + IZR (h i)) as -> by (unfold e; lra).
      set (d := IZR (k i) - IZR (h i)) in *. replace (IZR (k i)) with (d + IZR (h i)) by (unfold d; lra).
      assert (2 * (d * (e i - lam)) <= Rabs d) as H2.
      { eapply Rle_trans; [|right; apply Rmult_1_r]. apply Rle_trans with (2 * (Rabs d * Rabs (e i - lam))).
        - apply Rmult_le_compat_l; [lra|]. rewrite <- Rabs_mult. apply Rle_abs.
        - pose proof (Rabs_pos d). nra. }
      lra. }
    rewrite !sumR_IZR, Hsg in H. lra.
Qed.

Lemma rms_ok inc f r : inv inc f r -> rmse_of r (Z.of_nat n) = rms_diff xd f.
Proof.
  intros (-> & -> & _). unfold rmse_of, rms_diff. f_equal. f_equal.
  rewrite (list_nth d_zero xd) at 1. fold n. rewrite combine_map.
  assert (forall l acc, (forall i, In i l -> (i < n)%nat) ->
    fold_left (fun s y => d_add s (d_mul y y)) (map (fun i => rd i (inc i)) l) acc =
    fold_left (fun s '(y, k) => d_add s (d_mul (d_sub y (d_ofZ k)) (d_sub y (d_ofZ k))))
      (map (fun i => (nth i xd d_zero, (fl i + b2z (inc i))%Z)) l) acc) as H.
  { induction l as [|i l IH]; intros acc Hl; cbn [map fold_left]; auto.
    rewrite <- rd_diff by (apply Hl; now left). apply IH. intros; apply Hl; now right. }
  apply H. intros i Hi. apply in_seq in Hi. lia.
Qed.

Lemma trunc_all : mapM d_to_i32 xd = Ok (map fl (seq 0 n)).
Proof.
  assert (forall l, (forall i, In i l -> (i < n)%nat) -> mapM d_to_i32 (map (fun i => nth i xd d_zero) l) = Ok (map fl l)) as H.
  { induction l as [|i l IH]; intros Hl; cbn [map mapM]; auto. specialize (IH ltac:(intros; apply Hl; now right)).
    destruct (x_ok i ltac:(apply Hl; now left)) as [Hf H0]. pose proof (fl_range i ltac:(apply Hl; now left)) as Hr.
    rewrite (d_to_i32_ok _ _ Hf); rewrite Ztrunc_floor by auto; fold (fl i); [|lia]. cbn [bind]. rewrite IH. reflexivity. }
  rewrite (list_nth d_zero xd) at 1. apply H. intros i Hi. apply in_seq in Hi. fold n in Hi. lia.
Qed.

Lemma fill_from_start fuel : (n < fuel)%nat -> exists inc f r,
  fill_loop fuel pop (map fl (seq 0 n)) (map (fun '(y, k) => d_sub y (d_ofZ k)) (combine xd (map fl (seq 0 n)))) = Ok (f, r) /\
  inv inc f r /\ sumZ f = pop.
Proof.
  intros Hf. apply (fill_ok fuel (fun _ => false)).
  - split; [apply map_ext; intros; unfold b2z; lia|]. split; [|discriminate].
    rewrite (list_nth d_zero xd) at 1. fold n. rewrite combine_map, map_map. reflexivity.
  - apply le_IZR. assert (sumR (map (fun i => IZR (fl i)) (seq 0 n)) <= sumR (map x (seq 0 n))) as H by (apply sumR_le; intros; apply Zfloor_lb).
    rewrite sumR_IZR, <- sum_x in H. apply Rabs_def2 in Hsum.
    assert (IZR (sumZ (map fl (seq 0 n))) < IZR (pop + 1)) as H' by (rewrite plus_IZR; lra). apply lt_IZR in H'. apply IZR_le. lia.
  - pose proof (cnt_le (fun _ => false)). lia.
Qed.

Lemma inv_nonneg inc f r : inv inc f r -> length f = n /\ Forall (fun k => 0 <= k)%Z f.
Proof.
  intros (-> & _). split; [now rewrite map_length, seq_length|]. apply Forall_forall. intros k Hk.
  apply in_map_iff in Hk as (i & <- & Hi). apply in_seq in Hi. pose proof (fl_range i ltac:(lia)). destruct (inc i); unfold b2z; lia.
Qed.

End LargestRemainder.

(** integeriseMarginalDistribution whenever the scaled values are non-negative and add up to within one of pop *)
Lemma integerise_dist_ok fuel p pop : (0 <= pop < 2 ^ 31)%Z -> (length p < fuel)%nat ->
  let xd := map (fun y => d_mul y (d_ofZ pop)) p in
  Forall nonneg_fin xd -> Rabs (sumR (map B2R xd) - IZR pop) < 1 ->
  exists f, integerise_dist fuel p pop = Ok (f, rms_diff xd f) /\ length f = length p /\
    Forall (fun k => 0 <= k)%Z f /\ sumZ f = pop /\ closest f (map B2R xd).
Proof.
  intros Hpop Hfuel xd Hx Hsum.
  assert (length xd = length p) as Hl by (unfold xd; apply map_length).
  destruct (fill_from_start xd pop Hpop Hx Hsum fuel ltac:(lia)) as (inc & f & r & Ef & Hinv & Hs).
  destruct (inv_nonneg xd pop Hx Hsum inc f r Hinv) as [Hlf Hnn].
  exists f. split.
  - unfold integerise_dist.
    assert (mapM (fun y => d_to_i32 (d_mul y (d_ofZ pop))) p = mapM d_to_i32 xd) as ->.
    { unfold xd. clear. induction p as [|y p IH]; cbn [map mapM]; auto. now rewrite IH. }
    rewrite (trunc_all xd pop Hpop Hx Hsum). cbn [bind].
    assert (forall F, map (fun '(y, k) => d_sub (d_mul y (d_ofZ pop)) (d_ofZ k)) (combine p F) =
      map (fun '(y, k) => d_sub y (d_ofZ k)) (combine xd F)) as ->.
    { unfold xd. clear. induction p as [|y p IH]; intros [|k F]; cbn [map combine]; auto. f_equal. apply IH. }
    rewrite Ef. cbn [bind]. rewrite <- Hl. now rewrite (rms_ok xd pop Hpop Hx Hsum inc f r Hinv).
  - split; [lia|]. split; auto. split; auto. apply (closest_ok xd inc f r Hinv).
Qed.
