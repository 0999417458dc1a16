(** The direction numbers computed by the constructor (SobolImpl.cpp:134-157), for any polynomial and any initial numbers
    that are odd and in range. *)
From Verif Require Import Base IndexProofs SobolTable Sobol SobolSpec.
Open Scope N_scope.

Lemma sub32_le a b : b <= a -> a < 2 ^ 32 -> sub32 a b = a - b.
Proof.
  intros H Ha. unfold sub32, w32. replace (a + 2 ^ 32 - b) with (a - b + 1 * 2 ^ 32) by lia.
  rewrite N.mod_add by (apply N.pow_nonzero; lia). apply N.mod_small. lia.
Qed.
Lemma w32_lt a : a < 2 ^ 32 -> w32 a = a. Proof. apply N.mod_small. Qed.

Lemma getN_nth {A} (l : list A) (k : nat) d : (k < length l)%nat -> getN l (N.of_nat k) = Ok (nth k l d).
Proof. intros H. unfold getN. rewrite (vec_get_ok l _ d) by lia. do 2 f_equal. lia. Qed.

Lemma below_bits a n : a < 2 ^ n <-> forall j, n <= j -> N.testbit a j = false.
Proof.
  split.
  - intros H j Hj. destruct (N.eq_dec a 0) as [->|Hz]; [apply N.bits_0|]. apply N.bits_above_log2. apply N.log2_lt_pow2; [lia|].
    apply N.lt_le_trans with (1 := H). apply N.pow_le_mono_r; lia.
  - intros H. destruct (N.eq_dec a 0) as [->|Hz]; [apply N.neq_0_lt_0, N.pow_nonzero; lia|]. apply N.log2_lt_pow2; [lia|].
    destruct (N.lt_ge_cases (N.log2 a) n) as [L|L]; auto. specialize (H _ L). rewrite N.bit_log2 in H by auto. discriminate.
Qed.
Lemma below_lxor a b n : a < 2 ^ n -> b < 2 ^ n -> N.lxor a b < 2 ^ n.
Proof. rewrite !below_bits. intros Ha Hb j Hj. now rewrite N.lxor_spec, Ha, Hb. Qed.
Lemma below_xor_list l n : (forall x, In x l -> x < 2 ^ n) -> xor_list l < 2 ^ n.
Proof.
  induction l as [|x l IH]; intros H; cbn [xor_list]; [apply N.neq_0_lt_0, N.pow_nonzero; lia|].
  apply below_lxor; [apply H; now left|apply IH; intros; apply H; now right].
Qed.
Lemma even_xor_list l : (forall x, In x l -> N.odd x = false) -> N.odd (xor_list l) = false.
Proof.
  induction l as [|x l IH]; intros H; cbn [xor_list]; auto. rewrite <- N.bit0_odd, N.lxor_spec, !N.bit0_odd.
  rewrite (H x), IH; auto; [intros; apply H|]; simpl; auto.
Qed.

(** the numbers so far are odd, and number j is below 2^(j+1) *)
Definition good (m : list N) : Prop := forall j, (j < length m)%nat -> N.odd (m_at m j) = true /\ m_at m j < 2 ^ N.of_nat (j + 1).

Section Column.
Context (p : N) (d : nat) (Hd : (1 <= d <= 31)%nat).

Definition term (m : list N) (j k : nat) : N :=
  if N.testbit p (N.of_nat k) then N.shiftl (m_at m (j - d + k)) (N.of_nat (d - k)) else 0.
Definition recur (m : list N) (j : nat) : N := N.lxor (m_at m (j - d)) (xor_list (map (term m j) (seq 0 d))).

Lemma term_bounds m j k : good m -> (d <= j)%nat -> (j <= length m)%nat -> (k < d)%nat -> N.odd (term m j k) = false /\ term m j k < 2 ^ N.of_nat (j + 1).
Proof.
  intros Hg Hdj Hj Hk. unfold term. destruct (N.testbit p (N.of_nat k)); [|split; [reflexivity|apply N.neq_0_lt_0, N.pow_nonzero; lia]].
  destruct (Hg (j - d + k)%nat ltac:(lia)) as [_ H]. split.
  - rewrite <- N.bit0_odd. apply N.shiftl_spec_low. lia.
  - rewrite N.shiftl_mul_pow2. replace (N.of_nat (j + 1)) with (N.of_nat (j - d + k + 1) + N.of_nat (d - k)) by lia.
    rewrite N.pow_add_r. apply N.mul_lt_mono_pos_r; auto. apply N.neq_0_lt_0, N.pow_nonzero. lia.
Qed.
Lemma recur_good m j : good m -> (d <= j)%nat -> j = length m -> N.odd (recur m j) = true /\ recur m j < 2 ^ N.of_nat (j + 1).
Proof.
  intros Hg Hdj Hj. unfold recur. destruct (Hg (j - d)%nat ltac:(lia)) as [H1 H2]. split.
  - rewrite <- N.bit0_odd, N.lxor_spec, !N.bit0_odd, H1, even_xor_list; [reflexivity|].
    intros x Hx. apply in_map_iff in Hx as (k & <- & Hk). apply in_seq in Hk. apply term_bounds; auto; lia.
  - apply below_lxor.
    + apply N.lt_le_trans with (1 := H2). apply N.pow_le_mono_r; lia.
    + apply below_xor_list. intros x Hx. apply in_map_iff in Hx as (k & <- & Hk). apply in_seq in Hk. apply term_bounds; auto; lia.
Qed.

Lemma next_m_ok m j : good m -> (d <= j < 32)%nat -> length m = j -> next_m p (N.of_nat d) (N.of_nat j) m = Ok (recur m j).
Proof.
  intros Hg Hj Hl. unfold next_m, recur. assert (N.of_nat j < 2 ^ 32) as Hj32 by (apply N.lt_trans with 32; [lia|reflexivity]).
  rewrite sub32_le by lia. replace (N.of_nat j - N.of_nat d) with (N.of_nat (j - d)) by lia.
  rewrite (getN_nth m (j - d) 0) by lia. cbn [bind]. rewrite Nat2N.id. change (nth (j - d) m 0) with (m_at m (j - d)).
  assert (forall n k mj, (k + n = d)%nat ->
    foldM (fun k '(a, mj) => let* t := getN m (w32 (N.of_nat (j - d) + k)) in let* s := shl32 (w32 (N.land a 1 * t)) (sub32 (N.of_nat d) k) in
             Ok (N.shiftr a 1, N.lxor mj s)) (map N.of_nat (seq k n)) (N.shiftr p (N.of_nat k), mj) =
      Ok (N.shiftr p (N.of_nat d), N.lxor mj (xor_list (map (term m j) (seq k n))))) as G.
  { induction n as [|n IH]; intros k mj Hk; cbn [seq map foldM xor_list].
    - rewrite N.lxor_0_r. replace k with d by lia. reflexivity.
    - rewrite w32_lt by (apply N.lt_trans with 32; [lia|reflexivity]). replace (N.of_nat (j - d) + N.of_nat k) with (N.of_nat (j - d + k)) by lia.
      rewrite (getN_nth m (j - d + k) 0) by lia. cbn [bind]. change (nth (j - d + k) m 0) with (m_at m (j - d + k)).
      destruct (Hg (j - d + k)%nat ltac:(lia)) as [_ Ht]. set (t := m_at m (j - d + k)) in *.
      rewrite sub32_le; [|lia|apply N.lt_trans with 32; [lia|reflexivity]].
      replace (N.of_nat d - N.of_nat k) with (N.of_nat (d - k)) by lia.
      assert (t < 2 ^ 32) as Ht32 by (apply N.lt_le_trans with (1 := Ht); apply N.pow_le_mono_r; lia).
      assert (N.land (N.shiftr p (N.of_nat k)) 1 = N.b2n (N.testbit p (N.of_nat k))) as El.
      { change 1 with (N.ones 1). rewrite N.land_ones. change (2 ^ 1) with 2. rewrite <- N.bit0_mod, N.shiftr_spec', N.add_0_l. reflexivity. }
      rewrite El. unfold shl32. replace (N.of_nat (d - k) <? 32) with true by (symmetry; apply N.ltb_lt; lia).
      assert (w32 (N.shiftl (w32 (N.b2n (N.testbit p (N.of_nat k)) * t)) (N.of_nat (d - k))) = term m j k) as ->.
      { destruct (term_bounds m j k Hg ltac:(lia) ltac:(lia) ltac:(lia)) as [_ Hb].
        assert (term m j k < 2 ^ 32) as Hb32 by (apply N.lt_le_trans with (1 := Hb); apply N.pow_le_mono_r; lia).
        rewrite <- (w32_lt _ Hb32). unfold term. fold t. destruct (N.testbit p (N.of_nat k)); cbn [N.b2n].
        - rewrite N.mul_1_l, (w32_lt t) by auto. reflexivity.
        - rewrite N.mul_0_l. change (w32 0) with 0. now rewrite N.shiftl_0_l. }
      cbn [bind]. rewrite N.shiftr_shiftr. replace (N.of_nat k + 1) with (N.of_nat (S k)) by lia.
      rewrite (IH (S k)) by lia. now rewrite N.lxor_assoc. }
  specialize (G d 0%nat (m_at m (j - d)) ltac:(lia)). cbn [N.of_nat] in G. rewrite N.shiftr_0_r in G. rewrite G. reflexivity.
Qed.

Lemma m_at_app_l m x k : (k < length m)%nat -> m_at (m ++ [x]) k = m_at m k.
Proof. intros H. unfold m_at. now rewrite app_nth1. Qed.
Lemma recur_ext m m' j : (d <= j)%nat -> (forall k, (k < j)%nat -> m_at m k = m_at m' k) -> recur m j = recur m' j.
Proof.
  intros Hj H. unfold recur. rewrite H by lia. f_equal. f_equal. apply map_ext_in. intros k Hk. apply in_seq in Hk. unfold term. now rewrite H by lia.
Qed.

Lemma column_ok n : forall m, good m -> (d <= length m)%nat -> (length m + n <= 32)%nat ->
  exists m', foldM (fun j m => let* mj := next_m p (N.of_nat d) j m in Ok (m ++ [mj])) (map N.of_nat (seq (length m) n)) m = Ok m' /\
    length m' = (length m + n)%nat /\ good m' /\ (forall k, (k < length m)%nat -> m_at m' k = m_at m k) /\
    (forall k, (length m <= k < length m + n)%nat -> m_at m' k = recur m' k).
Proof.
  induction n as [|n IH]; intros m Hg Hdl Hl; cbn [seq map foldM].
  - exists m. split; [reflexivity|]. split; [lia|]. split; [exact Hg|]. split; [auto|]. intros; lia.
  - rewrite next_m_ok by (auto; lia). cbn [bind]. set (x := recur m (length m)). destruct (recur_good m (length m) Hg Hdl eq_refl) as [X1 X2]. fold x in X1, X2.
    assert (length (m ++ [x]) = S (length m)) as El by (rewrite app_length; simpl; lia).
    assert (m_at (m ++ [x]) (length m) = x) as Ex by (unfold m_at; now rewrite nth_middle).
    destruct (IH (m ++ [x])) as (m' & E & L & G & K & R); try lia.
    { intros j Hj. rewrite El in Hj. destruct (Nat.eq_dec j (length m)) as [->|]; [now rewrite Ex|]. rewrite m_at_app_l by lia. apply Hg. lia. }
    rewrite El in *. exists m'. split; [exact E|]. split; [lia|]. split; [exact G|]. split.
    + intros k Hk. rewrite K by lia. now apply m_at_app_l.
    + intros k Hk. destruct (Nat.eq_dec k (length m)) as [->|]; [|apply R; lia].
      rewrite (K (length m)), Ex by lia. unfold x. apply recur_ext; [lia|]. intros i Hi. rewrite K by lia. now rewrite m_at_app_l.
Qed.
End Column.

Lemma fold_append {A B} (f : A -> outcome B) (g : A -> B) l : (forall a, In a l -> f a = Ok (g a)) -> forall acc,
  foldM (fun a m => let* v := f a in Ok (m ++ [v])) l acc = Ok (acc ++ map g l).
Proof.
  induction l as [|a l IH]; intros H acc; cbn [foldM map]; [now rewrite app_nil_r|]. rewrite H by now left. cbn [bind].
  rewrite IH by (intros; apply H; now right). now rewrite <- app_assoc.
Qed.

Lemma fold_bind {A B C} (f : A -> outcome B) (h : B -> outcome C) l : forall acc,
  foldM (fun a m => let* x := f a in let* v := h x in Ok (m ++ [v])) l acc = foldM (fun a m => let* v := (let* x := f a in h x) in Ok (m ++ [v])) l acc.
Proof.
  induction l as [|a l IH]; intros acc; cbn [foldM]; [reflexivity|].
  destruct (f a) as [x| | |]; cbn [bind]; try reflexivity. destruct (h x) as [v| | |]; cbn [bind]; try reflexivity. apply IH.
Qed.

(** the columns of the table *)
Lemma init_dim_general i' : let p := nth i' sobol_a 0 in let d := N.to_nat (N.log2 p) in
  (i' < length sobol_a)%nat -> N.of_nat (length sobol_a) < 2 ^ 31 -> (1 <= d <= 31)%nat ->
  (d <= length sobol_minit)%nat -> (forall j, (j < d)%nat -> (i' < length (nth j sobol_minit []))%nat) ->
  (forall j, (j < d)%nat -> let v := nth i' (nth j sobol_minit []) 0 in N.odd v = true /\ v < 2 ^ N.of_nat (j + 1)) ->
  exists m, init_dim (N.of_nat (S i')) = Ok m /\ good m /\ is_directions (S i') m.
Proof.
  intros p d Hi Hlen Hd Hrows Hrow Hv. unfold init_dim.
  assert (N.of_nat (S i') < 2 ^ 32) as Hi32 by (change (2 ^ 32) with (2 * 2 ^ 31); lia).
  rewrite !sub32_le by lia. replace (N.of_nat (S i') - 1) with (N.of_nat i') by lia.
  rewrite (getN_nth sobol_a i' 0) by auto. cbn [bind]. fold p.
  assert (p <> 0) as Hp by (intros E; unfold d in Hd; rewrite E in Hd; simpl in Hd; lia).
  assert (sub32 (N.size p) 1 = N.of_nat d) as ->.
  { rewrite N.size_log2 by auto. rewrite sub32_le; [unfold d; lia|lia|]. apply N.lt_trans with 33; [unfold d in Hd; lia|reflexivity]. }
  rewrite Nat2N.id. set (g := fun j => nth i' (nth (N.to_nat j) sobol_minit []) 0).
  set (m0 := map g (map N.of_nat (seq 0 d))).
  assert (foldM (fun j m => let* row := getN sobol_minit j in let* v := getN row (N.of_nat i') in Ok (m ++ [v])) (map N.of_nat (seq 0 d)) [] = Ok m0) as ->.
  { transitivity (foldM (fun j m => let* v := (let* row := getN sobol_minit j in getN row (N.of_nat i')) in Ok (m ++ [v])) (map N.of_nat (seq 0 d)) []).
    - apply fold_bind.
    - rewrite (fold_append _ g); [reflexivity|]. intros a Ha. apply in_map_iff in Ha as (j & <- & Hj). apply in_seq in Hj.
      rewrite (getN_nth sobol_minit j []) by lia. cbn [bind]. rewrite (getN_nth _ i' 0) by (apply Hrow; lia). unfold g. now rewrite Nat2N.id. }
  cbn [bind]. assert (length m0 = d) as Lm by (unfold m0; rewrite !map_length, seq_length; reflexivity).
  assert (forall j, (j < d)%nat -> m_at m0 j = nth i' (nth j sobol_minit []) 0) as Em.
  { intros j Hj. unfold m_at, m0. rewrite map_map. rewrite (nth_indep _ 0 (g (N.of_nat 0))) by (rewrite map_length, seq_length; lia).
    rewrite (map_nth (fun x => g (N.of_nat x))), seq_nth by lia. unfold g. now rewrite Nat2N.id. }
  destruct (column_ok p d Hd (32 - d) m0) as (m' & E & L & G & K & R); try lia.
  { intros j Hj. rewrite Lm in Hj. rewrite Em by auto. now apply Hv. }
  rewrite Lm in *. exists m'. split; [exact E|]. split; [exact G|]. split; [lia|]. cbv zeta. fold p d. split.
  - intros j Hj. rewrite K by lia. now apply Em.
  - intros j Hj. rewrite (R j) at 1 by lia. reflexivity.
Qed.
