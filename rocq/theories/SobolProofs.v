(** The generator follows the Gray-code description of SobolSpec.v; structure of the points. *)
From Verif Require Import Base SpecFacts IndexProofs SobolTable Sobol SobolSpec SobolTableProofs.
Open Scope N_scope.
#[local] Arguments N.lxor : simpl never.
#[local] Arguments N.testbit : simpl never.
#[local] Arguments N.shiftl : simpl never.
#[local] Arguments N.pow : simpl never.
#[local] Arguments N.add : simpl never.
#[local] Arguments N.mul : simpl never.
#[local] Arguments N.sub : simpl never.

(** * bits *)
Lemma lt_pow2_bits a k : a < 2 ^ k <-> forall j, k <= j -> N.testbit a j = false.
Proof.
  split.
  - intros H j Hj. destruct (N.eq_dec a 0) as [->|Hn]; [apply N.bits_0|].
    apply N.bits_above_log2. apply N.log2_lt_pow2 in H; lia.
  - intros H. destruct (N.eq_dec a 0) as [->|Hn]; [apply N.neq_0_lt_0, N.pow_nonzero; lia|].
    apply N.log2_lt_pow2; [lia|]. destruct (N.lt_ge_cases (N.log2 a) k) as [|Hge]; auto.
    specialize (H _ Hge). now rewrite N.bit_log2 in H.
Qed.

Lemma lxor_lt a b k : a < 2 ^ k -> b < 2 ^ k -> N.lxor a b < 2 ^ k.
Proof.
  rewrite !lt_pow2_bits. intros Ha Hb j Hj. now rewrite N.lxor_spec, Ha, Hb.
Qed.

Lemma shiftl_lt a n k : a < 2 ^ k -> N.shiftl a n < 2 ^ (k + n).
Proof.
  intros H. rewrite N.shiftl_mul_pow2, N.pow_add_r. apply N.mul_lt_mono_pos_r; auto.
  apply N.neq_0_lt_0, N.pow_nonzero. lia.
Qed.

Lemma pow2_le a b : a <= b -> 2 ^ a <= 2 ^ b.
Proof. intros. apply N.pow_le_mono_r; [discriminate|assumption]. Qed.

Lemma testbit_xor_list l k : N.testbit (xor_list l) k = fold_right (fun x b => xorb (N.testbit x k) b) false l.
Proof. induction l as [|x l IH]; simpl; [apply N.bits_0|]. now rewrite N.lxor_spec, IH. Qed.

Lemma xor_list_app l l' : xor_list (l ++ l') = N.lxor (xor_list l) (xor_list l').
Proof. induction l; simpl; [now rewrite N.lxor_0_l|]. now rewrite IHl, N.lxor_assoc. Qed.

Lemma xor_list_zero l : (forall x, In x l -> x = 0) -> xor_list l = 0.
Proof.
  induction l as [|x l IH]; simpl; auto. intros H. rewrite (H x), IH; auto.
Qed.

(** * linearity *)
Definition lin (m : list N) (g : N) : N :=
  xor_list (map (fun c => if N.testbit g (N.of_nat c) then N.shiftl (m_at m c) (N.of_nat (31 - c)) else 0) (seq 0 32)).

Lemma coord_lin m n : coord m n = lin m (gray n). Proof. reflexivity. Qed.

Lemma lin_lxor m a b : lin m (N.lxor a b) = N.lxor (lin m a) (lin m b).
Proof.
  unfold lin. generalize (seq 0 32). induction l as [|c l IH]; cbn [map xor_list]; auto.
  rewrite IH, N.lxor_spec. generalize (N.shiftl (m_at m c) (N.of_nat (31 - c))). intros v.
  set (X := xor_list _). set (Y := xor_list _).
  apply N.bits_inj. intros k. destruct (N.testbit a (N.of_nat c)), (N.testbit b (N.of_nat c)); cbn [xorb];
    rewrite ?N.lxor_spec, ?N.bits_0; destruct (N.testbit v k), (N.testbit X k), (N.testbit Y k); reflexivity.
Qed.

Lemma gray_lxor a b : gray (N.lxor a b) = N.lxor (gray a) (gray b).
Proof.
  unfold gray. rewrite N.shiftr_lxor. apply N.bits_inj. intros k. rewrite !N.lxor_spec.
  destruct (N.testbit a k), (N.testbit b k), (N.testbit (N.shiftr a 1) k), (N.testbit (N.shiftr b 1) k); reflexivity.
Qed.

Lemma coord_lxor m a b : coord m (N.lxor a b) = N.lxor (coord m a) (coord m b).
Proof. now rewrite !coord_lin, gray_lxor, lin_lxor. Qed.

Lemma coord_0 m : coord m 0 = 0.
Proof.
  unfold coord. apply xor_list_zero. intros x. rewrite in_map_iff. intros (c & <- & _).
  change (gray 0) with 0. now rewrite N.bits_0.
Qed.

Lemma lin_pow2 m c : (c < 32)%nat -> lin m (2 ^ N.of_nat c) = N.shiftl (m_at m c) (N.of_nat (31 - c)).
Proof.
  intros Hc. unfold lin. replace 32%nat with (c + (1 + (31 - c)))%nat at 1 by lia.
  rewrite seq_app, map_app, xor_list_app, seq_app, map_app, xor_list_app. cbn [seq map xor_list].
  rewrite !xor_list_zero, N.lxor_0_l, !N.lxor_0_r.
  - rewrite N.pow2_bits_true. f_equal; f_equal; lia.
  - intros x. rewrite in_map_iff. intros (c' & <- & Hin). apply in_seq in Hin. rewrite N.pow2_bits_false; auto. lia.
  - intros x. rewrite in_map_iff. intros (c' & <- & Hin). apply in_seq in Hin. rewrite N.pow2_bits_false; auto. lia.
Qed.

Lemma gray_top d : d <> 0 -> N.testbit (gray d) (N.log2 d) = true /\ forall j, N.log2 d < j -> N.testbit (gray d) j = false.
Proof.
  intros Hd. unfold gray. split.
  - rewrite N.lxor_spec, N.bit_log2, N.shiftr_spec by lia. rewrite N.bits_above_log2 by lia. reflexivity.
  - intros j Hj. rewrite N.lxor_spec, N.shiftr_spec, !N.bits_above_log2 by lia. reflexivity.
Qed.

Lemma coord_lt m n : valid_directions m -> coord m n < 2 ^ 32.
Proof.
  intros [Hl Hv]. apply lt_pow2_bits. intros j Hj. unfold coord. rewrite testbit_xor_list.
  assert (forall c, In c (seq 0 32) -> (c < 32)%nat) as Hs by (intros c; rewrite in_seq; lia).
  revert Hs. generalize (seq 0 32). induction l as [|c l IH]; intros Hs; cbn [map fold_right]; auto.
  rewrite IH by (intros; apply Hs; now right). destruct (Hv c (Hs c (or_introl eq_refl))) as [_ Hb].
  assert (N.testbit (if N.testbit (gray n) (N.of_nat c) then N.shiftl (m_at m c) (N.of_nat (31 - c)) else 0) j = false) as ->; auto.
  destruct (N.testbit (gray n) (N.of_nat c)); [|apply N.bits_0].
  apply (proj1 (lt_pow2_bits _ 32)); auto.
  eapply N.lt_le_trans; [apply shiftl_lt, Hb|]. apply pow2_le. specialize (Hs c (or_introl eq_refl)). lia.
Qed.

(** the leading bit of n shows up in the coordinate *)
Lemma coord_key m d : valid_directions m -> d <> 0 -> d < 2 ^ 32 -> N.testbit (coord m d) (31 - N.log2 d) = true.
Proof.
  intros [Hl Hv] Hd Hlt. assert (N.log2 d < 32) as Hlog by (apply N.log2_lt_pow2; lia).
  destruct (gray_top d Hd) as [Ht Ha]. set (e := N.log2 d) in *. set (c := N.to_nat e).
  assert (c < 32)%nat as Hc by lia. assert (N.of_nat c = e) as Hce by lia.
  unfold coord. replace 32%nat with (c + (1 + (31 - c)))%nat at 1 by lia.
  rewrite seq_app, map_app, xor_list_app, N.lxor_spec, seq_app, map_app, xor_list_app, N.lxor_spec. cbn [seq map xor_list].
  change (0 + c)%nat with c.
  rewrite Hce, Ht, N.lxor_0_r. rewrite (xor_list_zero (map _ (seq (c + 1) _))), N.bits_0, xorb_false_r.
  - rewrite (testbit_xor_list (map _ (seq 0 c))).
    assert (fold_right (fun x b => xorb (N.testbit x (31 - e)) b) false
      (map (fun c0 : nat => if N.testbit (gray d) (N.of_nat c0) then N.shiftl (m_at m c0) (N.of_nat (31 - c0)) else 0) (seq 0 c)) = false) as ->.
    { assert (forall c', In c' (seq 0 c) -> (c' < c)%nat) as Hs by (intros c'; rewrite in_seq; lia).
      revert Hs. generalize (seq 0 c). induction l as [|c' l IH]; intros Hs; cbn [map fold_right]; auto.
      rewrite IH by (intros; apply Hs; now right). specialize (Hs c' (or_introl eq_refl)).
      destruct (N.testbit (gray d) (N.of_nat c')); [|now rewrite N.bits_0].
      rewrite N.shiftl_spec_low by lia. reflexivity. }
    rewrite xorb_false_l, N.shiftl_spec_high' by lia. replace (31 - e - N.of_nat (31 - c)) with 0 by lia.
    rewrite N.bit0_odd. now apply Hv.
  - intros x. rewrite in_map_iff. intros (c' & <- & Hin). apply in_seq in Hin. rewrite Ha; auto. lia.
Qed.

Lemma lxor_lt_pow2 n n' k : n < 2 ^ k -> n' < 2 ^ k -> N.lxor n n' < 2 ^ k. Proof. apply lxor_lt. Qed.

Lemma coord_nonzero m n : valid_directions m -> 0 < n -> n < 2 ^ 32 -> coord m n <> 0.
Proof. intros Hv H0 H1 E. pose proof (coord_key m n Hv ltac:(lia) H1) as K. rewrite E, N.bits_0 in K. discriminate. Qed.

Lemma coord_inj m n n' : valid_directions m -> n < 2 ^ 32 -> n' < 2 ^ 32 -> coord m n = coord m n' -> n = n'.
Proof.
  intros Hv H H' E. destruct (N.eq_dec (N.lxor n n') 0) as [Z|Z]; [now apply N.lxor_eq|].
  pose proof (coord_key m _ Hv Z (lxor_lt _ _ _ H H')) as K.
  rewrite coord_lxor, E, N.lxor_nilpotent, N.bits_0 in K. discriminate.
Qed.

(** top k bits distinguish the points of an aligned block *)
Lemma coord_block_inj m k n n' : valid_directions m -> k <= 32 -> n < 2 ^ 32 -> n' < 2 ^ 32 ->
  N.shiftr n k = N.shiftr n' k ->
  N.shiftr (coord m n) (32 - k) = N.shiftr (coord m n') (32 - k) -> n = n'.
Proof.
  intros Hv Hk H H' Hb E. destruct (N.eq_dec (N.lxor n n') 0) as [Z|Z]; [now apply N.lxor_eq|].
  assert (N.lxor n n' < 2 ^ k) as Hlt.
  { apply lt_pow2_bits. intros j Hj. replace j with ((j - k) + k) by lia.
    rewrite <- N.shiftr_spec by lia. rewrite N.shiftr_lxor, Hb, N.lxor_nilpotent. apply N.bits_0. }
  pose proof (coord_key m _ Hv Z (lxor_lt _ _ _ H H')) as K.
  set (e := N.log2 (N.lxor n n')) in *. assert (e < k) as He by (apply N.log2_lt_pow2; lia).
  replace (31 - e) with ((k - 1 - e) + (32 - k)) in K by lia.
  rewrite <- N.shiftr_spec, coord_lxor, N.shiftr_lxor, E, N.lxor_nilpotent, N.bits_0 in K by lia. discriminate.
Qed.

Definition nrange (n : N) : list N := map N.of_nat (seq 0 (N.to_nat n)).
Lemma in_nrange n x : In x (nrange n) <-> x < n.
Proof.
  unfold nrange. rewrite in_map_iff. split.
  - intros (y & <- & Hy). apply in_seq in Hy. lia.
  - intros Hx. exists (N.to_nat x). rewrite in_seq. lia.
Qed.
Lemma NoDup_nrange n : NoDup (nrange n).
Proof. apply FinFun.Injective_map_NoDup; [intros a b; lia|apply seq_NoDup]. Qed.
Lemma length_nrange n : length (nrange n) = N.to_nat n.
Proof. unfold nrange. now rewrite map_length, seq_length. Qed.

Lemma NoDup_map_inj {A B} (f : A -> B) l : NoDup l -> (forall a b, In a l -> In b l -> f a = f b -> a = b) -> NoDup (map f l).
Proof.
  induction 1 as [|a l Ha Hl IH]; intros Hi; simpl; constructor.
  - rewrite in_map_iff. intros (b & E & Hb). apply Ha. rewrite (Hi a b); auto; [now left|now right].
  - apply IH. intros x y Hx Hy. apply Hi; now right.
Qed.

Lemma coord_block m k t v : valid_directions m -> k <= 32 -> (t + 1) * 2 ^ k <= 2 ^ 32 -> v < 2 ^ k ->
  exists! r, r < 2 ^ k /\ N.shiftr (coord m (t * 2 ^ k + r)) (32 - k) = v.
Proof.
  intros Hv Hk Ht Hvk.
  assert (forall r, r < 2 ^ k -> N.shiftr (t * 2 ^ k + r) k = t) as Hblk.
  { intros r Hr. rewrite N.shiftr_div_pow2, N.div_add_l by (apply N.pow_nonzero; lia). rewrite N.div_small; lia. }
  set (f := fun r => N.shiftr (coord m (t * 2 ^ k + r)) (32 - k)).
  assert (forall a b, In a (nrange (2 ^ k)) -> In b (nrange (2 ^ k)) -> f a = f b -> a = b) as Hinj.
  { intros a b. rewrite !in_nrange. intros Ha Hb E.
    assert (t * 2 ^ k + a = t * 2 ^ k + b); [|lia].
    eapply (coord_block_inj m k); eauto; try lia. now rewrite !Hblk. }
  assert (incl (nrange (2 ^ k)) (map f (nrange (2 ^ k)))) as Hincl.
  { apply NoDup_length_incl.
    - apply NoDup_map_inj; auto. apply NoDup_nrange.
    - rewrite map_length. lia.
    - intros x. rewrite in_map_iff, in_nrange. intros (r & <- & Hr). unfold f.
      rewrite N.shiftr_div_pow2. apply N.div_lt_upper_bound; [apply N.pow_nonzero; lia|].
      rewrite <- N.pow_add_r. replace (32 - k + k) with 32 by lia. now apply coord_lt. }
  specialize (Hincl v). rewrite in_nrange, in_map_iff in Hincl. destruct (Hincl Hvk) as (r & Hr & Hrin).
  exists r. split; [split; auto; now apply in_nrange|]. intros r' [Hr' E]. apply Hinj; auto; [now apply in_nrange|].
  rewrite Hr. symmetry. exact E.
Qed.

(** * rightmost zero *)
Lemma ctz_spec p : exists q, N.pos p = 2 ^ ctz_pos p * (2 * q + 1).
Proof.
  induction p as [p _|p [q IH]|]; cbn [ctz_pos].
  - exists (N.pos p). lia.
  - exists q. rewrite N.pow_succ_r', <- N.mul_assoc, <- IH. reflexivity.
  - exists 0. reflexivity.
Qed.

Lemma not32_sub n : n < 2 ^ 32 -> not32 n = 2 ^ 32 - 1 - n.
Proof.
  intros H. unfold not32. change (2 ^ 32 - 1) with (N.ones 32). change (N.lxor n (N.ones 32)) with (N.lnot n 32).
  destruct (N.eq_dec n 0) as [->|Hn]; [reflexivity|]. apply N.lnot_sub_low. apply N.log2_lt_pow2; lia.
Qed.

Lemma add_lxor a k r : r < 2 ^ k -> a * 2 ^ k + r = N.lxor (N.shiftl a k) r.
Proof.
  intros Hr. rewrite <- N.shiftl_mul_pow2. apply N.add_nocarry_lxor. apply N.bits_inj. intros j.
  rewrite N.land_spec, N.bits_0. destruct (N.lt_ge_cases j k).
  - now rewrite N.shiftl_spec_low.
  - rewrite andb_comm. rewrite (proj1 (lt_pow2_bits r k)); auto.
Qed.

Lemma lxor_pred_pow2 c : N.lxor (2 ^ c - 1) (2 ^ c) = 2 ^ (c + 1) - 1.
Proof.
  rewrite N.lxor_comm. pose proof (N.pow_nonzero 2 c ltac:(lia)).
  pose proof (add_lxor 1 c (2 ^ c - 1) ltac:(lia)) as E. rewrite N.shiftl_1_l in E. rewrite <- E.
  rewrite N.pow_add_r. change (2 ^ 1) with 2. lia.
Qed.

Lemma gray_ones c : gray (2 ^ (c + 1) - 1) = 2 ^ c.
Proof.
  unfold gray. assert (N.shiftr (2 ^ (c + 1) - 1) 1 = 2 ^ c - 1) as ->.
  { rewrite N.shiftr_div_pow2, N.pow_add_r. change (2 ^ 1) with 2. pose proof (N.pow_nonzero 2 c ltac:(lia)).
    symmetry. apply N.div_unique with (r := 1); lia. }
  rewrite <- lxor_pred_pow2, N.lxor_comm, <- N.lxor_assoc, N.lxor_nilpotent, N.lxor_0_l. reflexivity.
Qed.

Lemma rightzero32_ok n : n < 2 ^ 32 - 1 ->
  exists c, rightzero32 n = Ok c /\ c < 32 /\ N.lxor n (n + 1) = 2 ^ (c + 1) - 1.
Proof.
  intros Hn. unfold rightzero32. rewrite not32_sub by lia.
  destruct (2 ^ 32 - 1 - n) as [|p] eqn:E; [lia|]. exists (ctz_pos p). split; auto.
  destruct (ctz_spec p) as [q Hq]. set (c := ctz_pos p) in *. rewrite Hq in E. clearbody c. clear Hq p.
  assert (c < 32) as Hc.
  { destruct (N.lt_ge_cases c 32) as [|Hge]; auto. pose proof (pow2_le 32 c Hge).
    assert (2 ^ c * 1 <= 2 ^ c * (2 * q + 1)) by (apply N.mul_le_mono_l; lia). lia. }
  split; auto. pose proof (N.pow_nonzero 2 c ltac:(lia)) as Hz.
  assert (2 ^ 32 = 2 ^ c * (2 * 2 ^ (31 - c))) as E32.
  { change 2 with (2 ^ 1) at 3. rewrite <- !N.pow_add_r. f_equal. lia. }
  assert (q < 2 ^ (31 - c)) as Hq by nia.
  set (q' := 2 ^ (31 - c) - q - 1).
  assert (n = q' * 2 ^ (c + 1) + (2 ^ c - 1)) as En.
  { rewrite N.pow_add_r. change (2 ^ 1) with 2. unfold q'. nia. }
  assert (n + 1 = q' * 2 ^ (c + 1) + 2 ^ c) as En1 by lia.
  assert (2 ^ c < 2 ^ (c + 1)) as Hlt by (apply N.pow_lt_mono_r; lia).
  rewrite En1, En at 1. rewrite !add_lxor by lia.
  rewrite (N.lxor_comm _ (2 ^ c - 1)), N.lxor_assoc, <- (N.lxor_assoc (N.shiftl q' (c + 1))), N.lxor_nilpotent, N.lxor_0_l.
  apply lxor_pred_pow2.
Qed.

Lemma coord_succ m n c : (c < 32) -> N.lxor n (n + 1) = 2 ^ (c + 1) - 1 ->
  coord m (n + 1) = N.lxor (coord m n) (N.shiftl (m_at m (N.to_nat c)) (31 - c)).
Proof.
  intros Hc E. replace (n + 1) with (N.lxor n (2 ^ (c + 1) - 1)).
  - rewrite coord_lxor. f_equal. rewrite coord_lin, gray_ones.
    replace c with (N.of_nat (N.to_nat c)) at 1 by lia. rewrite lin_pow2 by lia. f_equal. lia.
  - rewrite <- E, <- N.lxor_assoc, N.lxor_nilpotent. apply N.lxor_0_l.
Qed.

(** * one step *)
Definition dim_inv (n : N) (m : list N) (x b : N) : Prop :=
  b <= 31 /\ x < 2 ^ (b + 1) /\ N.shiftl x (31 - b) = coord m n.

Lemma w32_small x : x < 2 ^ 32 -> w32 x = x. Proof. apply N.mod_small. Qed.
Lemma sub32_ok a b : b <= a -> a < 2 ^ 32 -> sub32 a b = a - b.
Proof.
  intros. unfold sub32, w32. replace (a + 2 ^ 32 - b) with (a - b + 1 * 2 ^ 32) by lia.
  rewrite N.mod_add by lia. apply N.mod_small. lia.
Qed.
Lemma shl32_ok a n k : a < 2 ^ k -> k + n <= 32 -> n < 32 -> shl32 a n = Ok (N.shiftl a n).
Proof.
  intros Ha Hk Hn. unfold shl32. rewrite (proj2 (N.ltb_lt n 32)) by auto. f_equal. apply w32_small.
  eapply N.lt_le_trans; [apply shiftl_lt; eauto|]. now apply pow2_le.
Qed.
Lemma getN_ok {A} (l : list A) i d : (N.to_nat i < length l)%nat -> getN l i = Ok (nth (N.to_nat i) l d).
Proof. intros H. unfold getN. rewrite (vec_get_ok l (Z.of_N i) d) by lia. f_equal. f_equal. lia. Qed.

Lemma gen_dim_ok n c m x b : valid_directions m -> c < 32 -> N.lxor n (n + 1) = 2 ^ (c + 1) - 1 ->
  dim_inv n m x b -> exists x' b', gen_dim c m x b = Ok (x', b', coord m (n + 1)) /\ dim_inv (n + 1) m x' b'.
Proof.
  intros [Hl Hv] Hc En (Hb & Hx & Ex). unfold gen_dim. rewrite (getN_ok m c 0) by lia. cbn [bind].
  change (nth (N.to_nat c) m 0) with (m_at m (N.to_nat c)).
  destruct (Hv (N.to_nat c) ltac:(lia)) as [_ Hm]. replace (N.of_nat (N.to_nat c + 1)) with (c + 1) in Hm by lia.
  rewrite (coord_succ m n c Hc En). set (mc := m_at m (N.to_nat c)) in *.
  destruct (N.leb_spec c b).
  - rewrite sub32_ok by lia. rewrite (shl32_ok mc (b - c) (c + 1)) by (auto; lia). cbn [bind].
    assert (N.shiftl mc (b - c) < 2 ^ (b + 1)) as Hs by (replace (b + 1) with (c + 1 + (b - c)) by lia; now apply shiftl_lt).
    assert (N.lxor x (N.shiftl mc (b - c)) < 2 ^ (b + 1)) as Hx' by now apply lxor_lt.
    rewrite sub32_ok by lia. rewrite (shl32_ok _ (31 - b) (b + 1)) by (auto; lia). cbn [bind].
    assert (N.shiftl (N.lxor x (N.shiftl mc (b - c))) (31 - b) = N.lxor (coord m n) (N.shiftl mc (31 - c))) as E.
    { rewrite N.shiftl_lxor, Ex, N.shiftl_shiftl. f_equal. f_equal. lia. }
    exists (N.lxor x (N.shiftl mc (b - c))), b. rewrite E. repeat split; auto. rewrite E. symmetry. now apply coord_succ.
  - rewrite sub32_ok by lia. rewrite (shl32_ok x (c - b) (b + 1)) by (auto; lia). cbn [bind].
    assert (N.shiftl x (c - b) < 2 ^ (c + 1)) as Hs by (replace (c + 1) with (b + 1 + (c - b)) by lia; now apply shiftl_lt).
    assert (N.lxor (N.shiftl x (c - b)) mc < 2 ^ (c + 1)) as Hx' by now apply lxor_lt.
    rewrite sub32_ok by lia. rewrite (shl32_ok _ (31 - c) (c + 1)) by (auto; lia). cbn [bind].
    assert (N.shiftl (N.lxor (N.shiftl x (c - b)) mc) (31 - c) = N.lxor (coord m n) (N.shiftl mc (31 - c))) as E.
    { rewrite N.shiftl_lxor, N.shiftl_shiftl. f_equal. rewrite <- Ex. f_equal. lia. }
    exists (N.lxor (N.shiftl x (c - b)) mc), c. rewrite E. repeat split; auto; try lia. rewrite E. symmetry. now apply coord_succ.
Qed.

Fixpoint dims_inv (n : N) (ms : list (list N)) (xs bs : list N) : Prop :=
  match ms, xs, bs with
  | [], [], [] => True
  | m :: ms', x :: xs', b :: bs' => dim_inv n m x b /\ dims_inv n ms' xs' bs'
  | _, _, _ => False
  end.

Lemma gen_dims_ok n c ms xs bs : Forall valid_directions ms -> c < 32 -> N.lxor n (n + 1) = 2 ^ (c + 1) - 1 ->
  dims_inv n ms xs bs ->
  exists xs' bs', gen_dims c ms xs bs = Ok (xs', bs', map (fun m => coord m (n + 1)) ms) /\ dims_inv (n + 1) ms xs' bs'.
Proof.
  intros Hv Hc En. revert xs bs. induction Hv as [|m ms Hm Hv IH]; intros [|x xs] [|b bs]; simpl; try easy.
  - intros _. exists [], []. auto.
  - intros [Hi His]. destruct (gen_dim_ok n c m x b Hm Hc En Hi) as (x' & b' & E & Hi').
    destruct (IH xs bs His) as (xs' & bs' & E' & His'). rewrite E. cbn [bind]. rewrite E'. cbn [bind].
    exists (x' :: xs'), (b' :: bs'). split; [reflexivity|split; auto].
Qed.

(** the generator stands after point n *)
Definition at_ (cols : list (list N)) (n : N) (sd : sobol_data) : Prop :=
  sd_m sd = cols /\ sd_n sd = n /\ n <= limit /\ dims_inv n cols (sd_x sd) (sd_b sd) /\
  sd_sdim sd = N.of_nat (length cols).

Lemma sobol_gen_ok cols n sd out : Forall valid_directions cols -> at_ cols n sd -> n < limit ->
  exists sd', sobol_gen sd out = Ok (sd', point_of cols (n + 1), true) /\ at_ cols (n + 1) sd'.
Proof.
  unfold limit. intros Hv (Em & En & Hn & Hi & Hd) Hlt. unfold sobol_gen. rewrite En.
  destruct (N.eqb_spec n (2 ^ 32 - 1)); [lia|].
  destruct (rightzero32_ok n Hlt) as (c & Ec & Hc & Ex). rewrite Ec. cbn [bind]. rewrite Em.
  destruct (gen_dims_ok n c cols _ _ Hv Hc Ex Hi) as (xs' & bs' & Eg & Hi'). rewrite Eg. cbn [bind].
  eexists. split; [reflexivity|]. rewrite w32_small by lia. unfold at_, limit. cbn [sd_m sd_n sd_x sd_b sd_sdim].
  repeat split; auto. lia.
Qed.

Lemma sobol_gen_end cols sd out : at_ cols limit sd -> sobol_gen sd out = Ok (sd, out, false).
Proof. intros (_ & En & _). unfold sobol_gen. rewrite En. reflexivity. Qed.

Lemma init_m_ok dim : 1 <= dim <= 1111 ->
  exists cols, init_m dim = Ok cols /\ is_table (N.to_nat dim) cols /\ Forall valid_directions cols.
Proof.
  intros Hd. unfold init_m.
  assert (forall k n, (0 < k)%nat -> (k + n <= 1111)%nat -> exists cols, mapM init_dim (map N.of_nat (seq k n)) = Ok cols /\
    length cols = n /\ (forall i, (i < n)%nat -> is_directions (k + i) (nth i cols [])) /\ Forall valid_directions cols) as H.
  { intros k n. revert k. induction n as [|n IH]; intros k Hk Hkn.
    - exists []. simpl. split; auto. split; auto. split; auto. intros; lia.
    - destruct (init_dim_ok k ltac:(lia)) as (m & Em & Hm & Dm).
      destruct (IH (S k) ltac:(lia) ltac:(lia)) as (cols & Ec & Lc & Dc & Vc).
      exists (m :: cols). cbn [seq map mapM]. rewrite Em. cbn [bind]. rewrite Ec. cbn [bind]. split; [reflexivity|]. split; [|split].
      + simpl. congruence.
      + intros [|i] Hi; simpl; [now rewrite Nat.add_0_r|]. replace (k + S i)%nat with (S k + i)%nat by lia. apply Dc. lia.
      + constructor; auto. }
  destruct (H 1%nat (N.to_nat dim - 1)%nat ltac:(lia) ltac:(lia)) as (cols & Ec & Lc & Dc & Vc).
  rewrite Ec. cbn [bind]. destruct ones_ok as [V0 D0]. eexists. split; [reflexivity|]. split.
  - split; [cbn [length]; lia|]. intros [|i] Hi; [exact D0|]. apply Dc. lia.
  - constructor; auto.
Qed.

Lemma dims_inv_0 cols : dims_inv 0 cols (repeat 0 (length cols)) (repeat 0 (length cols)).
Proof.
  induction cols as [|m cols IH]; simpl; auto. split; auto. unfold dim_inv.
  rewrite N.shiftl_0_l, coord_0. repeat split; try lia; try reflexivity.
Qed.

Lemma sobol_create_ok dim : 1 <= dim <= 1111 ->
  exists cols sd, sobol_create dim = Ok (Some sd) /\ is_table (N.to_nat dim) cols /\ Forall valid_directions cols /\
    init_m dim = Ok cols /\ at_ cols 0 sd.
Proof.
  intros Hd. destruct (init_m_ok dim Hd) as (cols & Ec & Ht & Hv). exists cols. unfold sobol_create.
  destruct (N.eqb_spec dim 0); [lia|]. destruct (N.ltb_spec 1111 dim); [lia|]. cbn [orb]. rewrite Ec. cbn [bind].
  eexists. split; [reflexivity|]. split; auto. split; auto. split; auto. unfold at_. cbn [sd_m sd_n sd_x sd_b sd_sdim].
  split; auto. split; auto. split; [|split].
  - unfold limit. lia.
  - cbn. destruct Ht as [Hl _]. rewrite <- Hl. apply dims_inv_0.
  - cbn. destruct Ht as [Hl _]. lia.
Qed.

(** * skips *)
Lemma iter_succ {A} (f : A -> A) k x : N.iter (N.succ k) f x = f (N.iter k f x).
Proof. apply N.iter_succ. Qed.

Definition gen_ignore (o : outcome (sobol_data * list N)) : outcome (sobol_data * list N) :=
  let* '(sd, out) := o in let* '(sd', out', _) := sobol_gen sd out in Ok (sd', out').

Lemma gens_ok cols n sd out k : Forall valid_directions cols -> at_ cols n sd ->
  let n' := N.min (n + k) limit in
  exists sd', N.iter k gen_ignore (Ok (sd, out)) = Ok (sd', if n <? n' then point_of cols n' else out) /\ at_ cols n' sd'.
Proof.
  intros Hv Ha. pose proof Ha as (_ & _ & Hn & _). induction k as [|k IH] using N.peano_ind; cbv zeta in *.
  - exists sd. simpl. rewrite N.add_0_r, N.min_l by auto. rewrite N.ltb_irrefl. auto.
  - destruct IH as (sd1 & E1 & H1). rewrite iter_succ, E1. unfold gen_ignore at 1. cbn [bind].
    destruct (N.lt_ge_cases (n + k) limit).
    + rewrite N.min_l in H1 by lia. destruct (sobol_gen_ok cols (n + k) sd1 (if n <? N.min (n + k) limit then point_of cols (N.min (n + k) limit) else out) Hv H1 H) as (sd2 & E2 & H2).
      rewrite E2. cbn [bind]. exists sd2. replace (N.min (n + N.succ k) limit) with (n + k + 1) by lia.
      rewrite (proj2 (N.ltb_lt n (n + k + 1))) by lia. auto.
    + rewrite N.min_r in H1 by lia. rewrite sobol_gen_end with (cols := cols) by auto. cbn [bind].
      exists sd1. replace (N.min (n + N.succ k) limit) with limit by lia.
      replace (N.min (n + k) limit) with limit by lia. auto.
Qed.

Lemma skip_count_ok fuel e n : n <= 2 ^ 31 -> 2 ^ e < N.max n 2 -> e <= 31 -> (N.to_nat (32 - e) <= fuel)%nat ->
  skip_count fuel (2 ^ e) n = Ok (skipped n).
Proof.
  intros Hn. revert e. induction fuel as [|f IH]; intros e Hlt He Hf; [lia|]. cbn [skip_count].
  assert (e < 31) as He'.
  { destruct (N.lt_ge_cases e 31); auto. pose proof (pow2_le 31 e H). change (2 ^ 31) with 2147483648 in *. lia. }
  assert (2 ^ e * 2 = 2 ^ (e + 1)) as E2 by (rewrite N.pow_add_r; reflexivity).
  assert (2 ^ (e + 1) < 2 ^ 32) by (apply N.pow_lt_mono_r; lia).
  rewrite E2, w32_small by auto. destruct (N.ltb_spec (2 ^ (e + 1)) n) as [Hc|Hc].
  - apply IH; lia.
  - f_equal. unfold skipped. destruct (N.leb_spec n 2).
    + assert (e = 0) as ->; [|reflexivity]. destruct (N.eq_dec e 0); auto.
      pose proof (pow2_le 1 e ltac:(lia)). change (2 ^ 1) with 2 in *. lia.
    + f_equal. symmetry. apply N.log2_unique; [lia|]. rewrite N.add_1_r in Hc. split; [lia|].
      rewrite N.pow_succ_r'. rewrite N.pow_succ_r' in Hc. lia.
Qed.

Lemma skip_count_div fuel n : 2 ^ 31 < n -> n < 2 ^ 32 -> skip_count fuel 1 n = Diverge.
Proof.
  intros Hn Hn'. assert (forall fuel, skip_count fuel 0 n = Diverge) as H0.
  { induction fuel0 as [|f IH]; cbn [skip_count]; auto. change (w32 (0 * 2)) with 0.
    rewrite (proj2 (N.ltb_lt 0 n)) by lia. apply IH. }
  assert (forall fuel e, e <= 31 -> skip_count fuel (2 ^ e) n = Diverge) as H1.
  { induction fuel0 as [|f IH]; intros e He; cbn [skip_count]; auto.
    destruct (N.eq_dec e 31) as [->|].
    - change (w32 (2 ^ 31 * 2)) with 0. rewrite (proj2 (N.ltb_lt 0 n)) by lia. apply H0.
    - assert (2 ^ e * 2 = 2 ^ (e + 1)) as E2 by (rewrite N.pow_add_r; reflexivity). rewrite E2.
      assert (2 ^ (e + 1) <= 2 ^ 31) by (apply pow2_le; lia).
      rewrite w32_small by lia. rewrite (proj2 (N.ltb_lt _ n)) by lia. apply IH. lia. }
  apply (H1 fuel 0). lia.
Qed.

(** * objects *)
Definition view_of (cols : list (list N)) (v : sview) (s : sobol) : Prop :=
  at_ cols (v_n v) (s_sd s) /\ s_dim s = N.of_nat (length cols) /\ s_buf s = point_of cols (v_held v) /\
  s_pos s = v_pos v /\ v_pos v <= N.of_nat (length cols).

Lemma do_skip_ok cols v s n fuel : Forall valid_directions cols -> view_of cols v s -> n <= 2 ^ 31 -> (32 <= fuel)%nat ->
  exists s', sobol_do_skip fuel s n = Ok s' /\ view_of cols (view_skip (skipped n) v) s'.
Proof.
  intros Hv (Ha & Hd & Hb & Hp & Hl) Hn Hf. unfold sobol_do_skip, sobol_skip.
  change 1 with (2 ^ 0). rewrite (skip_count_ok fuel 0 n) by (change (2 ^ 0) with 1; lia). cbn [bind].
  fold gen_ignore. destruct (gens_ok cols _ _ (s_buf s) (skipped n) Hv Ha) as (sd' & E & Ha'). rewrite E. cbn [bind].
  eexists. split; [reflexivity|]. unfold view_skip, view_of. cbn [s_sd s_dim s_buf s_pos v_n v_held v_pos].
  repeat split; auto; try apply Ha'. rewrite Hb. now destruct (N.ltb_spec (v_n v) (N.min (v_n v + skipped n) limit)).
Qed.

Lemma point_of_0 cols : point_of cols 0 = repeat 0 (length cols).
Proof. unfold point_of. induction cols; simpl; auto. now rewrite coord_0, IHcols. Qed.

Lemma sobol_new_ok dim nskip fuel : 1 <= dim <= 1111 -> nskip <= 2 ^ 31 -> (32 <= fuel)%nat ->
  exists cols s, sobol_new fuel dim nskip = Ok s /\ is_table (N.to_nat dim) cols /\ Forall valid_directions cols /\
    init_m dim = Ok cols /\
    view_of cols (let v := SV 0 0 dim in if 0 <? nskip then view_skip (skipped nskip) v else v) s.
Proof.
  intros Hd Hs Hf. destruct (sobol_create_ok dim Hd) as (cols & sd & E & Ht & Hv & Ei & Ha). exists cols.
  unfold sobol_new. destruct (N.ltb_spec dim 1); [lia|]. destruct (N.ltb_spec 1111 dim); [lia|]. cbn [orb].
  rewrite E. cbn [bind]. pose proof Ht as [Hl _].
  assert (view_of cols (SV 0 0 dim) (SB sd dim (repeat 0 (N.to_nat dim)) dim)) as Hview.
  { unfold view_of. cbn [s_sd s_dim s_buf s_pos v_n v_held v_pos]. rewrite point_of_0, Hl. repeat split; try apply Ha; lia. }
  cbv zeta. destruct (N.ltb_spec 0 nskip).
  - destruct (do_skip_ok cols _ _ nskip fuel Hv Hview Hs Hf) as (s' & Es & Hs'). exists s'. auto.
  - eexists. split; [reflexivity|]. auto.
Qed.

Lemma sobol_buf_ok cols v s : Forall valid_directions cols -> view_of cols v s -> v_n v < limit ->
  exists s', sobol_buf s = Ok (s', point_of cols (v_n v + 1)) /\ view_of cols (SV (v_n v + 1) (v_n v + 1) (v_pos v)) s'.
Proof.
  intros Hv (Ha & Hd & Hb & Hp & Hl) Hlt. unfold sobol_buf.
  destruct (sobol_gen_ok cols _ _ (s_buf s) Hv Ha Hlt) as (sd' & E & Ha'). rewrite E. cbn [bind].
  eexists. split; [reflexivity|]. unfold view_of. cbn [s_sd s_dim s_buf s_pos v_n v_held v_pos]. auto.
Qed.

Lemma sobol_buf_end cols v s : view_of cols v s -> v_n v = limit ->
  sobol_buf s = Throw (OutOfRange "Exceeded generation limit (2^32-1)").
Proof.
  intros (Ha & _) E. rewrite E in Ha. unfold sobol_buf. now rewrite (sobol_gen_end cols).
Qed.

(** an operation on the object.  The only exception is thrown by buf() before anything was modified (sobol_gen
    returns 0 first thing), so the object survives unchanged. *)
Definition model_step (fuel : nat) (op : sop) (s : sobol) : outcome (sobol * sres) :=
  let on_throw {A} (r : outcome A) (k : A -> outcome (sobol * sres)) :=
    match r with
    | Ok a => k a
    | Throw (OutOfRange _) => Ok (s, RExhausted)
    | Throw e => Throw e
    | UB w => UB w
    | Diverge => Diverge
    end in
  match op with
  | DrawPoint => on_throw (sobol_buf s) (fun '(s', b) => Ok (s', RPoint b))
  | DrawScalar => on_throw (sobol_call s) (fun '(s', v) => Ok (s', RScalar v))
  | Skip n => on_throw (sobol_do_skip fuel s n) (fun s' => Ok (s', RDone))
  | Reset n => on_throw (sobol_reset fuel s n) (fun s' => Ok (s', RDone))
  end.
Fixpoint model_run (fuel : nat) (ops : list sop) (s : sobol) : outcome (list sres) :=
  match ops with
  | [] => Ok []
  | op :: ops' => let* '(s', r) := model_step fuel op s in
                  let* rs := model_run fuel ops' s' in Ok (r :: rs)
  end.

Definition op_ok (op : sop) : Prop := match op with Skip n | Reset n => n <= 2 ^ 31 | _ => True end.

Lemma view_n_le cols v s : view_of cols v s -> v_n v <= limit.
Proof. now intros ((_ & _ & H & _) & _). Qed.

Lemma model_step_ok dim cols v s op fuel : 1 <= dim <= 1111 -> Forall valid_directions cols -> init_m dim = Ok cols ->
  length cols = N.to_nat dim -> view_of cols v s -> op_ok op -> (32 <= fuel)%nat ->
  exists s', model_step fuel op s = Ok (s', snd (view_step cols op v)) /\ view_of cols (fst (view_step cols op v)) s'.
Proof.
  intros Hdim Hv Hi Hlen Hs Hop Hf. pose proof (view_n_le _ _ _ Hs) as Hle.
  destruct op as [| |n|n]; cbn [model_step view_step op_ok] in *.
  - destruct (N.ltb_spec (v_n v) limit).
    + destruct (sobol_buf_ok cols v s Hv Hs H) as (s' & E & H'). rewrite E. exists s'. auto.
    + rewrite (sobol_buf_end cols v s) by (auto; lia). exists s. auto.
  - unfold sobol_call. pose proof Hs as (Ha & Hd & Hb & Hp & Hl). rewrite Hp, Hd.
    destruct (N.eqb_spec (v_pos v) (N.of_nat (length cols))) as [Ep|Np].
    + destruct (N.ltb_spec (v_n v) limit).
      * destruct (sobol_buf_ok cols v s Hv Hs H) as (s' & E & H'). rewrite E. cbn [bind].
        destruct H' as (Ha' & Hd' & Hb' & Hp' & Hl'). cbn [s_buf s_pos v_held] in *.
        rewrite Hb'. rewrite (getN_ok _ 0 0) by (unfold point_of; rewrite map_length; lia). cbn [bind].
        change (w32 (0 + 1)) with 1. eexists. split; [reflexivity|].
        unfold view_of. cbn [s_sd s_dim s_buf s_pos v_n v_held v_pos fst snd]. repeat split; try apply Ha'; auto; lia.
      * rewrite (sobol_buf_end cols v s) by (auto; lia). cbn [bind]. exists s. auto.
    + cbn [bind]. rewrite Hb, Hp, (getN_ok _ _ 0) by (unfold point_of; rewrite map_length; lia). cbn [bind].
      rewrite w32_small by lia. eexists. split; [reflexivity|].
      unfold view_of. cbn [s_sd s_dim s_buf s_pos v_n v_held v_pos fst snd]. repeat split; try apply Ha; auto; lia.
  - destruct (do_skip_ok cols v s n fuel Hv Hs Hop Hf) as (s' & E & H'). rewrite E. exists s'. auto.
  - unfold sobol_reset. pose proof Hs as (Ha & Hd & Hb & Hp & Hl).
    destruct (sobol_create_ok dim Hdim) as (cols' & sd & E & _ & _ & Ei & Ha'). rewrite Hi in Ei. injection Ei as <-.
    rewrite Hd. replace (N.of_nat (length cols)) with dim by lia. rewrite E. cbn [bind].
    assert (view_of cols (SV 0 (v_held v) (v_pos v)) (SB sd dim (s_buf s) (s_pos s))) as Hview.
    { unfold view_of. cbn [s_sd s_dim s_buf s_pos v_n v_held v_pos]. repeat split; try apply Ha'; auto. lia. }
    cbn [fst snd]. destruct (N.ltb_spec 0 n).
    + destruct (do_skip_ok cols _ _ n fuel Hv Hview Hop Hf) as (s' & Es & Hs'). rewrite Es. exists s'. auto.
    + eexists. split; [reflexivity|]. auto.
Qed.

Lemma model_run_ok dim cols v s ops fuel : 1 <= dim <= 1111 -> Forall valid_directions cols -> init_m dim = Ok cols ->
  length cols = N.to_nat dim -> view_of cols v s -> Forall op_ok ops -> (32 <= fuel)%nat ->
  model_run fuel ops s = Ok (view_run cols ops v).
Proof.
  intros Hdim Hv Hi Hlen Hs Hops Hf. revert v s Hs. induction Hops as [|op ops Ho Hops IH]; intros v s Hs; auto.
  cbn [model_run view_run]. destruct (model_step_ok dim cols v s op fuel) as (s' & E & Hs'); auto.
  rewrite E. cbn [bind]. destruct (view_step cols op v) as [v' r]. cbn [fst snd] in *.
  rewrite (IH v' s' Hs'). reflexivity.
Qed.

(** * the portable rightmost-zero *)
Lemma land_neg p k : N.pos p < 2 ^ k -> N.land (N.pos p) (2 ^ k - N.pos p) = 2 ^ ctz_pos p.
Proof.
  intros Hk. destruct (ctz_spec p) as [q Hq]. set (c := ctz_pos p) in *. clearbody c.
  assert (c < k) as Hc.
  { destruct (N.lt_ge_cases c k); auto. pose proof (pow2_le k c H).
    assert (2 ^ c * 1 <= 2 ^ c * (2 * q + 1)) by (apply N.mul_le_mono_l; lia). lia. }
  assert (2 ^ k = 2 ^ c * (2 * 2 ^ (k - c - 1))) as Ek.
  { change 2 with (2 ^ 1) at 3. rewrite <- !N.pow_add_r. f_equal. lia. }
  pose proof (N.pow_nonzero 2 c ltac:(lia)) as Hz. assert (q < 2 ^ (k - c - 1)) as Hlt by nia.
  set (h := k - c - 1) in *.
  assert (2 ^ k - N.pos p = 2 ^ c * (2 * (2 ^ h - 1 - q) + 1)) as -> by nia. rewrite Hq.
  rewrite !(N.mul_comm (2 ^ c)), <- !N.shiftl_mul_pow2, <- N.shiftl_land.
  assert (N.land (2 * q + 1) (2 * (2 ^ h - 1 - q) + 1) = 1) as ->; [|now rewrite N.shiftl_1_l].
  assert (N.land q (2 ^ h - 1 - q) = 0) as E0.
  { destruct (N.eq_dec q 0) as [->|]; [reflexivity|].
    replace (2 ^ h - 1) with (N.ones h) by (rewrite N.ones_equiv; lia).
    rewrite <- N.lnot_sub_low by (apply N.log2_lt_pow2; lia).
    apply N.bits_inj. intros j. rewrite N.land_spec, N.bits_0. destruct (N.lt_ge_cases j h).
    - rewrite N.lnot_spec_low by auto. destruct (N.testbit q j); reflexivity.
    - rewrite (proj1 (lt_pow2_bits q h)); auto. }
  apply N.bits_inj. intros j. rewrite N.land_spec. destruct (N.eq_dec j 0) as [->|Hj].
  - rewrite !N.bit0_odd, !N.odd_add_mul_2 || rewrite !N.testbit_odd_0. reflexivity.
  - replace j with (N.succ (j - 1)) by lia. rewrite !N.testbit_odd_succ by lia.
    rewrite <- N.land_spec, E0, N.bits_0. change 1 with (2 * 0 + 1). rewrite N.testbit_odd_succ by lia. now rewrite N.bits_0.
Qed.

Lemma portable_ok n : n < 2 ^ 32 - 1 -> rightzero32_portable n = rightzero32 n.
Proof.
  intros Hn. destruct (rightzero32_ok n Hn) as (c & Ec & Hc & _). rewrite Ec.
  unfold rightzero32 in Ec. unfold rightzero32_portable. rewrite not32_sub in * by lia.
  destruct (2 ^ 32 - 1 - n) as [|p] eqn:E; [lia|]. injection Ec as Ec.
  assert (sub32 0 (N.pos p) = 2 ^ 32 - N.pos p) as ->.
  { unfold sub32, w32. apply N.mod_small. lia. }
  rewrite land_neg, Ec by lia. clear E Ec p n Hn.
  assert (forallb (fun c => match getN decode (N.shiftr (w32 (0x05f66a47 * 2 ^ c)) 27) with Ok x => x =? c | _ => false end)
    (nrange 32) = true) as Hall by (vm_compute; reflexivity).
  rewrite forallb_forall in Hall. specialize (Hall c). rewrite in_nrange in Hall. specialize (Hall Hc).
  destruct (getN decode (N.shiftr (w32 (0x05f66a47 * 2 ^ c)) 27)) as [x| | |]; try discriminate.
  apply N.eqb_eq in Hall. now subst x.
Qed.
