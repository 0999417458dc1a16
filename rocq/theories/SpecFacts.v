(** Facts about the specification vocabulary of Spec.v. *)
From Coq Require FinFun.
From Verif Require Import Base Spec.

Lemma length_zrange n : length (zrange n) = Z.to_nat n.
Proof. unfold zrange. now rewrite map_length, seq_length. Qed.

Lemma in_zrange n i : In i (zrange n) <-> 0 <= i < n.
Proof.
  unfold zrange. rewrite in_map_iff. split.
  - intros (k & <- & Hk). apply in_seq in Hk. lia.
  - intros H. exists (Z.to_nat i). split; [lia|]. apply in_seq. lia.
Qed.

Lemma NoDup_zrange n : NoDup (zrange n).
Proof.
  unfold zrange. apply FinFun.Injective_map_NoDup; [intros a b; lia | apply seq_NoDup].
Qed.

Lemma nth_error_zrange n i : 0 <= i < n -> nth_error (zrange n) (Z.to_nat i) = Some i.
Proof.
  intros H. unfold zrange. rewrite nth_error_map.
  rewrite nth_error_nth' with (d := 0%nat) by (rewrite seq_length; lia).
  rewrite seq_nth by lia. simpl. f_equal. lia.
Qed.

Lemma prodZ_nonneg sizes : Forall (fun n => 0 <= n) sizes -> 0 <= prodZ sizes.
Proof. induction 1; simpl; nia. Qed.

Lemma prodZ_pos sizes : positive sizes -> 0 < prodZ sizes.
Proof. induction 1; simpl; nia. Qed.

Lemma positive_nonneg sizes : positive sizes -> Forall (fun n => 0 <= n) sizes.
Proof. intros H. eapply Forall_impl; [|exact H]. simpl. lia. Qed.

Lemma index_in_length sizes idx : index_in sizes idx -> length idx = length sizes.
Proof. induction 1; simpl; lia. Qed.

Lemma in_all_indices sizes idx : In idx (all_indices sizes) <-> index_in sizes idx.
Proof.
  revert idx. induction sizes as [|n ns IH]; intros idx; simpl.
  - split.
    + intros [<-|[]]. constructor.
    + intros H. inversion H. now left.
  - rewrite in_flat_map. split.
    + intros (i & Hi & H). apply in_map_iff in H as (r & <- & Hr).
      constructor; [now apply in_zrange|]. now apply IH.
    + intros H. inversion H; subst. exists y. split; [now apply in_zrange|].
      apply in_map. now apply IH.
Qed.

Lemma NoDup_flat_map {A B} (f : A -> list B) l :
  NoDup l -> (forall a, In a l -> NoDup (f a)) ->
  (forall a b x, In a l -> In b l -> In x (f a) -> In x (f b) -> a = b) -> NoDup (flat_map f l).
Proof.
  induction 1 as [|a l Ha Hl IH]; intros Hf Hd; simpl; [constructor|].
  assert (NoDup (f a)) as Hfa by (apply Hf; now left).
  assert (NoDup (flat_map f l)) as Hrest.
  { apply IH; [intros; apply Hf; now right|]. intros; eapply Hd; eauto; now right. }
  assert (forall x, In x (f a) -> ~ In x (flat_map f l)) as Hdis.
  { intros x Hx Hx'. apply in_flat_map in Hx' as (b & Hb & Hxb).
    assert (a = b) by (eapply Hd; eauto; [now left | now right]). now subst. }
  clear - Hfa Hrest Hdis. induction Hfa; simpl; auto. constructor.
  - rewrite in_app_iff. intros [?|?]; [tauto|]. eapply Hdis; eauto. now left.
  - apply IHHfa. intros. apply Hdis. now right.
Qed.

Lemma NoDup_all_indices sizes : NoDup (all_indices sizes).
Proof.
  induction sizes as [|n ns IH]; simpl.
  - constructor; [easy|constructor].
  - apply NoDup_flat_map.
    + apply NoDup_zrange.
    + intros. apply FinFun.Injective_map_NoDup; [intros x y; congruence|auto].
    + intros a b x _ _ Ha Hb. apply in_map_iff in Ha as (r & <- & _).
      apply in_map_iff in Hb as (r' & E & _). congruence.
Qed.

Lemma length_flat_map_const {A B} (f : A -> list B) k l :
  (forall a, In a l -> length (f a) = k) -> length (flat_map f l) = (length l * k)%nat.
Proof.
  induction l; simpl; intros H; auto. rewrite app_length, H, IHl; auto.
Qed.

Lemma length_all_indices sizes :
  Forall (fun n => 0 <= n) sizes -> Z.of_nat (length (all_indices sizes)) = prodZ sizes.
Proof.
  induction 1 as [|n ns Hn Hns IH]; simpl; auto.
  rewrite length_flat_map_const with (k := length (all_indices ns)).
  - rewrite length_zrange. nia.
  - intros. now rewrite map_length.
Qed.

Lemma rowmajor_bound sizes idx : index_in sizes idx -> 0 <= rowmajor sizes idx < prodZ sizes.
Proof.
  induction 1; simpl; [lia|]. assert (0 < prodZ l) by lia. nia.
Qed.

Lemma nth_error_flat_map_const {A B} (f : A -> list B) k (l : list A) i j a :
  (forall a, In a l -> length (f a) = k) -> nth_error l i = Some a -> (j < k)%nat ->
  nth_error (flat_map f l) (i * k + j) = nth_error (f a) j.
Proof.
  revert i. induction l as [|x l IH]; intros i Hf Hi Hj; [now destruct i|].
  simpl. destruct i as [|i]; simpl in *.
  - injection Hi as ->. apply nth_error_app1. rewrite Hf; auto.
  - rewrite nth_error_app2 by (rewrite Hf by auto; lia).
    rewrite Hf by auto. replace (k + i * k + j - k)%nat with (i * k + j)%nat by lia.
    apply IH; auto.
Qed.

Lemma nth_error_all_indices sizes idx :
  index_in sizes idx -> nth_error (all_indices sizes) (Z.to_nat (rowmajor sizes idx)) = Some idx.
Proof.
  induction 1 as [|n i ns is Hi His IH]; auto.
  simpl. pose proof (rowmajor_bound ns is His) as Hb.
  assert (Z.of_nat (length (all_indices ns)) = prodZ ns) as Hl.
  { apply length_all_indices. clear - His. induction His; constructor; auto. lia. }
  replace (Z.to_nat (i * prodZ ns + rowmajor ns is))
    with (Z.to_nat i * length (all_indices ns) + Z.to_nat (rowmajor ns is))%nat by nia.
  rewrite nth_error_flat_map_const with (a := i).
  - rewrite nth_error_map, IH. reflexivity.
  - intros. now rewrite map_length.
  - now apply nth_error_zrange.
  - lia.
Qed.

Lemma rowmajor_inj sizes a b :
  index_in sizes a -> index_in sizes b -> rowmajor sizes a = rowmajor sizes b -> a = b.
Proof.
  intros Ha Hb E. apply nth_error_all_indices in Ha. apply nth_error_all_indices in Hb.
  rewrite E in Ha. congruence.
Qed.

Lemma rowmajor_of_nth sizes k idx :
  positive sizes -> nth_error (all_indices sizes) k = Some idx -> rowmajor sizes idx = Z.of_nat k.
Proof.
  intros Hp E. assert (index_in sizes idx) as Hi by (apply in_all_indices; eapply nth_error_In; eauto).
  pose proof (nth_error_all_indices _ _ Hi) as E2.
  pose proof (rowmajor_bound _ _ Hi).
  assert (k < length (all_indices sizes))%nat by (apply nth_error_Some; congruence).
  assert (Z.to_nat (rowmajor sizes idx) = k); [|lia].
  apply (proj1 (NoDup_nth_error _) (NoDup_all_indices sizes)).
  - apply nth_error_Some. rewrite E2. discriminate.
  - now rewrite E2, E.
Qed.

Lemma index_in_zeros sizes : positive sizes -> index_in sizes (repeat 0 (length sizes)).
Proof. induction 1; simpl; constructor; auto; lia. Qed.

Lemma rowmajor_zeros sizes : rowmajor sizes (repeat 0 (length sizes)) = 0.
Proof. induction sizes; simpl; lia. Qed.

Lemma idx_eqb_true a b : idx_eqb a b = true <-> a = b.
Proof. unfold idx_eqb. destruct list_eq_dec; split; congruence. Qed.

Lemma idx_eqb_refl a : idx_eqb a a = true.
Proof. now apply idx_eqb_true. Qed.

Lemma idx_eqb_sym a b : idx_eqb a b = idx_eqb b a.
Proof. unfold idx_eqb. do 2 destruct list_eq_dec; congruence. Qed.

Lemma sumZ_app l l' : sumZ (l ++ l') = sumZ l + sumZ l'.
Proof. induction l; simpl; lia. Qed.

Lemma sumZ_nonneg l : (forall x, In x l -> 0 <= x) -> 0 <= sumZ l.
Proof. induction l; simpl; intros H; [lia|]. pose proof (H a). pose proof (IHl). intuition. Qed.

Lemma sumZ_map_add {A} (f g : A -> Z) l : sumZ (map (fun x => f x + g x) l) = sumZ (map f l) + sumZ (map g l).
Proof. induction l; simpl; lia. Qed.

Lemma sumZ_map_sub {A} (f g : A -> Z) l : sumZ (map (fun x => f x - g x) l) = sumZ (map f l) - sumZ (map g l).
Proof. induction l; simpl; lia. Qed.

Lemma sumZ_map_const {A} c (l : list A) : sumZ (map (fun _ => c) l) = c * Z.of_nat (length l).
Proof. induction l; simpl length; simpl; lia. Qed.

Lemma sumZ_map_ext {A} (f g : A -> Z) l : (forall x, In x l -> f x = g x) -> sumZ (map f l) = sumZ (map g l).
Proof. induction l; simpl; intros H; auto. rewrite H, IHl; auto. Qed.

Lemma sumZ_map_le {A} (f g : A -> Z) l : (forall x, In x l -> f x <= g x) -> sumZ (map f l) <= sumZ (map g l).
Proof. induction l; simpl; intros H; [lia|]. pose proof (H a (or_introl eq_refl)).
  assert (sumZ (map f l) <= sumZ (map g l)) by auto. lia. Qed.

Lemma sum_filter {A} (p : A -> bool) (f : A -> Z) l :
  sumZ (map f (filter p l)) = sumZ (map (fun x => if p x then f x else 0) l).
Proof. induction l; simpl; auto. destruct (p a); simpl; lia. Qed.

Lemma sum_one {A} (dec : forall x y : A, {x = y} + {x <> y}) (c : A) v l :
  NoDup l -> In c l -> sumZ (map (fun x => if dec x c then v else 0) l) = v.
Proof.
  induction 1 as [|x l Hx Hl IH]; simpl; intros Hc; [easy|].
  destruct Hc as [->|Hc].
  - destruct (dec c c) as [_|]; [|easy].
    rewrite (sumZ_map_ext _ (fun _ => 0)); [rewrite sumZ_map_const; lia|].
    intros y Hy. destruct (dec y c); [subst; tauto | auto].
  - destruct (dec x c); [congruence|]. rewrite IH; auto.
Qed.

(** grouping: summing the marginal over all marginal cells gives the total *)
Lemma sum_group {A B} (dec : forall x y : B, {x = y} + {x <> y}) (g : A -> B) (f : A -> Z) (l : list A) (cells : list B) :
  NoDup cells -> (forall a, In a l -> In (g a) cells) ->
  sumZ (map (fun c => sumZ (map (fun a => if dec c (g a) then f a else 0) l)) cells) = sumZ (map f l).
Proof.
  intros Hnd Hin. induction l as [|a l IH]; simpl.
  - rewrite sumZ_map_const. lia.
  - rewrite sumZ_map_add, IH by (intros; apply Hin; now right).
    rewrite sum_one; auto. apply Hin. now left.
Qed.

Lemma proj_length dims idx : length (proj dims idx) = length dims.
Proof. apply map_length. Qed.

Lemma index_in_proj sizes dims idx :
  index_in sizes idx -> Forall (fun d => 0 <= d < Z.of_nat (length sizes)) dims ->
  index_in (proj dims sizes) (proj dims idx).
Proof.
  intros Hi. induction 1 as [|d ds Hd Hds IH]; simpl; constructor; auto.
  clear - Hi Hd. revert d Hd. induction Hi; simpl length; intros d Hd; [simpl in Hd; lia|].
  destruct (Z.to_nat d) as [|k] eqn:E; simpl; auto.
  specialize (IHHi (d - 1)). replace (Z.to_nat (d - 1)) with k in IHHi by lia. apply IHHi. lia.
Qed.

Lemma prodZ_app l l' : prodZ (l ++ l') = prodZ l * prodZ l'.
Proof. induction l as [|n l IH]; cbn [app prodZ]; [lia|]. rewrite IH. ring. Qed.

Lemma prodZ_rev l : prodZ (rev l) = prodZ l.
Proof. induction l as [|n l IH]; auto. cbn [rev prodZ]. rewrite prodZ_app, IH. cbn [prodZ]. ring. Qed.

Lemma index_in_nth sizes idx : index_in sizes idx <->
  length idx = length sizes /\ forall k, (k < length sizes)%nat -> 0 <= nth k idx 0 < nth k sizes 0.
Proof.
  split.
  - intros H. split; [now apply index_in_length|]. induction H; simpl; [lia|].
    intros [|k] Hk; auto. apply IHForall2. lia.
  - revert idx. induction sizes as [|n ns IH]; intros [|i is] [Hl H]; simpl in *; try lia; constructor.
    + apply (H 0%nat). lia.
    + apply IH. split; [lia|]. intros k Hk. apply (H (S k)). lia.
Qed.
