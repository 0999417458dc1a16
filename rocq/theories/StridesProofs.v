From Verif Require Import Base Spec SpecFacts NDArray IndexProofs ArrayProofs Strides.

Lemma dot_strides shape idx : length shape = length idx -> dot (c_strides shape) idx = rowmajor shape idx.
Proof.
  revert idx. induction shape as [|n ns IH]; intros [|i is] H; simpl in *; try lia. rewrite IH by lia. ring.
Qed.

Lemma skipn_firstn_nth {T} (l : list T) b k : nth_error (skipn b l) k = nth_error l (b + k).
Proof. revert l. induction b; intros [|x l]; simpl; auto. now destruct k. Qed.

(** the buffer holds all elements of a C-contiguous array *)
Definition np_holds {T} (a : nparray T) : Prop :=
  0 <= np_base a /\ np_base a + prodZ (np_shape a) <= Z.of_nat (length (np_buf a)).

Lemma as_nd_np_get {T} (a : nparray T) idx :
  fits (np_shape a) -> np_holds a -> index_in (np_shape a) idx ->
  exists t, as_nd_np a = Ok t /\
    match nth_error (np_buf a) (Z.to_nat (np_base a + rowmajor (np_shape a) idx)) with
    | Some x => nd_get t idx = Ok x
    | None => False
    end.
Proof.
  intros Hf [Hb Hl] Hi. pose proof (fits_prod _ Hf). unfold as_nd_np.
  rewrite storage_size_ok by (auto; lia). simpl. rewrite compute_offs_ok by (auto; lia). simpl.
  eexists. split; [reflexivity|]. pose proof (rowmajor_bound _ _ Hi).
  destruct (nth_error (np_buf a) (Z.to_nat (np_base a + rowmajor (np_shape a) idx))) as [x|] eqn:E.
  - unfold nd_get, nd_offset. simpl. rewrite offset_from_ok by (auto; lia). rewrite Z.add_0_l. simpl.
    rewrite nth_error_map, skipn_firstn_nth, <- Z2Nat.inj_add by lia. simpl. now rewrite E.
  - apply nth_error_None in E. lia.
Qed.

Lemma to_nd_np_get {T} (a : nparray T) idx :
  fits (np_shape a) -> np_holds a -> index_in (np_shape a) idx ->
  exists t, to_nd_np a = Ok t /\
    match nth_error (np_buf a) (Z.to_nat (np_base a + rowmajor (np_shape a) idx)) with
    | Some x => nd_get t idx = Ok x
    | None => False
    end.
Proof.
  intros Hf [Hb Hl] Hi. pose proof (fits_prod _ Hf). unfold to_nd_np. rewrite nd_new_ok by auto. simpl.
  pose proof (rowmajor_bound _ _ Hi).
  rewrite firstn_length_le by (rewrite skipn_length; lia). rewrite Nat.eqb_refl.
  eexists. split; [reflexivity|].
  destruct (nth_error (np_buf a) (Z.to_nat (np_base a + rowmajor (np_shape a) idx))) as [x|] eqn:E.
  - unfold nd_get, nd_offset. simpl. rewrite offset_from_ok by (auto; lia). rewrite Z.add_0_l. simpl.
    rewrite nth_error_app1.
    + rewrite nth_error_map.
      assert (nth_error (firstn (Z.to_nat (prodZ (np_shape a))) (skipn (Z.to_nat (np_base a)) (np_buf a))) (Z.to_nat (rowmajor (np_shape a) idx)) = Some x) as ->; auto.
      assert (forall (l : list T) n k, (k < n)%nat -> nth_error (firstn n l) k = nth_error l k) as Fn.
      { clear. induction l; intros [|n] [|k] Hk; simpl; auto; try lia. apply IHl. lia. }
      rewrite Fn by lia. rewrite skipn_firstn_nth, <- E. f_equal. lia.
    + rewrite map_length, firstn_length_le by (rewrite skipn_length; lia). lia.
  - apply nth_error_None in E. lia.
Qed.

Lemma np_entry_contiguous {T} (a : nparray T) idx :
  np_strides a = c_strides (np_shape a) -> 0 <= np_base a -> index_in (np_shape a) idx ->
  np_entry a idx = nth_error (np_buf a) (Z.to_nat (np_base a + rowmajor (np_shape a) idx)).
Proof.
  intros Hs Hb Hi. unfold np_entry. rewrite Hs, dot_strides by (symmetry; now apply index_in_length).
  pose proof (rowmajor_bound _ _ Hi). destruct (Z.leb_spec 0 (np_base a + rowmajor (np_shape a) idx)); auto. lia.
Qed.
