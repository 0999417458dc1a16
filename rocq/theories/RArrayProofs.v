From Verif Require Import Base Spec SpecFacts NDArray IndexProofs Float64 ArrayOps ArrayProofs Bind BindProofs RArray.

Lemma rowmajor_snoc ns is n i : length ns = length is ->
  rowmajor (ns ++ [n]) (is ++ [i]) = rowmajor ns is * n + i.
Proof.
  revert is. induction ns as [|m ns IH]; intros [|j is] H; simpl in *; try lia.
  rewrite IH by lia. rewrite prodZ_app. simpl. ring.
Qed.

Lemma colmajor_rowmajor sizes idx : length sizes = length idx ->
  colmajor sizes idx = rowmajor (rev sizes) (rev idx).
Proof.
  revert idx. induction sizes as [|n ns IH]; intros [|i is] H; simpl in *; try lia.
  rewrite rowmajor_snoc by (rewrite !rev_length; lia). rewrite <- IH by lia. ring.
Qed.

Lemma index_in_rev sizes idx : index_in sizes idx -> index_in (rev sizes) (rev idx).
Proof.
  induction 1; simpl; [constructor|]. apply Forall2_app; auto.
Qed.

Lemma convert_array_ok {T} (d : T) (a : rarray T) : wf_rarray a -> prodZ (col_sizes a) < 2 ^ 60 ->
  convert_array a = Ok (mk (col_sizes a) (r_entry d a)).
Proof.
  intros (Hne & Hp & Hl) Hb. set (sizes := col_sizes a) in *.
  assert (fits sizes) as Hf by (repeat split; auto).
  unfold convert_array. fold sizes. rewrite nd_new_ok by auto. cbn [bind].
  rewrite tindex_loop_spec by auto.
  assert (positive (rev sizes)) as Hpr by now apply Forall_rev.
  assert (forall k l f, skipn k (all_indices (rev sizes)) = l ->
     (forall c, index_in sizes c -> (rowmajor (rev sizes) (rev c) < Z.of_nat k) -> f c = Some (r_entry d a c)) ->
     foldM (fun i s => (fun idx '(arr, i) =>
         let* x := vec_get (r_data a) i in
         let* arr' := nd_set arr idx x in
         Ok (arr', i + 1)) (rev i) s) l (mkp sizes f, Z.of_nat k) =
     Ok (mk sizes (r_entry d a), Z.of_nat (k + length l))) as G.
  { intros k l. revert k. induction l as [|c l IH]; intros k f Hsk Hd.
    - simpl. rewrite Nat.add_0_r. do 2 f_equal. apply mkp_ext. intros i Hi. apply Hd; auto.
      pose proof (rowmajor_bound _ _ (index_in_rev _ _ Hi)) as Hrb.
      assert (length (all_indices (rev sizes)) <= k)%nat.
      { destruct (le_lt_dec (length (all_indices (rev sizes))) k); auto.
        apply (f_equal (@length _)) in Hsk. rewrite skipn_length in Hsk. simpl in Hsk. lia. }
      pose proof (length_all_indices _ (positive_nonneg _ Hpr)). lia.
    - assert (nth_error (all_indices (rev sizes)) k = Some c) as Hk.
      { rewrite <- (Nat.add_0_r k). rewrite <- (firstn_skipn k (all_indices (rev sizes))), Hsk.
        assert (k < length (all_indices (rev sizes)))%nat as Hlt.
        { destruct (le_lt_dec (length (all_indices (rev sizes))) k); auto.
          rewrite skipn_all2 in Hsk by auto. discriminate. }
        rewrite nth_error_app2; rewrite firstn_length_le by lia; [|lia].
        replace (k + 0 - k)%nat with 0%nat by lia. reflexivity. }
      assert (index_in (rev sizes) c) as Hc by (apply in_all_indices; eapply nth_error_In; eauto).
      assert (index_in sizes (rev c)) as Hrc.
      { rewrite <- (rev_involutive sizes). now apply index_in_rev. }
      pose proof (rowmajor_of_nth _ _ _ Hpr Hk) as Hr.
      pose proof (rowmajor_bound _ _ Hc) as Hrb. rewrite prodZ_rev in Hrb.
      cbn [foldM]. rewrite vec_get_ok with (d := d) by lia. cbn [bind].
      rewrite nd_set_mkp by auto. cbn [bind].
      replace (Z.of_nat k + 1) with (Z.of_nat (S k)) by lia.
      rewrite IH.
      + simpl length. do 3 f_equal. lia.
      + rewrite (skipn_nth_error _ _ _ Hk) in Hsk. congruence.
      + intros c' Hc' Hlt. unfold fupd. destruct (idx_eqb c' (rev c)) eqn:E.
        * apply idx_eqb_true in E. subst c'. f_equal. unfold r_entry. fold sizes.
          rewrite colmajor_rowmajor by (symmetry; now apply index_in_length).
          rewrite rev_involutive, Hr. reflexivity.
        * apply Hd; auto. assert (rowmajor (rev sizes) (rev c') <> Z.of_nat k); [|lia].
          intros Heq. rewrite <- Hr in Heq.
          apply rowmajor_inj in Heq; auto; [|now apply index_in_rev].
          rewrite <- Heq, rev_involutive, idx_eqb_refl in E. discriminate. }
  change 0 with (Z.of_nat 0). rewrite (G 0%nat (all_indices (rev sizes))); auto.
  intros c Hc Hlt. pose proof (rowmajor_bound _ _ (index_in_rev _ _ Hc)). lia.
Qed.

Lemma r_flatten_ok (a : rarray Z) : wf_rarray a -> prodZ (col_sizes a) < 2 ^ 60 ->
  Forall (fun n => n < 2 ^ 31) (col_sizes a) ->
  (forall i, index_in (col_sizes a) i -> 0 <= r_entry 0 a i) ->
  total (col_sizes a) (r_entry 0 a) < 2 ^ 61 ->
  r_flatten a = Ok (map (fun j => column 1 j (expand (col_sizes a) (r_entry 0 a))) (seq 0 (length (col_sizes a)))).
Proof.
  intros Hw Hb Hs Hn Ht. unfold r_flatten. rewrite (convert_array_ok 0) by auto. cbn [bind].
  destruct Hw as (Hne & Hp & Hl).
  assert (fits (col_sizes a)) as Hf by (repeat split; auto).
  rewrite nd_sum_mk by auto.
  rewrite vec_sum_int.
  - cbn [bind]. fold (total (col_sizes a) (r_entry 0 a)). apply listify_mk; auto.
    intros i Hi. clear - Hi Hs.
    induction Hi; constructor; inversion Hs; subst; auto.
    unfold in_i32. apply andb_true_intro. split; [apply Z.leb_le|apply Z.ltb_lt]; lia.
  - intros x Hx. apply in_map_iff in Hx as (i & <- & Hi). apply Hn. now apply in_all_indices.
  - unfold total in Ht. lia.
Qed.
