(** Proofs about the conversions, slicing and flatten. *)
From Coq Require Import Sorted.
From Verif Require Import Base Spec SpecFacts NDArray IndexProofs Float64 ArrayOps ArrayProofs Bind.

Lemma map_entry {T} (d : T) (a : ndarray T) : wf_array a -> map (entry d a) (all_indices (shape a)) = flat a.
Proof.
  intros (Hne & Hp & Hl). pose proof (length_all_indices _ (positive_nonneg _ Hp)) as Ha.
  apply nth_ext with (d := d) (d' := d); rewrite map_length; [lia|].
  intros k Hk. destruct (nth_error (all_indices (shape a)) k) as [i|] eqn:E.
  2:{ apply nth_error_None in E. lia. }
  pose proof (rowmajor_of_nth _ _ _ Hp E) as Hr.
  erewrite nth_error_nth; [|rewrite nth_error_map, E; reflexivity].
  unfold entry. rewrite Hr, Nat2Z.id. reflexivity.
Qed.

Lemma entry_NDA_map {T} (d : T) s f i : index_in s i -> entry d (NDA s (map f (all_indices s))) i = f i.
Proof.
  intros Hi. unfold entry. simpl. erewrite nth_error_nth; [reflexivity|].
  now rewrite nth_error_map, nth_error_all_indices.
Qed.

Lemma wf_NDA_map {T} s (f : list Z -> T) : s <> [] -> positive s -> wf_array (NDA s (map f (all_indices s))).
Proof.
  intros Hne Hp. repeat split; auto. simpl. rewrite map_length. apply length_all_indices. now apply positive_nonneg.
Qed.

Lemma wf_fits {T} (a : ndarray T) : wf_array a -> prodZ (shape a) < 2 ^ 60 -> fits (shape a).
Proof. intros (?&?&?) ?. repeat split; auto. Qed.

Lemma as_nd_ok {T} (d : T) (a : ndarray T) : wf_array a -> prodZ (shape a) < 2 ^ 60 ->
  as_nd a = Ok (mk (shape a) (entry d a)).
Proof.
  intros Hw Hb. pose proof (wf_fits a Hw Hb) as Hf. pose proof (fits_prod _ Hf). unfold as_nd.
  rewrite storage_size_ok by (auto; lia). simpl.
  rewrite compute_offs_ok by (auto; lia). simpl. unfold mk, mkp.
  rewrite <- (map_map (entry d a) Some). now rewrite map_entry.
Qed.

Lemma to_nd_ok {T} (d : T) (a : ndarray T) : wf_array a -> prodZ (shape a) < 2 ^ 60 ->
  to_nd a = Ok (mk (shape a) (entry d a)).
Proof.
  intros Hw Hb. pose proof (wf_fits a Hw Hb) as Hf. unfold to_nd.
  rewrite nd_new_ok by auto. simpl.
  pose proof (length_all_indices _ (positive_nonneg _ (fits_pos _ Hf))) as Hl.
  rewrite map_length, Hl. destruct Hw as (Hne & Hp & Hlf) eqn:Ew. rewrite Hlf, Z.leb_refl.
  rewrite skipn_all2 by (rewrite map_length; lia).
  rewrite app_nil_r. unfold mk, mkp. rewrite <- (map_map (entry d a) Some). now rewrite map_entry.
Qed.

Lemma from_nd_mk {T} s (f : list Z -> T) : positive s -> from_nd (mk s f) = Ok (NDA s (map f (all_indices s))).
Proof. intros Hp. unfold from_nd. now rewrite nd_values_mk. Qed.

(** * Filling an array cell by cell *)

Lemma fill_loop {T} szs (g : list Z -> T) f0 : fits szs ->
  foldM (fun i s => nd_set s i (g i)) (all_indices szs) (mkp szs f0) = Ok (mk szs g).
Proof.
  intros Hf.
  assert (forall l f, (forall i, In i l -> index_in szs i) ->
    (forall i, index_in szs i -> ~ In i l -> f i = Some (g i)) ->
    foldM (fun i s => nd_set s i (g i)) l (mkp szs f) = Ok (mk szs g)) as G.
  { induction l as [|i l IH]; intros f Hl Hd.
    - simpl. f_equal. apply mkp_ext. intros. apply Hd; auto.
    - cbn [foldM]. rewrite nd_set_mkp by auto with datatypes. cbn [bind]. apply IH.
      + auto with datatypes.
      + intros j Hj Hn. unfold fupd. destruct (idx_eqb j i) eqn:E.
        * apply idx_eqb_true in E. now subst.
        * apply Hd; auto. intros [->|]; auto. now rewrite idx_eqb_refl in E. }
  apply G; intros i Hi.
  - now apply in_all_indices.
  - intros Hn. exfalso. apply Hn. now apply in_all_indices.
Qed.

(** * slice *)

Definition free_dims (n : Z) (fixed : list (Z * Z)) : list Z :=
  filter (fun d => negb (existsb (Z.eqb d) (map fst fixed))) (zrange n).

Definition fixed_ok (sizes : list Z) (fixed : list (Z * Z)) : Prop :=
  NoDup (map fst fixed) /\
  Forall (fun '(d, v) => 0 <= d < Z.of_nat (length sizes) /\ 0 <= v < nth (Z.to_nat d) sizes 0) fixed.

(** vector state after writing the fixed values over -1 *)
Definition full_of (n : nat) (fixed : list (Z * Z)) : list Z :=
  map (fun d => match find (fun p => fst p =? d) fixed with Some (_, v) => v | None => -1 end) (zrange (Z.of_nat n)).

Lemma set_fixed_ok n fixed :
  NoDup (map fst fixed) -> Forall (fun '(d, v) => 0 <= d < Z.of_nat n) fixed ->
  foldM (fun '(d, v) full => vec_set full d v) fixed (repeat (-1) n) = Ok (full_of n fixed).
Proof.
  intros Hn Hv.
  assert (forall l init, length init = n -> NoDup (map fst l) -> Forall (fun '(d, v) => 0 <= d < Z.of_nat n) l ->
    foldM (fun '(d, v) full => vec_set full d v) l init =
    Ok (map (fun d => match find (fun p => fst p =? d) l with Some (_, v) => v | None => nth (Z.to_nat d) init 0 end)
            (zrange (Z.of_nat n)))) as G.
  { clear fixed Hn Hv. induction l as [|[d v] l IH]; intros init Hl Hn Hv; simpl.
    - f_equal. rewrite <- Hl. symmetry. apply proj_zrange.
    - inversion Hn; subst. inversion Hv; subst. rewrite vec_set_ok by auto. simpl.
      rewrite IH; auto; [|now rewrite length_upd]. f_equal. apply map_ext_in. intros e He.
      apply in_zrange in He. destruct (Z.eqb_spec d e) as [<-|Hde].
      + destruct find as [[d' v']|] eqn:E.
        * apply find_some in E as [Hin Heq]. simpl in Heq. apply Z.eqb_eq in Heq. subst.
          exfalso. apply H1. apply in_map_iff. exists (d, v'). auto.
        * rewrite nth_upd by lia. now rewrite Nat.eqb_refl.
      + destruct find as [[d' v']|]; auto. rewrite nth_upd_other; auto. lia. }
  rewrite G; auto; [|apply repeat_length]. f_equal. unfold full_of. apply map_ext_in.
  intros e He. apply in_zrange in He. destruct find as [[? ?]|]; auto.
  rewrite nth_indep with (d' := -1) by (rewrite repeat_length; lia).
  apply nth_repeat.
Qed.

Lemma find_free_ok cap pos full sizes j :
  length full = length sizes ->
  j + Z.of_nat (length (filter (fun v => v =? -1) full)) <= cap ->
  find_free cap pos full sizes j =
  Ok (map (fun v => if v =? -1 then 0 else v) full,
      map fst (filter (fun p => snd p =? -1) (numbered pos full)),
      map snd (filter (fun p => fst p =? -1) (combine full sizes))).
Proof.
  revert pos sizes j. induction full as [|v vs IH]; intros pos [|n ns] j Hl Hc; simpl in *; try lia; auto.
  destruct (Z.eqb_spec v (-1)); simpl in *.
  - destruct (Z.ltb_spec j cap); [|lia]. rewrite IH by lia. reflexivity.
  - rewrite IH by lia. reflexivity.
Qed.

Lemma full_of_minus1 sizes fixed d : fixed_ok sizes fixed -> 0 <= d < Z.of_nat (length sizes) ->
  (nth (Z.to_nat d) (full_of (length sizes) fixed) 0 =? -1) = negb (existsb (Z.eqb d) (map fst fixed)).
Proof.
  intros [Hn Hf] Hd. unfold full_of.
  erewrite nth_error_nth; [|rewrite nth_error_map, nth_error_zrange by auto; reflexivity].
  destruct (find (fun p => fst p =? d) fixed) as [[d' v]|] eqn:E.
  - apply find_some in E as [Hin Heq]. simpl in Heq. apply Z.eqb_eq in Heq. subst.
    eapply Forall_forall in Hf; eauto. simpl in Hf.
    assert (existsb (Z.eqb d) (map fst fixed) = true) as ->.
    { apply existsb_exists. exists d. split; [|apply Z.eqb_refl]. apply in_map_iff. exists (d, v). auto. }
    simpl. apply Z.eqb_neq. lia.
  - simpl. symmetry. apply negb_true_iff. apply not_true_is_false. intros H.
    apply existsb_exists in H as (e & He & Heq). apply Z.eqb_eq in Heq. subst e.
    apply in_map_iff in He as ([d' v] & Hd' & Hin). simpl in Hd'. subst d'.
    apply find_none with (x := (d, v)) in E; auto. simpl in E. rewrite Z.eqb_refl in E. discriminate.
Qed.

Lemma map_fst_filter_numbered (p : Z -> bool) (l : list Z) :
  map fst (filter (fun q => p (snd q)) (numbered 0 l)) =
  filter (fun d => p (nth (Z.to_nat d) l 0)) (zrange (Z.of_nat (length l))).
Proof.
  assert (forall k, map fst (filter (fun q => p (snd q)) (numbered (Z.of_nat k) l)) =
     map Z.of_nat (filter (fun d => p (nth (d - k) l 0)) (seq k (length l)))) as G.
  { induction l as [|a l IH]; intros k; simpl; auto.
    rewrite Nat.sub_diag.
    replace (Z.of_nat k + 1) with (Z.of_nat (S k)) by lia.
    assert (filter (fun d => p match (d - k)%nat with O => a | S m => nth m l 0 end) (seq (S k) (length l)) =
            filter (fun d => p (nth (d - S k) l 0)) (seq (S k) (length l))) as E.
    { apply filter_ext_in. intros d Hd. apply in_seq in Hd.
      replace (d - k)%nat with (S (d - S k)) by lia. reflexivity. }
    destruct (p a); simpl; [f_equal|]; rewrite IH, E; reflexivity. }
  specialize (G 0%nat). simpl in G. change (Z.of_nat 0) with 0 in G. rewrite G. unfold zrange. rewrite Nat2Z.id.
  generalize (seq 0 (length l)). induction l0 as [|d l0 IH]; simpl; auto.
  rewrite Nat2Z.id, Nat.sub_0_r. destruct (p (nth d l 0)); simpl; congruence.
Qed.

Lemma map_snd_filter_combine (p : Z -> bool) (l sizes : list Z) : length l = length sizes ->
  map snd (filter (fun q => p (fst q)) (combine l sizes)) =
  proj (filter (fun d => p (nth (Z.to_nat d) l 0)) (zrange (Z.of_nat (length l)))) sizes.
Proof.
  intros Hl. rewrite <- map_fst_filter_numbered. unfold proj. rewrite map_map.
  assert (forall k pre, length pre = k -> map snd (filter (fun q => p (fst q)) (combine l sizes)) =
    map (fun x => nth (Z.to_nat (fst x)) (pre ++ sizes) 0) (filter (fun q => p (snd q)) (numbered (Z.of_nat k) l))) as G.
  { revert sizes Hl. induction l as [|a l IH]; intros [|n ns] Hl k pre Hk; simpl in *; try lia; auto.
    replace (Z.of_nat k + 1) with (Z.of_nat (S k)) by lia.
    specialize (IH ns ltac:(lia) (S k) (pre ++ [n])). rewrite <- app_assoc in IH. simpl in IH.
    destruct (p a); simpl; [f_equal|].
    - rewrite Nat2Z.id, app_nth2 by lia. replace (k - length pre)%nat with 0%nat by lia. reflexivity.
    - apply IH. rewrite app_length. simpl. lia.
    - apply IH. rewrite app_length. simpl. lia. }
  apply (G 0%nat []). reflexivity.
Qed.

Lemma filter_length_partition {A} (p : A -> bool) l :
  (length (filter p l) + length (filter (fun x => negb (p x)) l) = length l)%nat.
Proof. induction l; simpl; auto. destruct (p a); simpl; lia. Qed.

Lemma free_dims_length sizes fixed : fixed_ok sizes fixed ->
  length (free_dims (Z.of_nat (length sizes)) fixed) = (length sizes - length fixed)%nat.
Proof.
  intros [Hn Hf]. unfold free_dims.
  pose proof (filter_length_partition (fun d => existsb (Z.eqb d) (map fst fixed)) (zrange (Z.of_nat (length sizes)))) as P.
  rewrite length_zrange in P.
  assert (length (filter (fun d => existsb (Z.eqb d) (map fst fixed)) (zrange (Z.of_nat (length sizes)))) = length fixed) as E.
  { rewrite <- (map_length fst fixed). apply Nat.le_antisymm.
    - apply NoDup_incl_length; [apply NoDup_filter, NoDup_zrange|].
      intros d Hd. apply filter_In in Hd as [_ Hd]. apply existsb_exists in Hd as (e & He & Heq).
      apply Z.eqb_eq in Heq. now subst.
    - apply NoDup_incl_length; auto. intros d Hd. apply filter_In. split.
      + apply in_map_iff in Hd as ([d' v] & <- & Hin). eapply Forall_forall in Hf; eauto. simpl in *.
        apply in_zrange. lia.
      + apply existsb_exists. exists d. split; auto. apply Z.eqb_refl. }
  lia.
Qed.

Lemma findex_new_ok sizes fixed : sizes <> [] -> fixed_ok sizes fixed ->
  exists full0, findex_new sizes fixed =
    Ok (FI full0 (free_dims (Z.of_nat (length sizes)) fixed) (proj (free_dims (Z.of_nat (length sizes)) fixed) sizes) false)
  /\ length full0 = length sizes
  /\ proj (free_dims (Z.of_nat (length sizes)) fixed) full0 = repeat 0 (length (free_dims (Z.of_nat (length sizes)) fixed))
  /\ forall d v, In (d, v) fixed -> nth (Z.to_nat d) full0 0 = v.
Proof.
  intros Hne Hfo. pose proof Hfo as [Hn Hf].
  assert (length fixed <= length sizes)%nat as Hle.
  { rewrite <- (map_length fst fixed). transitivity (length (zrange (Z.of_nat (length sizes)))).
    - apply NoDup_incl_length; auto. intros d Hd. apply in_map_iff in Hd as ([d' v] & <- & Hin).
      eapply Forall_forall in Hf; eauto. simpl in *. apply in_zrange. lia.
    - rewrite length_zrange. lia. }
  set (full := full_of (length sizes) fixed).
  assert (length full = length sizes) as Hlf by (unfold full, full_of; rewrite map_length, length_zrange; lia).
  set (free := free_dims (Z.of_nat (length sizes)) fixed).
  assert (filter (fun d => nth (Z.to_nat d) full 0 =? -1) (zrange (Z.of_nat (length full))) = free) as Efree.
  { unfold free, free_dims. rewrite Hlf. apply filter_ext_in. intros d Hd. apply in_zrange in Hd.
    now apply full_of_minus1. }
  assert (length free = (length sizes - length fixed)%nat) as Hlfree by now apply free_dims_length.
  exists (map (fun v => if v =? -1 then 0 else v) full).
  split; [|split; [|split]].
  - unfold findex_new. rewrite index_new_ok by auto. cbn [bind].
    destruct (Z.ltb_spec (Z.of_nat (length sizes) - Z.of_nat (length fixed)) 0); [lia|].
    rewrite set_fixed_ok; auto.
    2:{ eapply Forall_impl; [|exact Hf]. intros [d v]. tauto. }
    cbn [bind]. fold full.
    assert (length (filter (fun v => v =? -1) full) = length free) as Hcount.
    { rewrite <- Efree, <- (map_fst_filter_numbered (fun v => v =? -1)), map_length.
      generalize 0. clear. induction full as [|v l IH]; intros k; simpl; auto.
      destruct (v =? -1); simpl; rewrite (IH (k + 1)); auto. }
    rewrite find_free_ok by (auto; lia). cbn [bind].
    rewrite (map_fst_filter_numbered (fun v => v =? -1)), (map_snd_filter_combine (fun v => v =? -1)) by auto.
    rewrite Efree. rewrite proj_length, Hlfree.
    replace (Z.to_nat (Z.of_nat (length sizes) - Z.of_nat (length fixed)) - (length sizes - length fixed))%nat with 0%nat by lia.
    simpl. now rewrite app_nil_r.
  - rewrite map_length. auto.
  - unfold proj. assert (forall l : list Z, (forall d, In d l -> nth (Z.to_nat d) (map (fun v => if v =? -1 then 0 else v) full) 0 = 0) ->
       map (fun d => nth (Z.to_nat d) (map (fun v => if v =? -1 then 0 else v) full) 0) l = repeat 0 (length l)) as G.
    { induction l; simpl; intros H; auto. rewrite H, IHl; auto. }
    apply G. intros d Hd. unfold free, free_dims in Hd. apply filter_In in Hd as [Hd Hx].
    apply in_zrange in Hd. rewrite <- (full_of_minus1 sizes) in Hx by auto. fold full in Hx.
    change 0 with ((fun v => if v =? -1 then 0 else v) 0) at 2. rewrite map_nth. now rewrite Hx.
  - intros d v Hin. pose proof Hf as Hf'. eapply Forall_forall in Hf'; eauto. simpl in Hf'.
    change 0 with ((fun v => if v =? -1 then 0 else v) 0). rewrite map_nth.
    assert (nth (Z.to_nat d) full 0 = v) as ->.
    { unfold full, full_of.
      erewrite nth_error_nth; [|rewrite nth_error_map, nth_error_zrange by lia; reflexivity].
      destruct find as [[d' v']|] eqn:E.
      - apply find_some in E as [Hin' Heq]. simpl in Heq. apply Z.eqb_eq in Heq. subst d'.
        clear - Hn Hin Hin'. induction fixed as [|[a b] l IH]; simpl in *; [easy|].
        inversion Hn; subst. destruct Hin as [[= -> ->]|Hin], Hin' as [[= ->]|Hin']; auto.
        + exfalso. apply H1. apply in_map_iff. exists (d, v'). auto.
        + exfalso. apply H1. apply in_map_iff. exists (d, v). auto.
      - apply find_none with (x := (d, v)) in E; auto. simpl in E. rewrite Z.eqb_refl in E. discriminate. }
    destruct (Z.eqb_spec v (-1)); lia.
Qed.

Lemma free_dims_valid n fixed : valid_dims n (free_dims (Z.of_nat n) fixed).
Proof. apply Forall_forall. intros d Hd. apply filter_In in Hd as [Hd _]. now apply in_zrange. Qed.

Lemma free_dims_NoDup n fixed : NoDup (free_dims n fixed).
Proof. apply NoDup_filter, NoDup_zrange. Qed.

(** slicing keeps the entries of the indices agreeing with the fixed positions *)
Lemma slice_mk {T} sizes (f : list Z -> T) fixed :
  fits sizes -> fixed_ok sizes fixed -> fixed <> [] -> (length fixed < length sizes)%nat ->
  Z.of_nat (length sizes) < 2 ^ 64 -> fits (proj (free_dims (Z.of_nat (length sizes)) fixed) sizes) ->
  exists g, slice (mk sizes f) fixed = Ok (mk (proj (free_dims (Z.of_nat (length sizes)) fixed) sizes) g) /\
    forall i, index_in sizes i -> (forall d v, In (d, v) fixed -> nth (Z.to_nat d) i 0 = v) ->
      g (proj (free_dims (Z.of_nat (length sizes)) fixed) i) = f i.
Proof.
  intros Hfit Hfo Hne Hlt H64 Hff. pose proof Hfo as [Hn Hf].
  destruct (findex_new_ok sizes fixed (fits_ne _ Hfit) Hfo) as (full0 & Efx & Hl0 & H0 & Hfix).
  set (free := free_dims (Z.of_nat (length sizes)) fixed) in *.
  assert (length free = (length sizes - length fixed)%nat) as Hlfree by now apply free_dims_length.
  assert (valid_dims (length full0) free) as Hvf by (rewrite Hl0; apply free_dims_valid).
  assert (NoDup free) as Hnf by apply free_dims_NoDup.
  assert (forall k, (k < length sizes)%nat -> ~ In (Z.of_nat k) free -> In (Z.of_nat k) (map fst fixed)) as Hfree.
  { intros k Hk Hin. destruct (existsb (Z.eqb (Z.of_nat k)) (map fst fixed)) eqn:E.
    - apply existsb_exists in E as (e & He & Heq). apply Z.eqb_eq in Heq. now subst.
    - exfalso. apply Hin. unfold free, free_dims. apply filter_In. split; [apply in_zrange; lia|].
      now rewrite E. }
  clearbody free.
  exists (fun c => f (writes free c full0)). split.
  - unfold slice. rewrite sizes_mk.
    assert (forall l, Forall (fun '(d, v) => 0 <= d < Z.of_nat (length sizes) /\ 0 <= v < nth (Z.to_nat d) sizes 0) l ->
      foldM (fun '(d, v) (_ : unit) =>
      if Z.of_nat (length sizes) <=? u64 d then Throw (RuntimeError "dimension out of bounds in slice")
      else let* n := vec_get sizes d in
           if n <=? v then Throw (RuntimeError "index out of bounds in slice") else Ok tt) l tt = Ok tt) as ->; auto.
    { induction 1 as [|[d v] l [Hd Hv] _ IH]; simpl; auto. rewrite u64_id by lia.
      destruct (Z.leb_spec (Z.of_nat (length sizes)) d); [lia|].
      rewrite vec_get_ok with (d := 0) by auto. simpl.
      destruct (Z.leb_spec (nth (Z.to_nat d) sizes 0) v); [lia|]. simpl. auto. }
    cbn [bind]. destruct fixed as [|p0 fixed0] eqn:Efixed; [easy|]. rewrite <- Efixed in *.
    rewrite Efx. cbn [bind fi_freesizes]. rewrite nd_new_ok by auto. cbn [bind].
    rewrite findex_loop_gloop by (simpl; rewrite proj_length; auto).
    cbn [fi_free fi_freesizes fi_full fi_end].
    rewrite gloop_from; auto.
    + rewrite H0. replace (length free) with (length (proj free sizes)) at 1 by apply proj_length.
      rewrite rowmajor_zeros. cbn [Z.to_nat skipn].
      rewrite bind_assoc. cbn [bind].
      rewrite (foldM_ext _ (fun i s => nd_set s i (f (writes free i full0)))).
      * rewrite (fill_loop (proj free sizes) (fun i => f (writes free i full0))) by auto. reflexivity.
      * intros i s Hi. cbv beta. apply in_all_indices in Hi.
        pose proof (index_in_length _ _ Hi) as Hli. rewrite proj_length in Hli.
        rewrite mapM_vec_get_proj by now rewrite length_writes. cbn [bind].
        rewrite proj_writes by auto. rewrite nd_get_mk; auto.
        (* the full index is valid *)
        apply index_in_nth. split; [rewrite length_writes; lia|].
        intros k Hk.
        destruct (in_dec Z.eq_dec (Z.of_nat k) free) as [Hin|Hin].
        -- assert (forall fr c, length c = length fr -> In (Z.of_nat k) fr -> index_in (proj fr sizes) c ->
              proj fr (writes free i full0) = c -> 0 <= nth k (writes free i full0) 0 < nth k sizes 0) as Q.
           { induction fr as [|e fr IH]; intros c Hlc Hk' Hic Ep; simpl in *; [easy|].
             destruct c as [|c0 c]; [discriminate|]. injection Ep as Ep1 Ep2. inversion Hic; subst.
             destruct Hk' as [->|Hk']; [now rewrite Nat2Z.id in *|].
             eapply IH; [|exact Hk'|eassumption|reflexivity]. simpl in Hlc. lia. }
           apply (Q free i); auto. apply proj_writes; auto.
        -- rewrite nth_writes_other; auto.
           2:{ eapply Forall_impl; [|exact Hvf]. simpl. lia. }
           pose proof (Hfree k Hk Hin) as Hkf.
           apply in_map_iff in Hkf as ([d v] & Hd & Hdv). simpl in Hd. subst d.
           pose proof (Hfix _ _ Hdv) as E. rewrite Nat2Z.id in E. rewrite E.
           eapply Forall_forall in Hf; eauto. simpl in Hf. rewrite Nat2Z.id in Hf. tauto.
    + destruct free; simpl in *; [lia|congruence].
    + apply proj_length.
    + rewrite H0. replace (length free) with (length (proj free sizes)) by apply proj_length.
      apply index_in_zeros. auto.
    + rewrite H0. replace (length free) with (length (proj free sizes)) at 1 by apply proj_length.
      rewrite rowmajor_zeros, Z.sub_0_r. apply loop_fuel_prodZ. auto.
  - intros i Hi Hag. f_equal. apply nth_ext with (d := 0) (d' := 0).
    { rewrite length_writes, Hl0. symmetry. now apply index_in_length. }
    intros k Hk. rewrite length_writes, Hl0 in Hk.
    destruct (in_dec Z.eq_dec (Z.of_nat k) free) as [Hin|Hin].
    + assert (forall l1 l2 : list Z, proj free l1 = proj free l2 -> nth k l1 0 = nth k l2 0) as Q.
      { intros l1 l2 E. unfold proj in E. clear - Hin E. induction free as [|d ds IH]; simpl in *; [easy|].
        injection E as E1 E2. destruct Hin as [->|Hin]; auto. now rewrite Nat2Z.id in E1. }
      apply Q. rewrite proj_writes; auto. now rewrite proj_length.
    + rewrite nth_writes_other; auto.
      2:{ eapply Forall_impl; [|exact Hvf]. simpl. lia. }
      pose proof (Hfree k Hk Hin) as Hkf.
      apply in_map_iff in Hkf as ([d v] & Hd & Hdv). simpl in Hd. subst d.
      pose proof (Hfix _ _ Hdv) as E1. pose proof (Hag _ _ Hdv) as E2. rewrite Nat2Z.id in *. congruence.
Qed.

(** * flatten *)

(** the rows of the table flatten should produce *)
Definition expand (sizes : list Z) (f : list Z -> Z) : list (list Z) :=
  flat_map (fun i => repeat i (Z.to_nat (f i))) (all_indices sizes).

Definition column (off : Z) (j : nat) (rows : list (list Z)) : list Z := map (fun r => off + nth j r 0) rows.

(** columns while [rows] have been written and [pop] rows allocated *)
Definition cols_of (off : Z) (dim pop : nat) (rows : list (list Z)) : list (list Z) :=
  map (fun j => column off j rows ++ repeat 0 (pop - length rows)) (seq 0 dim).

Lemma write_row_gen off p (i : list Z) pre rest k :
  length pre = k -> length i = length rest ->
  Forall (fun col => 0 <= p < Z.of_nat (length col)) rest -> Forall (fun v => in_i32 (off + v) = true) i ->
  foldM (fun '(j, v) l =>
           let* col := vec_get l j in
           let* w := i32 (off + v) in
           let* col' := vec_set col p w in
           vec_set l j col') (numbered (Z.of_nat k) i) (pre ++ rest) =
  Ok (pre ++ map (fun '(v, col) => upd col (Z.to_nat p) (off + v)) (combine i rest)).
Proof.
  revert pre rest k. induction i as [|v i IH]; intros pre [|col rest] k Hk Hl Hp Hv; simpl in *; try lia; auto.
  inversion Hp; subst. inversion Hv; subst.
  rewrite vec_get_ok with (d := []) by (rewrite app_length; simpl; lia). cbn [bind].
  rewrite Nat2Z.id, app_nth2 by lia. rewrite Nat.sub_diag. simpl.
  unfold i32. rewrite H3. simpl. rewrite vec_set_ok by auto. simpl.
  rewrite vec_set_ok by (rewrite app_length; simpl; lia). cbn [bind].
  rewrite Nat2Z.id.
  assert (forall (pre : list (list Z)) x y r, upd (pre ++ x :: r) (length pre) y = (pre ++ [y]) ++ r) as E.
  { clear. induction pre; simpl; intros; auto. now rewrite IHpre. }
  rewrite E. replace (Z.of_nat (length pre) + 1) with (Z.of_nat (S (length pre))) by lia.
  rewrite IH; auto; [|rewrite app_length; simpl; lia].
  now rewrite <- app_assoc.
Qed.

Lemma write_row off dim pop rows i : length i = dim -> (length rows < pop)%nat ->
  Forall (fun v => in_i32 (off + v) = true) i ->
  foldM (fun '(j, v) l =>
           let* col := vec_get l j in
           let* w := i32 (off + v) in
           let* col' := vec_set col (Z.of_nat (length rows)) w in
           vec_set l j col') (numbered 0 i) (cols_of off dim pop rows) =
  Ok (cols_of off dim pop (rows ++ [i])).
Proof.
  intros Hi Hp Hv. change 0 with (Z.of_nat 0).
  change (cols_of off dim pop rows) with ([] ++ cols_of off dim pop rows) at 1.
  rewrite write_row_gen; auto.
  - simpl. f_equal. unfold cols_of.
    rewrite app_length. simpl.
    assert (forall k, map (fun '(v, col) => upd col (Z.to_nat (Z.of_nat (length rows))) (off + v))
       (combine i (map (fun j => column off j rows ++ repeat 0 (pop - length rows)) (seq k (length i)))) =
       map (fun j => map (fun r => off + nth j r 0) rows ++ [off + nth (j - k) i 0] ++ repeat 0 (pop - (length rows + 1))) (seq k (length i))) as G.
    { clear Hv Hi. induction i as [|v i IH]; intros k; simpl; auto. f_equal.
      - rewrite Nat2Z.id, Nat.sub_diag. simpl.
        replace (pop - length rows)%nat with (S (pop - (length rows + 1))) by lia. simpl.
        unfold column. rewrite <- (map_length (fun r => off + nth k r 0) rows) at 2.
        generalize (map (fun r => off + nth k r 0) rows). clear. induction l; simpl; congruence.
      - rewrite IH. apply map_ext_in. intros j Hj. apply in_seq in Hj.
        replace (j - k)%nat with (S (j - S k)) by lia. reflexivity. }
    rewrite <- Hi. rewrite G. apply map_ext. intros j. unfold column. rewrite map_app. simpl.
    rewrite <- app_assoc. rewrite Nat.sub_0_r. reflexivity.
  - unfold cols_of. rewrite map_length, seq_length. auto.
  - apply Forall_forall. intros col Hc. apply in_map_iff in Hc as (j & <- & _).
    rewrite app_length, repeat_length. unfold column. rewrite map_length. lia.
Qed.

Lemma length_expand_app l (f : list Z -> Z) :
  (forall i, In i l -> 0 <= f i) ->
  Z.of_nat (length (flat_map (fun i => repeat i (Z.to_nat (f i))) l)) = sumZ (map f l).
Proof.
  induction l as [|i l IH]; simpl; intros H; auto. rewrite app_length, repeat_length.
  pose proof (H i (or_introl eq_refl)). specialize (IH ltac:(auto)). lia.
Qed.

Lemma listify_mk sizes f off : fits sizes -> (forall i, index_in sizes i -> 0 <= f i) ->
  (forall i, index_in sizes i -> Forall (fun v => in_i32 (off + v) = true) i) ->
  total sizes f < 2 ^ 61 ->
  listify (total sizes f) (mk sizes f) off =
  Ok (map (fun j => column off j (expand sizes f)) (seq 0 (length sizes))).
Proof.
  intros Hf Hn Hi Ht.
  assert (0 <= total sizes f) as Ht0.
  { apply sumZ_nonneg. intros x Hx. apply in_map_iff in Hx as (i & <- & Hx). apply Hn. now apply in_all_indices. }
  unfold listify. rewrite u64_id by lia. destruct (Z.leb_spec (2 ^ 61) (total sizes f)); [lia|].
  rewrite sizes_mk. rewrite index_loop_spec by auto.
  set (pop := Z.to_nat (total sizes f)).
  assert (repeat (repeat 0 pop) (length sizes) = cols_of off (length sizes) pop []) as ->.
  { unfold cols_of. simpl. rewrite Nat.sub_0_r.
    rewrite <- (seq_length (length sizes) 0) at 1. generalize (seq 0 (length sizes)).
    induction l; simpl; congruence. }
  assert (forall l rows, (forall i, In i l -> index_in sizes i) ->
    Z.of_nat (length rows) + sumZ (map f l) <= Z.of_nat pop ->
    foldM (fun i st =>
         let* x := nd_get (mk sizes f) i in
         foldM (fun _ '(l, p) =>
                  let* l' := foldM (fun '(j, v) l =>
                                      let* col := vec_get l j in
                                      let* w := i32 (off + v) in
                                      let* col' := vec_set col p w in
                                      vec_set l j col') (numbered 0 i) l in
                  Ok (l', p + 1))
               (repeat tt (Z.to_nat x)) st) l (cols_of off (length sizes) pop rows, Z.of_nat (length rows)) =
    let rows' := rows ++ flat_map (fun i => repeat i (Z.to_nat (f i))) l in
    Ok (cols_of off (length sizes) pop rows', Z.of_nat (length rows'))) as G.
  { induction l as [|i l IH]; intros rows Hl Hb; cbn [foldM flat_map].
    - cbv zeta. now rewrite app_nil_r.
    - assert (index_in sizes i) as Hii by auto with datatypes.
      rewrite nd_get_mk by auto. cbn [bind].
      assert (0 <= sumZ (map f l)) as Hs.
      { apply sumZ_nonneg. intros x Hx. apply in_map_iff in Hx as (j & <- & Hx). apply Hn. auto with datatypes. }
      cbn [map sumZ fold_right] in Hb. fold (sumZ (map f l)) in Hb.
      assert (forall n rows, Z.of_nat (length rows) + Z.of_nat n <= Z.of_nat pop ->
        foldM (fun _ '(l, p) =>
                  let* l' := foldM (fun '(j, v) l =>
                                      let* col := vec_get l j in
                                      let* w := i32 (off + v) in
                                      let* col' := vec_set col p w in
                                      vec_set l j col') (numbered 0 i) l in
                  Ok (l', p + 1))
               (repeat tt n) (cols_of off (length sizes) pop rows, Z.of_nat (length rows)) =
        let rows' := rows ++ repeat i n in
        Ok (cols_of off (length sizes) pop rows', Z.of_nat (length rows'))) as K.
      { induction n as [|n IHn]; intros rows0 Hr; cbn [repeat foldM].
        - cbv zeta. now rewrite app_nil_r.
        - rewrite write_row; [|now apply index_in_length|lia|auto]. cbn [bind].
          replace (Z.of_nat (length rows0) + 1) with (Z.of_nat (length (rows0 ++ [i]))) by (rewrite app_length; simpl; lia).
          rewrite IHn by (rewrite app_length; simpl; lia). cbv zeta. now rewrite <- app_assoc. }
      assert (0 <= f i) by auto.
      rewrite K by lia. cbv zeta. cbn [bind]. rewrite IH; auto with datatypes.
      + cbv zeta. now rewrite <- app_assoc.
      + rewrite app_length, repeat_length. lia. }
  specialize (G (all_indices sizes) []). change (Z.of_nat (length (@nil (list Z)))) with 0 in G.
  rewrite G.
  - cbv zeta. cbn [bind app]. fold (expand sizes f). f_equal. unfold cols_of. apply map_ext. intros j.
    assert (Z.of_nat (length (expand sizes f)) = total sizes f) as E.
    { apply length_expand_app. intros i Hi'. apply Hn. now apply in_all_indices. }
    replace (pop - length (expand sizes f))%nat with 0%nat by (unfold pop; lia). simpl. apply app_nil_r.
  - intros. now apply in_all_indices.
  - simpl. fold (total sizes f). unfold pop. change (sumZ (map f (all_indices sizes))) with (total sizes f). lia.
Qed.

Lemma pop_loop sizes f : fits sizes -> (forall i, index_in sizes i -> 0 <= f i) -> total sizes f < 2 ^ 64 ->
  index_loop sizes (fun i p => let* x := nd_get (mk sizes f) i in Ok (u64 (p + x))) 0 = Ok (total sizes f).
Proof.
  intros Hf Hn Ht. rewrite index_loop_spec by auto.
  assert (forall l acc, (forall i, In i l -> index_in sizes i) -> 0 <= acc -> acc + sumZ (map f l) < 2 ^ 64 ->
    foldM (fun i p => let* x := nd_get (mk sizes f) i in Ok (u64 (p + x))) l acc = Ok (acc + sumZ (map f l))) as G.
  { induction l as [|i l IH]; intros acc Hl Ha Hb; simpl in *; [f_equal; lia|].
    rewrite nd_get_mk by auto. simpl. assert (0 <= f i) by auto.
    assert (0 <= sumZ (map f l)) as Hs.
    { apply sumZ_nonneg. intros x Hx. apply in_map_iff in Hx as (j & <- & Hx). apply Hn. auto. }
    rewrite u64_id by lia. rewrite IH; auto; try lia. f_equal. lia. }
  rewrite G; auto; try lia. 
  intros; now apply in_all_indices.
Qed.

Lemma flatten_ok (a : ndarray Z) : wf_array a -> prodZ (shape a) < 2 ^ 60 ->
  Forall (fun n => n <= 2 ^ 31) (shape a) ->
  (forall i, index_in (shape a) i -> 0 <= entry 0 a i) ->
  total (shape a) (entry 0 a) < 2 ^ 61 ->
  flatten a = Ok (map (fun j => column 0 j (expand (shape a) (entry 0 a))) (seq 0 (length (shape a)))).
Proof.
  intros Hw Hb Hs Hn Ht. pose proof (wf_fits a Hw Hb) as Hf. unfold flatten.
  rewrite (as_nd_ok 0) by auto. cbn [bind]. rewrite sizes_mk, pop_loop by (auto; lia). cbn [bind].
  apply listify_mk; auto. intros i Hi. clear - Hi Hs.
  induction Hi; constructor; inversion Hs; subst; auto.
  unfold in_i32. apply andb_true_intro. split; [apply Z.leb_le|apply Z.ltb_lt]; lia.
Qed.

(** * Properties of the expansion *)

Lemma count_occ_expand (dec : forall x y : list Z, {x = y} + {x <> y}) sizes f i : index_in sizes i ->
  count_occ dec (expand sizes f) i = Z.to_nat (f i).
Proof.
  intros Hi. unfold expand.
  assert (forall l, NoDup l -> count_occ dec (flat_map (fun i => repeat i (Z.to_nat (f i))) l) i =
     if in_dec dec i l then Z.to_nat (f i) else 0%nat) as G.
  { induction 1 as [|j l Hj Hl IH]; simpl; auto. rewrite count_occ_app, IH.
    assert (forall n, count_occ dec (repeat j n) i = if dec j i then n else 0%nat) as E.
    { induction n; simpl; [now destruct dec|]. destruct (dec j i); lia. }
    rewrite E. destruct (dec j i) as [->|Hji]; destruct (in_dec dec i l); simpl; try tauto; lia. }
  rewrite G by apply NoDup_all_indices. destruct in_dec; auto. exfalso. apply n. now apply in_all_indices.
Qed.

Lemma lex_le_refl a : lex_le a a.
Proof. induction a; simpl; auto. Qed.

Lemma in_expand sizes f i : In i (expand sizes f) -> index_in sizes i.
Proof.
  unfold expand. intros H. apply in_flat_map in H as (j & Hj & Hr). apply repeat_spec in Hr. subst.
  now apply in_all_indices.
Qed.

Lemma sorted_all_indices sizes : StronglySorted lex_le (all_indices sizes).
Proof.
  induction sizes as [|n ns IH]; simpl.
  - constructor; constructor.
  - unfold zrange. generalize (Z.to_nat n). intros k.
    assert (forall k s, StronglySorted lex_le (flat_map (fun i => map (cons i) (all_indices ns)) (map Z.of_nat (seq s k)))) as G.
    { clear k. induction k as [|k IHk]; intros s; simpl; [constructor|].
      assert (forall l l', StronglySorted lex_le l -> StronglySorted lex_le l' ->
        (forall x y, In x l -> In y l' -> lex_le x y) -> StronglySorted lex_le (l ++ l')) as A.
      { clear. induction 1; simpl; auto. intros Hl' Hx. constructor; auto.
        apply Forall_app. split; auto. apply Forall_forall. auto. }
      apply A; auto.
      - clear - IH. induction IH as [|i l Hl IHl Hi]; simpl; constructor; auto.
        apply Forall_forall. intros x Hx. apply in_map_iff in Hx as (y & <- & Hy). simpl. right. split; auto.
        rewrite Forall_forall in Hi. auto.
      - intros x y Hx Hy. apply in_map_iff in Hx as (x' & <- & _).
        apply in_flat_map in Hy as (m & Hm & Hy). apply in_map_iff in Hy as (y' & <- & _).
        apply in_map_iff in Hm as (m' & <- & Hm). apply in_seq in Hm. simpl. left. lia. }
    apply G.
Qed.

Lemma sorted_expand sizes f : StronglySorted lex_le (expand sizes f).
Proof.
  unfold expand. induction (sorted_all_indices sizes) as [|i l Hl IH Hi]; simpl; [constructor|].
  induction (Z.to_nat (f i)) as [|k IHk]; simpl; auto. constructor; auto.
  apply Forall_app. split.
  - apply Forall_forall. intros x Hx. apply repeat_spec in Hx. subst. apply lex_le_refl.
  - apply Forall_forall. intros x Hx. apply in_flat_map in Hx as (j & Hj & Hx). apply repeat_spec in Hx. subst.
    rewrite Forall_forall in Hi. auto.
Qed.
