(** Arrays as functions from multi-indices to cells; correctness of the NDArray primitives and of the
    operations of ArrayOps.v. *)
From Verif Require Import Base Spec SpecFacts NDArray IndexProofs Float64 ArrayOps.

(** sizes for which an array of 8-byte elements can exist *)
Definition fits (sizes : list Z) : Prop := sizes <> [] /\ positive sizes /\ prodZ sizes < 2 ^ 60.

Lemma fits_ne s : fits s -> s <> []. Proof. now intros (?&_). Qed.
Lemma fits_pos s : fits s -> positive s. Proof. now intros (_&?&_). Qed.
Lemma fits_prod s : fits s -> 0 < prodZ s < 2 ^ 60.
Proof. intros (_&H&?). split; auto. now apply prodZ_pos. Qed.
#[global] Hint Resolve fits_ne fits_pos : core.

Notation strides := c_strides.

(** the array with the given sizes and (possibly uninitialised) cells *)
Definition mkp {T} (sizes : list Z) (f : list Z -> option T) : nd T :=
  ND sizes (strides sizes) (prodZ sizes) (map f (all_indices sizes)).
(** the fully initialised array *)
Definition mk {T} (sizes : list Z) (f : list Z -> T) : nd T := mkp sizes (fun i => Some (f i)).

Lemma mkp_ext {T} sizes (f g : list Z -> option T) :
  (forall i, index_in sizes i -> f i = g i) -> mkp sizes f = mkp sizes g.
Proof.
  intros H. unfold mkp. f_equal. apply map_ext_in. intros i Hi. apply H. now apply in_all_indices.
Qed.

Lemma mk_ext {T} sizes (f g : list Z -> T) :
  (forall i, index_in sizes i -> f i = g i) -> mk sizes f = mk sizes g.
Proof. intros H. apply mkp_ext. intros. now rewrite H. Qed.

Lemma mkp_inj {T} sizes (f g : list Z -> option T) :
  mkp sizes f = mkp sizes g -> forall i, index_in sizes i -> f i = g i.
Proof.
  intros E i Hi. injection E as E. apply in_all_indices in Hi.
  clear - E Hi. induction (all_indices sizes); simpl in *; [easy|]. injection E as E1 E2.
  destruct Hi as [->|Hi]; auto.
Qed.

Lemma mk_inj {T} sizes (f g : list Z -> T) :
  mk sizes f = mk sizes g -> forall i, index_in sizes i -> f i = g i.
Proof. intros E i Hi. apply (mkp_inj _ _ _ E) in Hi. congruence. Qed.

Lemma sizes_mkp {T} sizes (f : list Z -> option T) : nd_sizes (mkp sizes f) = sizes.
Proof. reflexivity. Qed.
Lemma sizes_mk {T} sizes (f : list Z -> T) : nd_sizes (mk sizes f) = sizes.
Proof. reflexivity. Qed.

Lemma u64_id z : 0 <= z < 2 ^ 64 -> u64 z = z.
Proof. intros. now apply Z.mod_small. Qed.
Lemma s64_id z : 0 <= z < 2 ^ 63 -> s64 z = z.
Proof.
  intros. unfold s64. rewrite u64_id by lia. destruct (Z.ltb_spec z (2 ^ 63)); lia.
Qed.

Lemma i64_ok z : - 2 ^ 63 <= z < 2 ^ 63 -> i64 z = Ok z.
Proof.
  intros. unfold i64, in_i64. destruct (Z.leb_spec (- 2 ^ 63) z); [|lia].
  destruct (Z.ltb_spec z (2 ^ 63)); [reflexivity|lia].
Qed.

Lemma i64_inv z r : i64 z = Ok r -> r = z /\ - 2 ^ 63 <= z < 2 ^ 63.
Proof.
  unfold i64, in_i64. destruct (Z.leb_spec (- 2 ^ 63) z); cbn [andb]; [|discriminate].
  destruct (Z.ltb_spec z (2 ^ 63)); [|discriminate]. intros [= <-]. lia.
Qed.

Lemma prodZ_ge_1 ns : positive ns -> 1 <= prodZ ns.
Proof. intros H. pose proof (prodZ_pos _ H). lia. Qed.

Lemma storage_size_ok sizes : sizes <> [] -> positive sizes -> prodZ sizes < 2 ^ 64 ->
  storage_size sizes = Ok (prodZ sizes).
Proof.
  intros Hne Hp Hb. destruct sizes as [|n ns]; [easy|]. simpl in *. f_equal.
  inversion Hp; subst.
  assert (forall acc, 0 < acc -> acc * prodZ ns < 2 ^ 64 -> fold_left (fun acc n => u64 (acc * u64 n)) ns acc = acc * prodZ ns) as G.
  { clear - H2. induction H2 as [|m ms Hm Hms IH]; simpl; intros acc Ha Hb; [lia|].
    pose proof (prodZ_ge_1 _ Hms).
    assert (1 <= acc * prodZ ms) by nia. assert (1 <= acc * m) by nia.
    assert (acc * (m * prodZ ms) = (acc * prodZ ms) * m) as E1 by ring.
    assert (acc * (m * prodZ ms) = (acc * m) * prodZ ms) as E2 by ring.
    assert (m <= (acc * prodZ ms) * m) by nia.
    assert (acc * m <= (acc * m) * prodZ ms) by nia.
    rewrite (u64_id m) by lia. rewrite u64_id by lia. rewrite IH; lia. }
  pose proof (prodZ_ge_1 _ H2). rewrite u64_id by nia. apply G; auto.
Qed.

Lemma compute_offs_ok sizes : positive sizes -> prodZ sizes < 2 ^ 63 ->
  compute_offs (prodZ sizes) sizes = Ok (strides sizes).
Proof.
  induction 1 as [|n ns Hn Hns IH]; simpl; auto. intros Hb.
  pose proof (prodZ_ge_1 _ Hns).
  rewrite u64_id by nia. destruct (Z.eqb_spec n 0); [lia|].
  rewrite (Z.mul_comm n (prodZ ns)), Z.div_mul by lia.
  rewrite IH by nia. simpl. rewrite s64_id by nia. reflexivity.
Qed.

Lemma repeat_map_all {T} sizes (v : T) : positive sizes ->
  repeat v (Z.to_nat (prodZ sizes)) = map (fun _ => v) (all_indices sizes).
Proof.
  intros Hp. rewrite <- (length_all_indices sizes) by now apply positive_nonneg.
  rewrite Nat2Z.id. induction (all_indices sizes); simpl; congruence.
Qed.

Lemma nd_resize_grow {T} (a : nd T) sizes : fits sizes -> nd_storage a < prodZ sizes ->
  nd_resize a sizes = Ok (mkp sizes (fun _ => None)).
Proof.
  intros Hf Hg. pose proof (fits_prod _ Hf). unfold nd_resize.
  rewrite storage_size_ok by (auto; lia). simpl.
  destruct (Z.ltb_spec (nd_storage a) (prodZ sizes)); [|lia].
  unfold allocate. destruct (Z.ltb_spec (prodZ sizes) (2 ^ 60)); [|lia]. simpl.
  rewrite compute_offs_ok by (auto; lia). simpl. unfold mkp. rewrite repeat_map_all by auto. reflexivity.
Qed.

Lemma nd_new_ok {T} sizes : fits sizes -> nd_new (T := T) sizes = Ok (mkp sizes (fun _ => None)).
Proof. intros Hf. apply nd_resize_grow; auto. pose proof (fits_prod _ Hf). simpl. lia. Qed.

Lemma nd_resize_same {T} (f : list Z -> option T) sizes : fits sizes ->
  nd_resize (mkp sizes f) sizes = Ok (mkp sizes f).
Proof.
  intros Hf. pose proof (fits_prod _ Hf). unfold nd_resize.
  rewrite storage_size_ok by (auto; lia). simpl. rewrite Z.ltb_irrefl. simpl.
  rewrite compute_offs_ok by (auto; lia). reflexivity.
Qed.

Lemma offset_from_ok sizes idx acc : index_in sizes idx -> 0 <= acc -> acc + prodZ sizes <= 2 ^ 63 ->
  offset_from acc (strides sizes) idx = Ok (acc + rowmajor sizes idx).
Proof.
  intros Hi. revert acc. induction Hi as [|n i ns is Hi His IH]; simpl; intros acc Ha Hb.
  - f_equal. lia.
  - pose proof (rowmajor_bound _ _ His).
    rewrite i64_ok by nia. simpl. rewrite (Z.mul_comm (prodZ ns) i). rewrite u64_id by nia.
    rewrite IH by nia. f_equal. ring.
Qed.

Lemma nd_offset_ok {T} sizes (f : list Z -> option T) idx : fits sizes -> index_in sizes idx ->
  nd_offset (mkp sizes f) idx = Ok (rowmajor sizes idx).
Proof.
  intros Hf Hi. pose proof (fits_prod _ Hf). unfold nd_offset. simpl.
  rewrite offset_from_ok; auto; lia.
Qed.

Lemma nd_get_mkp {T} sizes (f : list Z -> option T) idx v : fits sizes -> index_in sizes idx ->
  f idx = Some v -> nd_get (mkp sizes f) idx = Ok v.
Proof.
  intros Hf Hi Hv. unfold nd_get. rewrite nd_offset_ok by auto. simpl.
  rewrite nth_error_map, nth_error_all_indices by auto. simpl. now rewrite Hv.
Qed.

Lemma nd_get_mk {T} sizes (f : list Z -> T) idx : fits sizes -> index_in sizes idx ->
  nd_get (mk sizes f) idx = Ok (f idx).
Proof. intros. apply nd_get_mkp; auto. Qed.

Definition fupd {A} (f : list Z -> A) (idx : list Z) (v : A) : list Z -> A :=
  fun i => if idx_eqb i idx then v else f i.

Lemma upd_map {A B} (f : A -> B) (g : A -> B) l k a : NoDup l -> nth_error l k = Some a ->
  (forall x, In x l -> x <> a -> g x = f x) -> upd (map f l) k (g a) = map g l.
Proof.
  intros Hn. revert k. induction Hn as [|x l Hx Hl IH]; intros [|k] Hk Hg; simpl in *; try discriminate.
  - injection Hk as ->. f_equal. apply map_ext_in. intros y Hy. symmetry. apply Hg; auto. congruence.
  - f_equal.
    + symmetry. apply Hg; auto. intros ->. apply Hx. eapply nth_error_In; eauto.
    + apply IH; auto.
Qed.

Lemma nd_set_mkp {T} sizes (f : list Z -> option T) idx v : fits sizes -> index_in sizes idx ->
  nd_set (mkp sizes f) idx v = Ok (mkp sizes (fupd f idx (Some v))).
Proof.
  intros Hf Hi. unfold nd_set. rewrite nd_offset_ok by auto. simpl.
  rewrite map_length, length_all_indices by (apply positive_nonneg; auto).
  pose proof (rowmajor_bound _ _ Hi).
  destruct (Z.ltb_spec (rowmajor sizes idx) (prodZ sizes)); [|lia].
  unfold mkp. do 2 f_equal.
  set (g := fupd f idx (Some v)).
  assert (Some v = g idx) as -> by (unfold g, fupd; now rewrite idx_eqb_refl).
  apply upd_map.
  - apply NoDup_all_indices.
  - now apply nth_error_all_indices.
  - intros x _ Hx. unfold g, fupd. destruct (idx_eqb x idx) eqn:E; auto. apply idx_eqb_true in E. congruence.
Qed.

Lemma nd_set_mk {T} sizes (f : list Z -> T) idx v : fits sizes -> index_in sizes idx ->
  nd_set (mk sizes f) idx v = Ok (mk sizes (fupd f idx v)).
Proof.
  intros. unfold mk. rewrite nd_set_mkp by auto. f_equal. apply mkp_ext. intros i _.
  unfold fupd. now destruct (idx_eqb i idx).
Qed.

Lemma nd_assign_mkp {T} sizes (f : list Z -> option T) v : fits sizes ->
  nd_assign (mkp sizes f) v = Ok (mk sizes (fun _ => v)).
Proof.
  intros Hf. unfold nd_assign. simpl.
  rewrite map_length, length_all_indices by (apply positive_nonneg; auto). rewrite Z.leb_refl.
  unfold mk, mkp. rewrite repeat_map_all by auto.
  rewrite skipn_all2.
  - now rewrite app_nil_r.
  - rewrite map_length. pose proof (length_all_indices sizes). specialize (H (positive_nonneg _ (fits_pos _ Hf))). lia.
Qed.

Lemma nd_values_mk {T} sizes (f : list Z -> T) : positive sizes ->
  nd_values (mk sizes f) = Ok (map f (all_indices sizes)).
Proof.
  intros Hp. unfold nd_values. simpl.
  pose proof (length_all_indices sizes (positive_nonneg _ Hp)) as Hl.
  rewrite map_length, Hl, Z.leb_refl. rewrite firstn_all2 by (rewrite map_length; lia).
  clear. induction (all_indices sizes); simpl; auto. now rewrite IHl.
Qed.

Lemma nd_copy_mk {T} sizes (f : list Z -> T) : fits sizes -> nd_copy (mk sizes f) nd_empty = Ok (mk sizes f).
Proof.
  intros Hf. unfold nd_copy. rewrite sizes_mk.
  pose proof (fits_prod _ Hf). rewrite nd_resize_grow by (auto; simpl; lia). simpl.
  rewrite nd_values_mk by auto. simpl.
  rewrite !map_length, Z.leb_refl. rewrite skipn_all2 by (rewrite !map_length; lia).
  rewrite app_nil_r, map_map. reflexivity.
Qed.

(** * Sums *)

Lemma vec_sum_int_from l acc : (forall x, In x l -> 0 <= x) -> 0 <= acc -> acc + sumZ l < 2 ^ 63 ->
  foldM (fun x a => n_add IntOps a x) l acc = Ok (acc + sumZ l).
Proof.
  revert acc. induction l as [|x l IH]; simpl; intros acc Hn Ha Hb; [f_equal; lia|].
  assert (0 <= x) by auto. assert (0 <= sumZ l) by (apply sumZ_nonneg; auto).
  rewrite i64_ok by lia. simpl. rewrite IH; auto; try lia. f_equal. lia.
Qed.

Lemma vec_sum_int l : (forall x, In x l -> 0 <= x) -> sumZ l < 2 ^ 63 -> vec_sum IntOps l = Ok (sumZ l).
Proof. intros. unfold vec_sum. rewrite vec_sum_int_from; auto; simpl; lia. Qed.

(** without overflow the sum is exact, whatever the signs *)
Lemma vec_sum_int_inv l r : vec_sum IntOps l = Ok r -> r = sumZ l.
Proof.
  unfold vec_sum. simpl. replace (sumZ l) with (0 + sumZ l) by lia. generalize 0.
  induction l as [|x l IH]; simpl; intros acc.
  - intros [= <-]. lia.
  - destruct (i64 (acc + x)) as [y| | |] eqn:E; simpl; try discriminate.
    apply i64_inv in E as [-> _]. intros H. apply IH in H. lia.
Qed.

(** the same with signs, when the absolute values do not overflow *)
Lemma vec_sum_int_abs l : sumZ (map Z.abs l) < 2 ^ 63 -> vec_sum IntOps l = Ok (sumZ l).
Proof.
  intros H. unfold vec_sum.
  assert (forall l acc, Z.abs acc + sumZ (map Z.abs l) < 2 ^ 63 ->
    foldM (fun x a => n_add IntOps a x) l acc = Ok (acc + sumZ l)) as G.
  { clear. induction l as [|x l IH]; simpl; intros acc H; [f_equal; lia|].
    assert (0 <= sumZ (map Z.abs l)) by (apply sumZ_nonneg; intros y Hy; apply in_map_iff in Hy as (z & <- & _); lia).
    rewrite i64_ok by lia. simpl. rewrite IH by lia. f_equal. lia. }
  rewrite G by (simpl; lia). f_equal.
Qed.

Lemma nd_sum_mk {T} (O : NumOps T) sizes f : positive sizes ->
  nd_sum O (mk sizes f) = vec_sum O (map f (all_indices sizes)).
Proof. intros. unfold nd_sum. now rewrite nd_values_mk. Qed.

Lemma index_in_valid_proj {sizes dims i} : valid_dims (length sizes) dims -> index_in sizes i ->
  index_in (proj dims sizes) (proj dims i).
Proof. intros Hv Hi. apply index_in_proj; auto. Qed.

Lemma mapM_vec_get_proj dims l : valid_dims (length l) dims -> mapM (vec_get l) dims = Ok (proj dims l).
Proof.
  intros Hv. unfold proj. apply mapM_ok. intros d Hd. eapply Forall_forall in Hv; eauto.
  now apply vec_get_ok.
Qed.

Lemma mindex_new_ok sizes dims : valid_dims (length sizes) dims ->
  mindex_new (IX (repeat 0 (length sizes)) sizes false) dims = Ok (MI dims (proj dims sizes) false).
Proof.
  intros Hv. unfold mindex_new. simpl. rewrite mapM_vec_get_proj by auto. simpl.
  rewrite mapM_vec_get_proj by now rewrite repeat_length. reflexivity.
Qed.

Lemma mindex_read_ok dims szs e main : valid_dims (length main) dims ->
  mindex_read (MI dims szs e) main = Ok (proj dims main).
Proof. intros. unfold mindex_read. simpl. now rewrite mapM_vec_get_proj. Qed.

Lemma index_new_ok sizes : sizes <> [] -> index_new sizes = Ok (IX (repeat 0 (length sizes)) sizes false).
Proof. now destruct sizes. Qed.

(** reduce adds up, in row-major order, the cells projecting on each cell of the result *)
Lemma reduce_mk {T} (O : NumOps T) sizes f dims g : fits sizes -> fits (proj dims sizes) ->
  valid_dims (length sizes) dims ->
  (forall c, index_in (proj dims sizes) c ->
     vec_sum O (map f (filter (fun i => idx_eqb (proj dims i) c) (all_indices sizes))) = Ok (g c)) ->
  reduce O (mk sizes f) dims = Ok (mk (proj dims sizes) g).
Proof.
  intros Hf Hfr Hv Hg. unfold reduce. rewrite sizes_mk, mapM_vec_get_proj by auto. simpl.
  rewrite nd_new_ok by auto. simpl. rewrite nd_assign_mkp by auto. simpl.
  rewrite index_new_ok by auto. simpl. rewrite mindex_new_ok by auto. cbn [bind].
  rewrite index_loop_spec by auto.
  unfold vec_sum in Hg.
  assert (forall l h, (forall i, In i l -> index_in sizes i) ->
    (forall c, index_in (proj dims sizes) c ->
       foldM (fun x acc => n_add O acc x) (map f (filter (fun i => idx_eqb (proj dims i) c) l)) (h c) = Ok (g c)) ->
    foldM (fun i r =>
       let* k := mindex_read (MI dims (proj dims sizes) false) i in
       let* x := nd_get (mk sizes f) i in
       let* s := nd_get r k in
       let* s' := n_add O s x in
       nd_set r k s') l (mk (proj dims sizes) h) = Ok (mk (proj dims sizes) g)) as G.
  { induction l as [|i l IH]; simpl; intros h Hl Hs.
    - f_equal. apply mk_ext. intros c Hc. specialize (Hs c Hc). congruence.
    - assert (index_in sizes i) as Hi by auto.
      rewrite mindex_read_ok by (now rewrite (index_in_length _ _ Hi)). cbn [bind].
      rewrite nd_get_mk by auto. cbn [bind].
      pose proof (index_in_valid_proj Hv Hi) as Hp.
      rewrite nd_get_mk by auto. cbn [bind].
      pose proof (Hs _ Hp) as Hsp. rewrite idx_eqb_refl in Hsp. simpl in Hsp.
      destruct (n_add O (h (proj dims i)) (f i)) as [s'| | |] eqn:E; simpl in Hsp; try discriminate.
      cbn [bind]. rewrite nd_set_mk by auto. cbn [bind]. apply IH; auto.
      intros c Hc. unfold fupd. destruct (idx_eqb c (proj dims i)) eqn:Ec.
      + apply idx_eqb_true in Ec. subst c. auto.
      + specialize (Hs c Hc). rewrite idx_eqb_sym, Ec in Hs. auto. }
  apply G; [intros; now apply in_all_indices|]. auto.
Qed.

(** reduce of non-negative counts with representable total *)
Lemma sum_filter_le {A} (p : A -> bool) f l : (forall x, In x l -> 0 <= f x) -> sumZ (map f (filter p l)) <= sumZ (map f l).
Proof.
  induction l as [|a l IH]; simpl; intros H; [lia|]. pose proof (H a (or_introl eq_refl)).
  specialize (IH ltac:(auto)). destruct (p a); simpl; lia.
Qed.

Lemma reduce_int_abs sizes f dims : fits sizes -> fits (proj dims sizes) -> valid_dims (length sizes) dims ->
  total sizes (fun i => Z.abs (f i)) < 2 ^ 63 ->
  reduce IntOps (mk sizes f) dims = Ok (mk (proj dims sizes) (fun c => margin sizes dims c f)).
Proof.
  intros Hf Hfr Hv Ht. apply reduce_mk; auto. intros c Hc. unfold margin, sum_where.
  apply vec_sum_int_abs. rewrite map_map.
  eapply Z.le_lt_trans; [|exact Ht]. apply sum_filter_le. intros. lia.
Qed.

(** summing a marginal gives the total *)
Lemma total_margin sizes dims f : valid_dims (length sizes) dims ->
  total (proj dims sizes) (fun c => margin sizes dims c f) = total sizes f.
Proof.
  intros Hv. unfold total, margin, sum_where.
  rewrite <- (sum_group (list_eq_dec Z.eq_dec) (proj dims) f (all_indices sizes) (all_indices (proj dims sizes))).
  - f_equal. apply map_ext. intros c. rewrite sum_filter. f_equal. apply map_ext. intros i.
    unfold idx_eqb. destruct (list_eq_dec Z.eq_dec (proj dims i) c); destruct (list_eq_dec Z.eq_dec c (proj dims i)); congruence.
  - apply NoDup_all_indices.
  - intros i Hi. apply in_all_indices. apply in_all_indices in Hi. now apply index_in_proj.
Qed.

Lemma reduce_int sizes f dims : fits sizes -> fits (proj dims sizes) -> valid_dims (length sizes) dims ->
  (forall i, index_in sizes i -> 0 <= f i) -> total sizes f < 2 ^ 63 ->
  reduce IntOps (mk sizes f) dims = Ok (mk (proj dims sizes) (fun c => margin sizes dims c f)).
Proof.
  intros Hf Hfr Hv Hn Ht. apply reduce_mk; auto. intros c Hc. unfold margin, sum_where.
  apply vec_sum_int.
  - intros x Hx. apply in_map_iff in Hx as (i & <- & Hi). apply filter_In in Hi as [Hi _].
    apply Hn. now apply in_all_indices.
  - eapply Z.le_lt_trans; [|exact Ht]. apply sum_filter_le. intros i Hi. apply Hn. now apply in_all_indices.
Qed.

(** the vector version of reduce *)
Lemma reduce1_mk {T} (O : NumOps T) sizes f d g : fits sizes -> 0 <= d < Z.of_nat (length sizes) ->
  (forall k, 0 <= k < nth (Z.to_nat d) sizes 0 ->
     vec_sum O (map f (filter (fun i => nth (Z.to_nat d) i 0 =? k) (all_indices sizes))) = Ok (g k)) ->
  d < 2 ^ 64 ->
  reduce1 O (mk sizes f) d = Ok (map g (zrange (nth (Z.to_nat d) sizes 0))).
Proof.
  intros Hf Hd Hg Hd64. unfold reduce1. rewrite sizes_mk, u64_id by lia.
  destruct (Z.ltb_spec d (Z.of_nat (length sizes))); [|lia]. cbn [negb].
  rewrite vec_get_ok with (d := 0) by auto. cbn [bind]. set (n := nth (Z.to_nat d) sizes 0) in *.
  rewrite index_loop_spec by auto.
  assert (forall i, index_in sizes i -> 0 <= nth (Z.to_nat d) i 0 < n) as Hin.
  { intros i Hi. pose proof (index_in_proj sizes [d] i Hi) as P.
    specialize (P (Forall_cons _ Hd (Forall_nil _))). inversion P; subst. auto. }
  unfold vec_sum in Hg.
  assert (forall l h, (forall i, In i l -> index_in sizes i) ->
    (forall k, 0 <= k < n ->
       foldM (fun x acc => n_add O acc x) (map f (filter (fun i => nth (Z.to_nat d) i 0 =? k) l)) (h k) = Ok (g k)) ->
    foldM (fun i sums =>
       let* k := vec_get i d in
       let* x := nd_get (mk sizes f) i in
       let* s := vec_get sums k in
       let* s' := n_add O s x in
       vec_set sums k s') l (map h (zrange n)) = Ok (map g (zrange n))) as G.
  { induction l as [|i l IH]; simpl; intros h Hl Hs.
    - f_equal. apply map_ext_in. intros k Hk. apply in_zrange in Hk. specialize (Hs k Hk). congruence.
    - assert (index_in sizes i) as Hi by auto. specialize (Hin i Hi).
      rewrite vec_get_ok with (d := 0) by now rewrite (index_in_length _ _ Hi).
      cbn [bind]. rewrite nd_get_mk by auto. cbn [bind].
      set (k := nth (Z.to_nat d) i 0) in *.
      assert (vec_get (map h (zrange n)) k = Ok (h k)) as ->.
      { unfold vec_get. destruct (Z.leb_spec 0 k); [|lia].
        now rewrite nth_error_map, nth_error_zrange. }
      cbn [bind]. pose proof (Hs k Hin) as Hsp. rewrite Z.eqb_refl in Hsp. simpl in Hsp.
      destruct (n_add O (h k) (f i)) as [s'| | |] eqn:E; simpl in Hsp; try discriminate.
      cbn [bind]. rewrite vec_set_ok by (rewrite map_length, length_zrange; lia). cbn [bind].
      rewrite <- (IH (fun j => if Z.eqb j k then s' else h j)); auto.
      + f_equal. set (h' := fun j => if Z.eqb j k then s' else h j).
        replace s' with (h' k) by (unfold h'; now rewrite Z.eqb_refl).
        apply upd_map; [apply NoDup_zrange | now apply nth_error_zrange |].
        intros x _ Hx. unfold h'. destruct (Z.eqb_spec x k); [congruence|auto].
      + intros j Hj. specialize (Hs j Hj). rewrite Z.eqb_sym in Hs. destruct (Z.eqb_spec j k); subst; auto. }
  rewrite <- (G (all_indices sizes) (fun _ => n_zero O)); auto.
  - f_equal. clear. unfold zrange. rewrite map_map.
    transitivity (map (fun _ : nat => n_zero O) (seq 0 (Z.to_nat n))); [|reflexivity].
    rewrite <- (seq_length (Z.to_nat n) 0) at 1. generalize (seq 0 (Z.to_nat n)).
    induction l; simpl; congruence.
  - intros; now apply in_all_indices.
Qed.

Lemma writes_index_in sizes dims c main : index_in sizes main -> NoDup dims -> valid_dims (length sizes) dims ->
  index_in (proj dims sizes) c -> index_in sizes (writes dims c main).
Proof.
  intros Hm Hn Hv Hc. pose proof (index_in_length _ _ Hm) as Hlm. pose proof (index_in_length _ _ Hc) as Hlc.
  rewrite proj_length in Hlc.
  apply index_in_nth. split; [rewrite length_writes; auto|]. intros k Hk.
  destruct (in_dec Z.eq_dec (Z.of_nat k) dims) as [Hin|Hin].
  - assert (proj dims (writes dims c main) = c) as E by (apply proj_writes; auto; now rewrite Hlm).
    clear Hn Hv Hlc. revert c Hc E. generalize (writes dims). intros w.
    assert (forall m c, index_in (proj dims sizes) c -> proj dims m = c -> 0 <= nth k m 0 < nth k sizes 0) as Q.
    { induction dims as [|e fr IH]; intros m c Hic Ep; simpl in *; [easy|].
      destruct c as [|c0 c]; [discriminate|]. injection Ep as Ep1 Ep2. inversion Hic; subst.
      destruct Hin as [->|Hin]; [now rewrite Nat2Z.id in *|]. eapply IH; eauto. }
    intros c Hc E. eapply Q; eauto.
  - rewrite nth_writes_other; auto.
    + apply index_in_nth in Hm. now apply Hm.
    + eapply Forall_impl; [|exact Hv]. simpl. lia.
Qed.

Lemma positive_proj sizes dims : positive sizes -> valid_dims (length sizes) dims -> positive (proj dims sizes).
Proof.
  intros Hp Hv. apply Forall_forall. intros x Hx. apply in_map_iff in Hx as (d & <- & Hd).
  eapply Forall_forall in Hv; eauto. unfold positive in Hp. rewrite Forall_forall in Hp. apply Hp.
  apply nth_In. lia.
Qed.

(** an array over distinct dimensions of another one is not larger *)
Lemma prodZ_proj_le sizes dims : positive sizes -> NoDup dims -> valid_dims (length sizes) dims ->
  prodZ (proj dims sizes) <= prodZ sizes.
Proof.
  intros Hp Hn Hv. pose proof (positive_proj _ _ Hp Hv) as Hpp.
  rewrite <- !length_all_indices by now apply positive_nonneg.
  set (zeros := repeat 0 (length sizes)).
  assert (index_in sizes zeros) as Hz by now apply index_in_zeros.
  rewrite <- (map_length (fun c => writes dims c zeros)). apply inj_le. apply NoDup_incl_length.
  - assert (forall l, NoDup l -> (forall c, In c l -> index_in (proj dims sizes) c) -> NoDup (map (fun c => writes dims c zeros) l)) as G.
    { induction 1 as [|c l Hc Hl IH]; simpl; intros Hi; constructor; auto.
      intros H. apply in_map_iff in H as (c' & E & Hc').
      apply (f_equal (proj dims)) in E.
      assert (valid_dims (length zeros) dims) by (unfold zeros; now rewrite repeat_length).
      rewrite !proj_writes in E; auto.
      - congruence.
      - erewrite index_in_length by (apply Hi; auto). apply proj_length.
      - erewrite index_in_length by (apply Hi; auto). apply proj_length. }
    apply G; [apply NoDup_all_indices|]. intros. now apply in_all_indices.
  - intros i Hi. apply in_map_iff in Hi as (c & <- & Hc). apply in_all_indices. apply in_all_indices in Hc.
    now apply writes_index_in.
Qed.

Lemma fits_proj sizes dims : fits sizes -> dims <> [] -> NoDup dims -> valid_dims (length sizes) dims ->
  fits (proj dims sizes).
Proof.
  intros Hf Hne Hn Hv. pose proof (fits_prod _ Hf). split; [|split].
  - destruct dims; simpl; congruence.
  - apply positive_proj; auto.
  - pose proof (prodZ_proj_le sizes dims (fits_pos _ Hf) Hn Hv). lia.
Qed.

Lemma reduce1_int_abs sizes f d : fits sizes -> 0 <= d < Z.of_nat (length sizes) -> d < 2 ^ 64 ->
  total sizes (fun i => Z.abs (f i)) < 2 ^ 63 ->
  reduce1 IntOps (mk sizes f) d = Ok (map (fun k => margin sizes [d] [k] f) (zrange (nth (Z.to_nat d) sizes 0))).
Proof.
  intros Hf Hd H64 Ht. apply reduce1_mk; auto. intros k Hk. unfold margin, sum_where.
  rewrite vec_sum_int_abs.
  - f_equal. f_equal. f_equal. apply filter_ext. intros i. simpl.
    destruct (Z.eqb_spec (nth (Z.to_nat d) i 0) k) as [->|Hne]; [now rewrite idx_eqb_refl|].
    symmetry. apply not_true_is_false. intros E. apply idx_eqb_true in E. congruence.
  - rewrite map_map. eapply Z.le_lt_trans; [|exact Ht]. apply sum_filter_le. intros. lia.
Qed.

