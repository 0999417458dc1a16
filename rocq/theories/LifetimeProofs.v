(** Memory of the entry points: nothing of the caller's is changed, everything allocated is freed, and the results are
    those of the functions on values. *)
From Verif Require Import Base Spec SpecFacts NDArray IndexProofs Float64 ArrayOps Bind Sobol Micro Stat Qis Ipf Qisi Integerise Lifetime LifetimeSpec.
Open Scope Z_scope.

Section Mem.
Context {T : Type}.
Implicit Types (h g ext : mem T) (arg : pyarg T).

Lemma values_some (l : list (option T)) : Forall (fun c => c <> None) l -> l = map Some (values_of l).
Proof. induction 1 as [|[v|] l Hc Hl IH]; simpl; auto; [|easy]. now f_equal. Qed.

Lemma add_refs_app d b h y : (b < length h)%nat -> add_refs d b (h ++ y) = add_refs d b h ++ y.
Proof.
  intros Hb. unfold add_refs. rewrite nth_error_app1 by auto. destruct (nth_error h b) as [x|] eqn:E; auto.
  clear E. revert h Hb. induction b as [|b IH]; intros [|z h] Hb; simpl in *; try lia; auto. f_equal. apply IH. lia.
Qed.
Lemma add_refs_at d g x y : add_refs d (length g) (g ++ x :: y) = g ++ BK (bk_refs x + d) (bk_shape x) (bk_cells x) :: y.
Proof.
  unfold add_refs. rewrite nth_error_app2, Nat.sub_diag by auto. cbn [nth_error].
  induction g as [|z g IH]; simpl; auto. now f_equal.
Qed.
Lemma length_add_refs d b h : length (add_refs d b h) = length h.
Proof. unfold add_refs. destruct nth_error; auto. apply length_upd. Qed.
Lemma nth_lt {A} (l : list A) n x : nth_error l n = Some x -> (n < length l)%nat.
Proof. intros E. apply nth_error_Some. congruence. Qed.
Lemma add_refs_back b h x : nth_error h b = Some x -> add_refs (-1) b (add_refs 1 b h) = h.
Proof.
  intros E. pose proof (nth_lt _ _ _ E). unfold add_refs at 2. rewrite E. unfold add_refs. rewrite nth_error_upd, Nat.eqb_refl by auto. cbn.
  rewrite upd_upd. replace (bk_refs x + 1 + -1) with (bk_refs x) by lia. destruct x as [r s c]. cbn [bk_refs bk_shape bk_cells].
  clear H. revert h E. induction b as [|b IH]; intros [|z h] E; simpl in *; try discriminate; [congruence|]. f_equal. auto.
Qed.

(** what a cast gives, on a memory that has grown by [new]; [y] is what is allocated while the array is held *)
Lemma cast_spec h arg new : held h arg -> exists h1 b pre, cast arg (h ++ new) = (h1, b) /\ Forall freed pre /\
  length h1 = length (h ++ new ++ pre) /\ forall y,
  drop b (h1 ++ y) = h ++ new ++ pre ++ y /\ shape_at (h1 ++ y) b = shape (value h arg) /\
  cells_at (h1 ++ y) b = map Some (flat (value h arg)) /\
  cells_at (h ++ new ++ pre ++ y) b =
    match arg with Same _ => map Some (flat (value h arg)) | Converted a => repeat None (length (flat a)) end.
Proof.
  destruct arg as [b|a]; intros Hh.
  - destruct Hh as (x & E & Hr & Hc). pose proof (nth_lt _ _ _ E) as Hb.
    exists (add_refs 1 b h ++ new), b, []. cbn [cast]. rewrite add_refs_app by auto. split; auto. split; [constructor|].
    split; [rewrite !app_length, length_add_refs; simpl; lia|]. intros y. cbn [app]. split.
    { unfold drop. rewrite <- app_assoc, add_refs_app by (now rewrite length_add_refs). now rewrite (add_refs_back _ _ x). }
    assert (nth_error (add_refs 1 b h) b = Some (BK (bk_refs x + 1) (bk_shape x) (bk_cells x))) as E1.
    { unfold add_refs. rewrite E, nth_error_upd, Nat.eqb_refl by auto. reflexivity. }
    unfold value. rewrite E. cbn [shape flat]. unfold shape_at, cells_at.
    rewrite <- !app_assoc, !nth_error_app1, E1, E by (rewrite ?length_add_refs; auto). cbn [bk_refs bk_shape bk_cells].
    destruct (Z.ltb_spec 0 (bk_refs x + 1)); [|lia]. destruct (Z.ltb_spec 0 (bk_refs x)); [|lia]. rewrite <- values_some by auto. auto.
  - exists ((h ++ new) ++ [BK 1 (shape a) (map Some (flat a))]), (length (h ++ new)), [BK 0 (shape a) (map Some (flat a))]. cbn [cast].
    split; auto. split; [repeat constructor|]. split; [rewrite !app_length; simpl; lia|]. intros y. cbn [value].
    unfold drop. rewrite <- (app_assoc (h ++ new)). cbn [app]. rewrite add_refs_at. cbn [bk_refs bk_shape bk_cells]. replace (1 + -1) with 0 by lia.
    split; [now rewrite <- app_assoc|]. unfold shape_at, cells_at.
    replace (h ++ new ++ BK 0 (shape a) (map Some (flat a)) :: y) with ((h ++ new) ++ BK 0 (shape a) (map Some (flat a)) :: y) by now rewrite <- app_assoc.
    rewrite !nth_error_app2, Nat.sub_diag by auto. cbn. now rewrite map_length.
Qed.

Lemma read_all l : mapM (fun c : option T => match c with Some v => Ok v | None => UB "read of a freed buffer" end) (map Some l) = Ok l.
Proof. induction l as [|x l IH]; auto. cbn. now rewrite IH. Qed.

(** [owned n ext hs vs]: the blocks [ext], from address [n] on, are freed temporaries and one block for each of the
    arrays [hs], which hold the values [vs] *)
Inductive owned : nat -> mem T -> list handle -> list (nd T) -> Prop :=
| own_nil n : owned n [] [] []
| own_cons n pre (v : nd T) ext hs vs : Forall freed pre -> owned (n + length pre + 1) ext hs vs ->
    owned n (pre ++ BK 1 (nd_sizes v) (nd_data v) :: ext) (HN (nd_sizes v) (nd_offs v) (nd_storage v) (n + length pre) :: hs) (v :: vs).

Lemma split_app g pre (x : block T) ext : g ++ pre ++ x :: ext = ((g ++ pre) ++ [x]) ++ ext.
Proof. now rewrite <- !app_assoc. Qed.
Lemma app_len2 g pre (x : block T) : length ((g ++ pre) ++ [x]) = (length g + length pre + 1)%nat.
Proof. rewrite !app_length. simpl. lia. Qed.

Lemma owned_load n ext hs vs : owned n ext hs vs -> forall g, length g = n -> map (load (g ++ ext)) hs = vs.
Proof.
  induction 1 as [n|n pre v ext hs vs Hp Ho IH]; intros g Hg; auto. cbn [map]. f_equal.
  - destruct v as [s o t d]. unfold load, cells_at. cbn [h_sizes h_offs h_storage h_ptr nd_sizes nd_offs nd_storage nd_data].
    subst n. rewrite <- app_length, app_assoc, nth_error_app2, Nat.sub_diag by auto. reflexivity.
  - rewrite split_app. apply IH. rewrite app_len2. lia.
Qed.

Definition same_header (v v' : nd T) : Prop := nd_sizes v' = nd_sizes v /\ nd_offs v' = nd_offs v /\ nd_storage v' = nd_storage v.

Lemma owned_store n ext hs vs : owned n ext hs vs -> forall vs' g, Forall2 same_header vs vs' -> length g = n ->
  exists ext', store_all hs vs' (g ++ ext) = g ++ ext' /\ owned n ext' hs vs'.
Proof.
  induction 1 as [n|n pre v ext hs vs Hp Ho IH]; intros vs' g Hs Hg; inversion Hs as [|? v' ? vs2 Hv Hs']; subst.
  - exists []. split; auto. constructor.
  - unfold store_all. cbn [combine fold_left fst snd].
    assert (store (HN (nd_sizes v) (nd_offs v) (nd_storage v) (length g + length pre)) v' (g ++ pre ++ BK 1 (nd_sizes v) (nd_data v) :: ext) =
            ((g ++ pre) ++ [BK 1 (nd_sizes v) (nd_data v')]) ++ ext) as ->.
    { unfold store. cbn [h_ptr]. rewrite <- app_length, app_assoc, nth_error_app2, Nat.sub_diag by auto. cbn.
      generalize (g ++ pre). intros q. rewrite <- app_assoc. cbn [app]. induction q as [|z q IHq]; simpl; auto. now f_equal. }
    destruct (IH vs2 ((g ++ pre) ++ [BK 1 (nd_sizes v) (nd_data v')]) Hs') as (ext' & E & Ho'); [rewrite app_len2; lia|].
    unfold store_all in E. rewrite E. destruct Hv as (V1 & V2 & V3). exists (pre ++ BK 1 (nd_sizes v) (nd_data v') :: ext'). split; [symmetry; apply split_app|].
    rewrite <- V1, <- V2, <- V3. constructor; auto.
Qed.

Lemma owned_destroy n ext hs vs : owned n ext hs vs -> forall g, length g = n -> exists ext', destroy hs (g ++ ext) = g ++ ext' /\ Forall freed ext'.
Proof.
  induction 1 as [n|n pre v ext hs vs Hp Ho IH]; intros g Hg.
  - exists []. split; auto.
  - unfold destroy. cbn [fold_left h_ptr]. subst n. unfold drop. rewrite <- app_length, app_assoc, add_refs_at. cbn [bk_refs bk_shape bk_cells].
    replace (1 + -1) with 0 by lia. rewrite <- app_assoc, split_app.
    destruct (IH ((g ++ pre) ++ [BK 0 (nd_sizes v) (nd_data v)])) as (ext' & E & Hf); [rewrite app_len2; lia|]. unfold destroy, drop in E. rewrite E.
    exists (pre ++ BK 0 (nd_sizes v) (nd_data v) :: ext'). split; [symmetry; apply split_app|]. apply Forall_app. split; auto. constructor; auto. reflexivity.
Qed.

(** * The loops over the argument lists *)

Lemma copy_args_spec h : forall (l : list (ndarray Z * pyarg T)) new, Forall (fun p => held h (snd p)) l ->
  match mapM (fun '(i, m) => let* iv := to_vector i in let* mv := to_nd m in Ok (iv, mv)) (map (fun p => (fst p, value h (snd p))) l) with
  | Ok ps => exists ext hs, copy_args l (h ++ new) = (h ++ new ++ ext, Ok (map fst ps, hs)) /\ owned (length (h ++ new)) ext hs (map snd ps)
  | Throw e => exists ext, copy_args l (h ++ new) = (h ++ new ++ ext, Throw e) /\ Forall freed ext
  | UB w => snd (copy_args l (h ++ new)) = UB w
  | Diverge => snd (copy_args l (h ++ new)) = Diverge
  end.
Proof.
  induction l as [|[i arg] l IH]; intros new Hl; cbn [map mapM fst snd].
  - exists [], []. cbn [copy_args]. rewrite app_nil_r. split; auto. constructor.
  - inversion Hl as [|? ? Ha Hl']; subst. cbn [snd] in Ha. destruct (cast_spec h arg new Ha) as (h1 & b & pre & Ec & Hp & Hlen & Hy).
    cbn [copy_args]. rewrite Ec.
    destruct (to_vector i) as [iv|e|w|]; cbn [bind]; auto.
    2:{ destruct (Hy []) as (D & _). rewrite !app_nil_r in D. exists pre. rewrite D. split; auto. }
    unfold to_nd_mem, read_np. destruct (Hy []) as (D & S1 & C1 & _). rewrite !app_nil_r in D, S1, C1. rewrite C1, S1, read_all. cbn [bind].
    replace (NDA (shape (value h arg)) (flat (value h arg))) with (value h arg) by now destruct (value h arg).
    destruct (to_nd (value h arg)) as [t|e|w|]; cbn [bind]; auto.
    2:{ exists pre. rewrite D, app_nil_r. split; auto. }
    destruct (Hy [BK 1 (nd_sizes t) (nd_data t)]) as (D' & _). rewrite D'.
    set (blk := BK 1 (nd_sizes t) (nd_data t)). specialize (IH (new ++ pre ++ [blk]) Hl').
    assert (forall ext, h ++ (new ++ pre ++ [blk]) ++ ext = h ++ new ++ pre ++ blk :: ext) as Ha1 by (intros; now rewrite <- !app_assoc).
    assert (forall x ext, h ++ new ++ pre ++ x :: ext = (h ++ new ++ pre) ++ x :: ext) as Ha2 by (intros; now rewrite <- !app_assoc).
    destruct (mapM _ (map _ l)) as [ps|e|w|]; cbn [bind].
    + destruct IH as (ext & hs & E & Ho). rewrite E. cbn [map fst snd].
      exists (pre ++ blk :: ext), (HN (nd_sizes t) (nd_offs t) (nd_storage t) (length h1) :: hs).
      split; [now rewrite Ha1|]. rewrite Hlen.
      replace (length (h ++ new ++ pre)) with (length (h ++ new) + length pre)%nat by (rewrite !app_length; lia).
      constructor; auto. replace (length (h ++ new) + length pre + 1)%nat with (length (h ++ new ++ pre ++ [blk])); auto.
      rewrite !app_length. simpl. lia.
    + destruct IH as (ext & E & Hf). rewrite E. exists (pre ++ BK 0 (nd_sizes t) (nd_data t) :: ext). split.
      * f_equal. unfold destroy. cbn [fold_left h_ptr]. rewrite Hlen, Ha1, !Ha2. unfold drop. now rewrite add_refs_at.
      * apply Forall_app. split; auto. constructor; auto. reflexivity.
    + destruct (copy_args l _) as [h' o]. cbn [snd] in IH. now subst o.
    + destruct (copy_args l _) as [h' o]. cbn [snd] in IH. now subst o.
Qed.

(** in ipf: the arrays of converted arguments are left with freed buffers *)
Definition stale arg (v : nd T) : nd T :=
  match arg with
  | Same _ => v
  | Converted _ => ND (nd_sizes v) (nd_offs v) (nd_storage v) (repeat None (length (nd_data v)))
  end.

Lemma share_args_spec h : forall (l : list (ndarray Z * pyarg T)) new, Forall (fun p => held h (snd p)) l ->
  match mapM (fun '(i, m) => let* iv := to_vector i in let* mv := as_nd m in Ok (iv, mv)) (map (fun p => (fst p, value h (snd p))) l) with
  | Ok ps => exists ext hs, share_args l (h ++ new) = (h ++ new ++ ext, Ok (map fst ps, hs)) /\ Forall freed ext /\
      forall y, map (load (h ++ new ++ ext ++ y)) hs = map (fun p => stale (fst p) (snd p)) (combine (map snd l) (map snd ps))
  | Throw e => exists ext, share_args l (h ++ new) = (h ++ new ++ ext, Throw e) /\ Forall freed ext
  | UB w => snd (share_args l (h ++ new)) = UB w
  | Diverge => snd (share_args l (h ++ new)) = Diverge
  end.
Proof.
  induction l as [|[i arg] l IH]; intros new Hl; cbn [map mapM fst snd].
  - exists [], []. cbn [share_args]. rewrite app_nil_r. split; auto.
  - inversion Hl as [|? ? Ha Hl']; subst. cbn [snd] in Ha. destruct (cast_spec h arg new Ha) as (h1 & b & pre & Ec & Hp & Hlen & Hy).
    cbn [share_args]. rewrite Ec.
    destruct (Hy []) as (D & S1 & C1 & _). rewrite !app_nil_r in S1, C1. rewrite app_nil_r in D. rewrite app_nil_r in D. rewrite D.
    destruct (to_vector i) as [iv|e|w|]; cbn [bind]; auto; [|exists pre; auto].
    unfold as_nd_mem, as_nd. rewrite S1.
    destruct (storage_size (shape (value h arg))) as [st|e|w|]; cbn [bind]; auto; [|exists pre; auto].
    destruct (compute_offs st (shape (value h arg))) as [os|e|w|]; cbn [bind]; auto; [|exists pre; auto].
    specialize (IH (new ++ pre) Hl').
    destruct (mapM _ (map _ l)) as [ps|e|w|]; cbn [bind].
    + destruct IH as (ext & hs & E & Hf & Hld). rewrite E. cbn [map fst snd combine].
      exists (pre ++ ext), (HN (shape (value h arg)) os st b :: hs). split; [now rewrite <- !app_assoc|]. split; [apply Forall_app; auto|]. intros y. cbn [map]. f_equal.
      * unfold load. cbn [h_sizes h_offs h_storage h_ptr]. destruct (Hy (ext ++ y)) as (_ & _ & _ & C2).
        rewrite <- !app_assoc. rewrite C2. destruct arg as [b'|a]; cbn [stale nd_sizes nd_offs nd_storage nd_data value]; auto. now rewrite map_length.
      * rewrite <- Hld with (y := y). now rewrite <- !app_assoc.
    + destruct IH as (ext & E & Hf). rewrite E. exists (pre ++ ext). split; [now rewrite <- !app_assoc|apply Forall_app; auto].
    + destruct (share_args l _) as [h' o]. cbn [snd] in IH. now subst o.
    + destruct (share_args l _) as [h' o]. cbn [snd] in IH. now subst o.
Qed.

(** the outcome [o], on a memory that is as before but for freed blocks *)
Definition faithful {A} h (r : mem T * outcome A) (o : outcome A) : Prop :=
  match o with
  | Ok _ | Throw _ => exists ext, r = (h ++ ext, o) /\ Forall freed ext
  | _ => snd r = o
  end.
End Mem.
