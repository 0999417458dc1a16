(** The index objects enumerate multi-indices in the order of Spec.all_indices. *)
From Verif Require Import Base Spec SpecFacts NDArray.

Lemma bind_assoc {A B C} (x : outcome A) (f : A -> outcome B) (g : B -> outcome C) :
  bind (bind x f) g = bind x (fun a => bind (f a) g).
Proof. now destruct x. Qed.

Lemma foldM_app {A S} (f : A -> S -> outcome S) l l' s :
  foldM f (l ++ l') s = let* s' := foldM f l s in foldM f l' s'.
Proof. revert s. induction l; intros; simpl; auto. rewrite bind_assoc. destruct (f a s); simpl; auto. Qed.

Lemma foldM_ext {A S} (f g : A -> S -> outcome S) l s :
  (forall a s, In a l -> f a s = g a s) -> foldM f l s = foldM g l s.
Proof.
  revert s. induction l; intros s H; simpl; auto. rewrite H by now left.
  destruct (g a s); simpl; auto. apply IHl. intros. apply H. now right.
Qed.

Lemma mapM_ok {A B} (f : A -> outcome B) g l : (forall a, In a l -> f a = Ok (g a)) -> mapM f l = Ok (map g l).
Proof.
  induction l; simpl; intros H; auto. rewrite H by now left. simpl. rewrite IHl; auto.
Qed.

Lemma vec_get_ok {A} (l : list A) i d : 0 <= i < Z.of_nat (length l) -> vec_get l i = Ok (nth (Z.to_nat i) l d).
Proof.
  intros H. unfold vec_get. destruct (Z.leb_spec 0 i); [|lia].
  rewrite nth_error_nth' with (d := d) by lia. reflexivity.
Qed.

Lemma vec_set_ok {A} (l : list A) i a : 0 <= i < Z.of_nat (length l) -> vec_set l i a = Ok (upd l (Z.to_nat i) a).
Proof.
  intros H. unfold vec_set. destruct (Z.leb_spec 0 i); [|lia].
  destruct (Z.ltb_spec i (Z.of_nat (length l))); [|lia]. reflexivity.
Qed.

Lemma vec_get_inv {A} (l : list A) i a : vec_get l i = Ok a -> 0 <= i < Z.of_nat (length l) /\ nth_error l (Z.to_nat i) = Some a.
Proof.
  unfold vec_get. destruct (Z.leb_spec 0 i); [|discriminate].
  destruct nth_error eqn:E; [|discriminate]. intros [= <-]. split; auto.
  assert (Z.to_nat i < length l)%nat by (apply nth_error_Some; congruence). lia.
Qed.

Lemma length_upd {A} (l : list A) n a : length (upd l n a) = length l.
Proof. revert n. induction l; intros [|n]; simpl; auto. Qed.

Lemma nth_upd {A} (l : list A) n m a d :
  (n < length l)%nat -> nth m (upd l n a) d = if Nat.eqb m n then a else nth m l d.
Proof.
  revert n m. induction l; intros [|n] [|m] H; simpl in *; try lia; auto.
  apply IHl. lia.
Qed.

Lemma nth_upd_other {A} (l : list A) n m a d : m <> n -> nth m (upd l n a) d = nth m l d.
Proof.
  revert n m. induction l; intros [|n] [|m] H; simpl in *; try congruence; auto.
Qed.

Lemma nth_error_upd {A} (l : list A) n m a :
  (n < length l)%nat -> nth_error (upd l n a) m = if Nat.eqb m n then Some a else nth_error l m.
Proof.
  revert n m. induction l; intros [|n] [|m] H; simpl in *; try lia; auto.
  apply IHl. lia.
Qed.

(** * Writing through a list of positions *)

Definition valid_dims (n : nat) (dims : list Z) : Prop := Forall (fun d => 0 <= d < Z.of_nat n) dims.

Fixpoint writes (dims vals main : list Z) : list Z :=
  match dims, vals with
  | d :: ds, v :: vs => upd (writes ds vs main) (Z.to_nat d) v
  | _, _ => main
  end.

Lemma length_writes dims vals main : length (writes dims vals main) = length main.
Proof. revert vals. induction dims; intros [|v vs]; simpl; auto. now rewrite length_upd. Qed.

Lemma nth_writes_other dims vals main k :
  ~ In (Z.of_nat k) dims -> Forall (fun d => 0 <= d) dims -> nth k (writes dims vals main) 0 = nth k main 0.
Proof.
  revert vals. induction dims as [|d ds IH]; intros [|v vs] Hn Hp; simpl; auto.
  inversion Hp; subst. rewrite nth_upd_other.
  - apply IH; auto. intros ?. apply Hn. now right.
  - intros ->. apply Hn. left. lia.
Qed.

Lemma proj_writes dims vals main :
  NoDup dims -> valid_dims (length main) dims -> length vals = length dims ->
  proj dims (writes dims vals main) = vals.
Proof.
  revert vals. induction dims as [|d ds IH]; intros [|v vs] Hn Hv Hl; simpl in *; try lia; auto.
  inversion Hn; subst. inversion Hv; subst. f_equal.
  - rewrite nth_upd by (rewrite length_writes; lia). now rewrite Nat.eqb_refl.
  - transitivity (proj ds (writes ds vs main)); [|apply IH; auto; lia].
    unfold proj. apply map_ext_in. intros e He.
    apply nth_upd_other. intros E.
    assert (0 <= e) by (eapply Forall_forall in H4; eauto; lia). apply H1.
    replace d with e by lia. auto.
Qed.

Lemma writes_proj dims main :
  NoDup dims -> valid_dims (length main) dims -> writes dims (proj dims main) main = main.
Proof.
  induction dims as [|d ds IH]; simpl; auto. intros Hn Hv. inversion Hn; subst. inversion Hv; subst.
  rewrite IH by auto. apply nth_ext with (d := 0) (d' := 0); [apply length_upd|].
  intros k Hk. rewrite nth_upd by lia. destruct (Nat.eqb_spec k (Z.to_nat d)); congruence.
Qed.

Lemma upd_upd_comm {A} (l : list A) n m a b : n <> m -> upd (upd l n a) m b = upd (upd l m b) n a.
Proof. revert n m. induction l; intros [|n] [|m] H; simpl; auto; try congruence. f_equal. auto. Qed.

Lemma upd_upd {A} (l : list A) n a b : upd (upd l n a) n b = upd l n b.
Proof. revert n. induction l; intros [|n]; simpl; auto. f_equal. auto. Qed.

Lemma writes_writes dims v w main :
  NoDup dims -> valid_dims (length main) dims -> length v = length dims -> length w = length dims ->
  writes dims w (writes dims v main) = writes dims w main.
Proof.
  intros Hn Hv Lv Lw. apply nth_ext with (d := 0) (d' := 0); [now rewrite !length_writes|].
  intros k Hk. rewrite !length_writes in Hk.
  assert (Forall (fun d => 0 <= d) dims) as Hnn by (eapply Forall_impl; [|exact Hv]; simpl; lia).
  destruct (in_dec Z.eq_dec (Z.of_nat k) dims) as [Hi|Hi].
  - (* both project to w *)
    assert (forall m, length m = length main -> proj dims (writes dims w m) = w) as P.
    { intros m Hm. apply proj_writes; auto. now rewrite Hm. }
    pose proof (P (writes dims v main) (length_writes _ _ _)) as P1. pose proof (P main eq_refl) as P2.
    unfold proj in P1, P2.
    assert (forall l1 l2 : list Z, map (fun d => nth (Z.to_nat d) l1 0) dims = map (fun d => nth (Z.to_nat d) l2 0) dims ->
            nth k l1 0 = nth k l2 0) as Q.
    { intros l1 l2 E. clear - Hi E. induction dims as [|d ds IH]; simpl in *; [easy|].
      injection E as E1 E2. destruct Hi as [->|Hi]; auto. now rewrite Nat2Z.id in E1. }
    apply Q. congruence.
  - rewrite !nth_writes_other; auto.
Qed.

(** * The carry loop *)

(** odometer step: the next multi-index and whether it wrapped around *)
Fixpoint odo (sizes idx : list Z) : list Z * bool :=
  match sizes, idx with
  | n :: ns, i :: is =>
      let (is', c) := odo ns is in
      if c then (if i + 1 =? n then (0 :: is', true) else (i + 1 :: is', false)) else (i :: is', false)
  | _, _ => ([], true)
  end.

Lemma length_odo sizes idx : length sizes = length idx -> length (fst (odo sizes idx)) = length sizes.
Proof.
  revert idx. induction sizes as [|n ns IH]; intros [|i is] H; simpl in *; try lia; auto.
  specialize (IH is ltac:(lia)). destruct (odo ns is) as [is' c]; simpl in *.
  destruct c; [destruct (i + 1 =? n)|]; simpl; lia.
Qed.

Lemma odo_carry_zeros sizes idx : length sizes = length idx -> snd (odo sizes idx) = true -> fst (odo sizes idx) = repeat 0 (length sizes).
Proof.
  revert idx. induction sizes as [|n ns IH]; intros [|i is] H; simpl in *; try lia; auto.
  specialize (IH is ltac:(lia)). destruct (odo ns is) as [is' c]; simpl in *.
  destruct c; [destruct (i + 1 =? n)|]; simpl; try discriminate. intros _. now rewrite IH.
Qed.

Lemma odo_spec sizes idx : index_in sizes idx ->
  index_in sizes (fst (odo sizes idx)) /\
  if snd (odo sizes idx) then rowmajor sizes idx = prodZ sizes - 1
  else rowmajor sizes (fst (odo sizes idx)) = rowmajor sizes idx + 1.
Proof.
  induction 1 as [|n i ns is Hi His [IH1 IH2]]; simpl; [split; [constructor|lia]|].
  assert (length ns = length is) as Hl by (symmetry; now apply index_in_length).
  pose proof (odo_carry_zeros ns is Hl) as Hz.
  destruct (odo ns is) as [is' c]; simpl in *. destruct c.
  - rewrite (Hz eq_refl) in *. destruct (Z.eqb_spec (i + 1) n); simpl.
    + split; [constructor; auto; lia|]. nia.
    + split; [constructor; auto; lia|]. rewrite rowmajor_zeros. nia.
  - simpl. split; [constructor; auto|]. lia.
Qed.

Lemma carry_loop_general dims szs rest main :
  NoDup dims -> valid_dims (length main) dims -> length szs = length dims ->
  carry_loop (rev (combine dims szs) ++ rest) main =
  let '(is, c) := odo szs (proj dims main) in
  if c then match rest with
            | [] => Ok (writes dims is main, match dims with [] => false | _ => true end)
            | _ => carry_loop rest (writes dims is main)
            end
  else Ok (writes dims is main, false).
Proof.
  revert szs rest. induction dims as [|d ds IH]; intros [|n ns] rest Hn Hv Hl; simpl in *; try lia.
  - destruct rest as [|[d n] rest]; reflexivity.
  - inversion Hn; subst. inversion Hv; subst.
    rewrite <- app_assoc. simpl. rewrite IH by (auto; lia). clear IH.
    destruct (odo ns (proj ds main)) as [is' c]. destruct c.
    2:{ simpl. f_equal. f_equal. symmetry.
        rewrite <- (nth_writes_other ds is' main (Z.to_nat d)); [| |].
        - apply nth_ext with (d := 0) (d' := 0); [apply length_upd|].
          intros k _. rewrite nth_upd by (rewrite length_writes; lia).
          destruct (Nat.eqb_spec k (Z.to_nat d)); congruence.
        - rewrite Z2Nat.id by lia. auto.
        - eapply Forall_impl; [|exact H4]. simpl; lia. }
    simpl. rewrite vec_get_ok with (d := 0) by (rewrite length_writes; lia). simpl.
    rewrite nth_writes_other; [|rewrite Z2Nat.id by lia; auto|eapply Forall_impl; [|exact H4]; simpl; lia].
    destruct (nth (Z.to_nat d) main 0 + 1 =? n); simpl.
    + rewrite vec_set_ok by (rewrite length_writes; lia). simpl.
      destruct rest as [|[d' n'] rest]; reflexivity.
    + rewrite vec_set_ok by (rewrite length_writes; lia). reflexivity.
Qed.

Lemma carry_loop_spec dims szs main :
  dims <> [] -> NoDup dims -> valid_dims (length main) dims -> length szs = length dims ->
  carry_loop (rev (combine dims szs)) main =
  Ok (writes dims (fst (odo szs (proj dims main))) main, snd (odo szs (proj dims main))).
Proof.
  intros Hne Hn Hv Hl. pose proof (carry_loop_general dims szs [] main Hn Hv Hl) as H.
  rewrite app_nil_r in H. rewrite H. destruct (odo szs (proj dims main)) as [is c]. simpl.
  destruct c; auto. destruct dims; congruence.
Qed.

(** * Loops *)

Fixpoint gloop {S} (fuel : nat) (body : list Z -> S -> outcome S) (ds : list (Z * Z)) (main : list Z) (e : bool) (s : S)
  : outcome (list Z * S) :=
  match fuel with
  | O => Diverge
  | Datatypes.S f =>
      if e then Ok (main, s)
      else let* s' := body main s in
           let* '(main', e') := carry_loop ds main in
           gloop f body ds main' (e || e') s'
  end.

Lemma skipn_nth_error {A} (l : list A) k a : nth_error l k = Some a -> skipn k l = a :: skipn (S k) l.
Proof.
  revert k. induction l; intros [|k] H; simpl in *; try discriminate.
  - congruence.
  - rewrite (IHl _ H). reflexivity.
Qed.

Lemma gloop_from {S} (body : list Z -> S -> outcome S) dims szs fuel main s :
  dims <> [] -> NoDup dims -> valid_dims (length main) dims -> length szs = length dims ->
  index_in szs (proj dims main) ->
  prodZ szs - rowmajor szs (proj dims main) < Z.of_nat fuel ->
  gloop fuel body (rev (combine dims szs)) main false s =
  let* s' := foldM (fun i s => body (writes dims i main) s)
                   (skipn (Z.to_nat (rowmajor szs (proj dims main))) (all_indices szs)) s in
  Ok (writes dims (repeat 0 (length dims)) main, s').
Proof.
  intros Hne Hn Hv Hl. revert main s Hv. induction fuel as [|f IH]; intros main s Hv Hi Hf.
  { pose proof (rowmajor_bound _ _ Hi). lia. }
  pose proof (rowmajor_bound _ _ Hi) as Hb.
  rewrite (skipn_nth_error _ _ _ (nth_error_all_indices _ _ Hi)).
  cbn [gloop foldM]. rewrite writes_proj by auto. destruct (body main s) as [s1|e|w|]; cbn [bind]; auto.
  rewrite carry_loop_spec by auto. cbn [bind].
  destruct (odo_spec _ _ Hi) as [Hi' Hc].
  assert (length szs = length (proj dims main)) as Hlp by (rewrite proj_length; auto).
  pose proof (length_odo _ _ Hlp) as Hlo.
  destruct (snd (odo szs (proj dims main))) eqn:Ec.
  - cbn [orb]. destruct f as [|f]; [lia|]. cbn [gloop].
    rewrite skipn_all2.
    2:{ assert (Z.of_nat (length (all_indices szs)) = prodZ szs); [|lia].
        apply length_all_indices. clear - Hi. induction Hi; constructor; auto; lia. }
    simpl. rewrite (odo_carry_zeros _ _ Hlp Ec). now rewrite Hl.
  - cbn [orb]. rewrite IH; rewrite ?length_writes, ?proj_writes; auto; try lia.
    + rewrite Hc.
      replace (Z.to_nat (rowmajor szs (proj dims main) + 1)) with (Datatypes.S (Z.to_nat (rowmajor szs (proj dims main)))) by lia.
      erewrite foldM_ext.
      * rewrite writes_writes; auto; try lia. now rewrite repeat_length.
      * intros i s2 Hin. cbv beta. rewrite writes_writes; auto; try lia.
        assert (In i (all_indices szs)) as Hin'.
        { rewrite <- (firstn_skipn (Datatypes.S (Z.to_nat (rowmajor szs (proj dims main)))) (all_indices szs)).
          apply in_or_app. now right. }
        apply in_all_indices, index_in_length in Hin'. lia.
Qed.

Lemma index_loop_gloop {S} fuel (body : list Z -> S -> outcome S) ix s :
  index_loop_from fuel body ix s =
  let* '(_, s') := gloop fuel body (rev (numbered 0 (ix_sizes ix))) (ix_idx ix) (ix_end ix) s in Ok s'.
Proof.
  revert ix s. induction fuel as [|f IH]; intros ix s; simpl; auto.
  destruct (ix_end ix) eqn:E; simpl; auto.
  destruct (body (ix_idx ix) s); simpl; auto.
  unfold index_next. destruct carry_loop as [[i e]| | |]; simpl; auto.
  rewrite IH. simpl. now rewrite E.
Qed.

Lemma tindex_loop_gloop {S} fuel (body : list Z -> S -> outcome S) ix s :
  tindex_loop_from fuel body ix s =
  let* '(_, s') := gloop fuel body (numbered 0 (ix_sizes ix)) (ix_idx ix) (ix_end ix) s in Ok s'.
Proof.
  revert ix s. induction fuel as [|f IH]; intros ix s; simpl; auto.
  destruct (ix_end ix) eqn:E; simpl; auto.
  destruct (body (ix_idx ix) s); simpl; auto.
  unfold tindex_next. destruct carry_loop as [[i e]| | |]; simpl; auto.
  rewrite IH. simpl. now rewrite E.
Qed.

Lemma mindex_loop_gloop {S} fuel (body : list Z -> S -> outcome S) m main s :
  mindex_loop fuel body m main s =
  gloop fuel body (rev (combine (mi_dims m) (mi_sizes m))) main (mi_end m) s.
Proof.
  revert m main s. induction fuel as [|f IH]; intros m main s; simpl; auto.
  destruct (mi_end m) eqn:E; simpl; auto.
  destruct (body main s); simpl; auto.
  unfold mindex_next. destruct carry_loop as [[i e]| | |]; simpl; auto.
  rewrite IH. simpl. now rewrite E.
Qed.

Lemma findex_loop_gloop {S} fuel (body : list Z -> list Z -> S -> outcome S) fx s :
  length (fi_free fx) = length (fi_freesizes fx) ->
  findex_loop fuel body fx s =
  let* '(_, s') := gloop fuel (fun full s => let* fr := mapM (vec_get full) (fi_free fx) in body full fr s)
     (rev (combine (fi_free fx) (fi_freesizes fx))) (fi_full fx) (fi_end fx) s in Ok s'.
Proof.
  revert fx s. induction fuel as [|f IH]; intros fx s Hl; simpl; auto.
  destruct (fi_end fx) eqn:E; simpl; auto.
  destruct (mapM (vec_get (fi_full fx)) (fi_free fx)) as [fr| | |]; simpl; auto.
  destruct (body (fi_full fx) fr s); simpl; auto.
  unfold findex_next. rewrite Hl, Nat.eqb_refl.
  destruct carry_loop as [[i e]| | |]; simpl; auto.
  rewrite IH by auto. simpl. now rewrite E.
Qed.

Lemma numbered_combine {A} k (l : list A) :
  numbered (Z.of_nat k) l = combine (map Z.of_nat (seq k (length l))) l.
Proof.
  revert k. induction l; intros k; simpl; auto. f_equal.
  rewrite <- IHl. f_equal. lia.
Qed.

Lemma numbered_zrange {A} (l : list A) : numbered 0 l = combine (zrange (Z.of_nat (length l))) l.
Proof. unfold zrange. rewrite Nat2Z.id. apply (numbered_combine 0). Qed.

Lemma proj_zrange l : proj (zrange (Z.of_nat (length l))) l = l.
Proof.
  unfold proj, zrange. rewrite map_map, Nat2Z.id.
  apply nth_ext with (d := 0) (d' := 0); rewrite map_length, seq_length; auto.
  intros k Hk. set (f := fun x => nth (Z.to_nat (Z.of_nat x)) l 0).
  rewrite nth_indep with (d' := f 0%nat) by (rewrite map_length, seq_length; auto).
  rewrite map_nth. rewrite seq_nth by auto. unfold f. now rewrite Nat2Z.id.
Qed.

Lemma valid_zrange n : valid_dims n (zrange (Z.of_nat n)).
Proof. apply Forall_forall. intros d Hd. now apply in_zrange in Hd. Qed.

Lemma writes_zrange vals main : length vals = length main ->
  writes (zrange (Z.of_nat (length main))) vals main = vals.
Proof.
  intros H. set (w := writes _ _ _). rewrite <- (proj_zrange w). unfold w at 1. rewrite length_writes.
  apply proj_writes; [apply NoDup_zrange | apply valid_zrange |].
  rewrite length_zrange. lia.
Qed.

Lemma prodZ_fold sizes : fold_right (fun n acc => n * acc) 1 sizes = prodZ sizes.
Proof. induction sizes; simpl; congruence. Qed.

Lemma loop_fuel_prodZ sizes : positive sizes -> prodZ sizes < Z.of_nat (loop_fuel sizes).
Proof. intros H. unfold loop_fuel. pose proof (prodZ_fold sizes). pose proof (prodZ_pos _ H). lia. Qed.

Lemma zrange_nonempty n : 0 < n -> zrange n <> [].
Proof. intros H E. apply (f_equal (@length _)) in E. rewrite length_zrange in E. simpl in E. lia. Qed.

Lemma length_pos {A} (l : list A) : l <> [] -> 0 < Z.of_nat (length l).
Proof. destruct l; [congruence|]. simpl. lia. Qed.

(** for (Index i(sizes); ...) visits every multi-index once, in row-major order *)
Lemma index_loop_spec {S} sizes (body : list Z -> S -> outcome S) s :
  sizes <> [] -> positive sizes -> index_loop sizes body s = foldM body (all_indices sizes) s.
Proof.
  intros Hne Hp. unfold index_loop, index_new. destruct sizes as [|n0 ns0] eqn:Es; [easy|].
  rewrite <- Es in *. clear Es n0 ns0.
  cbn [bind]. rewrite index_loop_gloop. cbn [ix_sizes ix_idx ix_end].
  rewrite numbered_zrange.
  set (main := repeat 0 (length sizes)).
  assert (length main = length sizes) as Hl by apply repeat_length.
  rewrite <- Hl.
  assert (proj (zrange (Z.of_nat (length main))) main = main) as Hpr by apply proj_zrange.
  rewrite gloop_from; rewrite ?Hpr; auto.
  - unfold main at 2. rewrite rowmajor_zeros. cbn [Z.to_nat skipn].
    rewrite bind_assoc. simpl.
    rewrite (foldM_ext _ body); [destruct foldM; reflexivity|].
    intros i s' Hi. cbv beta. rewrite writes_zrange; auto.
    transitivity (length sizes); [apply index_in_length; now apply in_all_indices | auto].
  - apply zrange_nonempty. rewrite Hl. now apply length_pos.
  - apply NoDup_zrange.
  - apply valid_zrange.
  - rewrite length_zrange. lia.
  - now apply index_in_zeros.
  - unfold main. rewrite rowmajor_zeros. rewrite Z.sub_0_r. now apply loop_fuel_prodZ.
Qed.

Lemma combine_rev {A B} (l : list A) (l' : list B) : length l = length l' -> combine (rev l) (rev l') = rev (combine l l').
Proof.
  revert l'. induction l as [|a l IH]; intros [|b l'] H; simpl in *; try lia; auto.
  rewrite <- IH by lia.
  assert (forall (x : list A) (y : list B) x' y', length x = length y -> combine (x ++ x') (y ++ y') = combine x y ++ combine x' y') as G.
  { clear. induction x; intros [|] ? ? E; simpl in *; try lia; auto. f_equal. auto. }
  apply G. rewrite !rev_length. lia.
Qed.

Lemma proj_rev dims idx : proj (rev dims) idx = rev (proj dims idx).
Proof. unfold proj. apply map_rev. Qed.

(** the TransposedIndex visits the multi-indices in column-major order *)
Lemma tindex_loop_spec {S} sizes (body : list Z -> S -> outcome S) s :
  sizes <> [] -> positive sizes ->
  tindex_loop sizes body s = foldM (fun i s => body (rev i) s) (all_indices (rev sizes)) s.
Proof.
  intros Hne Hp. unfold tindex_loop, index_new. destruct sizes as [|n0 ns0] eqn:Es; [easy|].
  rewrite <- Es in *. clear Es n0 ns0.
  cbn [bind]. rewrite tindex_loop_gloop. cbn [ix_sizes ix_idx ix_end].
  rewrite numbered_zrange.
  set (main := repeat 0 (length sizes)).
  assert (length main = length sizes) as Hl by apply repeat_length.
  rewrite <- Hl. set (dims := zrange (Z.of_nat (length main))).
  assert (length dims = length sizes) as Hld by (unfold dims; rewrite length_zrange; lia).
  rewrite <- (rev_involutive (combine dims sizes)), <- combine_rev by auto.
  assert (proj (rev dims) main = repeat 0 (length (rev sizes))) as Hpr.
  { rewrite proj_rev. unfold dims. rewrite proj_zrange. unfold main.
    rewrite rev_length. generalize (length sizes). clear. induction n; auto.
    simpl. rewrite IHn. clear. induction n; simpl; congruence. }
  assert (positive (rev sizes)) as Hpp by now apply Forall_rev.
  assert (prodZ (rev sizes) = prodZ sizes) as Hpe by apply prodZ_rev.
  rewrite gloop_from; rewrite ?Hpr, ?rowmajor_zeros; auto.
  - cbn [Z.to_nat skipn]. rewrite bind_assoc. simpl.
    rewrite (foldM_ext _ (fun i s => body (rev i) s)); [destruct foldM; reflexivity|].
    intros i s' Hi. cbv beta. f_equal.
    assert (length i = length main) as Hli.
    { apply in_all_indices, index_in_length in Hi. rewrite rev_length in Hi. rewrite Hi. symmetry. exact Hl. }
    rewrite <- (rev_involutive (writes _ _ _)). f_equal.
    set (w := writes _ _ _). rewrite <- (proj_zrange w). unfold w at 1. rewrite length_writes. fold dims.
    rewrite <- proj_rev. apply proj_writes.
    + apply NoDup_rev, NoDup_zrange.
    + apply Forall_rev, valid_zrange.
    + rewrite rev_length. lia.
  - intros E. apply (f_equal (@length _)) in E. rewrite rev_length, Hld in E. destruct sizes; simpl in *; congruence.
  - apply NoDup_rev, NoDup_zrange.
  - apply Forall_rev, valid_zrange.
  - rewrite !rev_length. lia.
  - now apply index_in_zeros.
  - rewrite Z.sub_0_r, Hpe. now apply loop_fuel_prodZ.
Qed.

Lemma mindex_loop_spec {S} fuel dims szs (body : list Z -> S -> outcome S) main s :
  dims <> [] -> NoDup dims -> valid_dims (length main) dims -> length szs = length dims -> positive szs ->
  proj dims main = repeat 0 (length dims) -> prodZ szs < Z.of_nat fuel ->
  mindex_loop fuel body (MI dims szs false) main s =
  let* s' := foldM (fun i s => body (writes dims i main) s) (all_indices szs) s in Ok (main, s').
Proof.
  intros Hne Hn Hv Hl Hp H0 Hf. rewrite mindex_loop_gloop. simpl.
  rewrite gloop_from; auto; rewrite ?H0, <- ?Hl, ?rowmajor_zeros; auto.
  - simpl. now rewrite Hl, <- H0, writes_proj by auto.
  - now apply index_in_zeros.
  - lia.
Qed.

(** a mapped index over no dimension never reaches its end *)
Lemma mindex_loop_nodims {S} fuel (body : list Z -> S -> outcome S) main s r :
  mindex_loop fuel body (MI [] [] false) main s <> Ok r.
Proof.
  revert s. induction fuel; intros s; simpl; [congruence|].
  destruct (body main s); simpl; congruence.
Qed.
