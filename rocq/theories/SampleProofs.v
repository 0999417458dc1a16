(** Proofs about recursive_sample and sample of src/QIS.cpp. *)
From Verif Require Import Base Spec SpecFacts NDArray IndexProofs Float64 FloatProofs ArrayOps ArrayProofs Bind BindProofs
  SobolSpec Sobol Micro Stat Qis SynthSpec MicroProofs PickProofs.
Open Scope Z_scope.

(** * Arrays with a last dimension *)

Lemma flat_map_flat_map {A B C} (f : A -> list B) (g : B -> list C) l :
  flat_map g (flat_map f l) = flat_map (fun a => flat_map g (f a)) l.
Proof. induction l; simpl; auto. now rewrite flat_map_app, IHl. Qed.

Lemma flat_map_map {A B C} (f : A -> B) (g : B -> list C) l : flat_map g (map f l) = flat_map (fun a => g (f a)) l.
Proof. induction l; simpl; congruence. Qed.

Lemma map_flat_map {A B C} (f : A -> list B) (g : B -> C) l : map g (flat_map f l) = flat_map (fun a => map g (f a)) l.
Proof. induction l; simpl; auto. now rewrite map_app, IHl. Qed.

Lemma all_indices_app s s' : all_indices (s ++ s') = flat_map (fun c => map (app c) (all_indices s')) (all_indices s).
Proof.
  induction s as [|n s IH]; simpl.
  - rewrite app_nil_r. symmetry. apply map_id.
  - rewrite flat_map_flat_map. apply flat_map_ext. intros i. rewrite IH, map_flat_map, flat_map_map. apply flat_map_ext.
    intros c. rewrite map_map. reflexivity.
Qed.

Lemma all_indices_1 n : all_indices [n] = map (fun i => [i]) (zrange n).
Proof. simpl. induction (zrange n); simpl; congruence. Qed.

Lemma sumZ_flat_map {A} (f : A -> list Z) l : sumZ (flat_map f l) = sumZ (map (fun a => sumZ (f a)) l).
Proof. induction l; simpl; auto. now rewrite sumZ_app, IHl. Qed.

(** sum over the last dimension at position [i] *)
Lemma margin_last s n i g : 0 <= i < n ->
  margin (s ++ [n]) [Z.of_nat (length s)] [i] g = total s (fun c => g (c ++ [i])).
Proof.
  intros Hi. unfold margin, sum_where, total. rewrite sum_filter, all_indices_app, all_indices_1, map_flat_map, sumZ_flat_map.
  apply sumZ_map_ext. intros c Hc. apply in_all_indices in Hc. rewrite !map_map.
  rewrite (sumZ_map_ext _ (fun x => if Z.eq_dec x i then g (c ++ [i]) else 0)).
  - apply sum_one; [apply NoDup_zrange|now apply in_zrange].
  - intros x _. assert (proj [Z.of_nat (length s)] (c ++ [x]) = [x]) as ->.
    { unfold proj. simpl. rewrite Nat2Z.id, app_nth2; rewrite (index_in_length _ _ Hc); [|lia].
      replace (length s - length s)%nat with 0%nat by lia. reflexivity. }
    destruct (Z.eq_dec x i) as [->|Hne]; [now rewrite idx_eqb_refl|].
    destruct (idx_eqb [x] [i]) eqn:E; auto. apply idx_eqb_true in E. congruence.
Qed.

Lemma index_in_app s s' c c' : index_in s c -> index_in s' c' -> index_in (s ++ s') (c ++ c').
Proof. apply Forall2_app. Qed.

Lemma proj_zrange_app (c c' : list Z) : proj (zrange (Z.of_nat (length c))) (c ++ c') = c.
Proof.
  rewrite <- (proj_zrange c) at 3. unfold proj. apply map_ext_in. intros d Hd. apply in_zrange in Hd.
  now rewrite app_nth1 by lia.
Qed.

Lemma zrange_snoc n : zrange (Z.of_nat (S n)) = zrange (Z.of_nat n) ++ [Z.of_nat n].
Proof. unfold zrange. rewrite !Nat2Z.id, seq_S, map_app. reflexivity. Qed.

Lemma free_dims_last n i : free_dims (Z.of_nat (S n)) [(Z.of_nat n, i)] = zrange (Z.of_nat n).
Proof.
  unfold free_dims. rewrite zrange_snoc, filter_app. simpl. rewrite Z.eqb_refl. simpl. rewrite app_nil_r.
  assert (forall l, (forall x, In x l -> x <> Z.of_nat n) ->
    filter (fun d => negb (existsb (Z.eqb d) [Z.of_nat n])) l = l) as G.
  { induction l as [|x l IH]; simpl; intros H; auto. destruct (Z.eqb_spec x (Z.of_nat n)) as [E|E]; simpl; [exfalso; eapply H; eauto; now left|].
    f_equal. apply IH. auto. }
  apply G. intros x Hx. apply in_zrange in Hx. lia.
Qed.

Lemma fits_snoc_inv s n : s <> [] -> fits (s ++ [n]) -> fits s /\ 0 < n.
Proof.
  intros Hne (_ & Hp & Hb). apply Forall_app in Hp as [Hp Hn]. inversion Hn; subst. split; auto.
  split; auto. split; auto. rewrite prodZ_app in Hb. simpl in Hb. pose proof (prodZ_pos s Hp). nia.
Qed.

Lemma slice_last {T} s n (g : list Z -> T) i : s <> [] -> fits (s ++ [n]) -> Z.of_nat (length (s ++ [n])) < 2 ^ 63 -> 0 <= i < n ->
  slice (mk (s ++ [n]) g) [(Z.of_nat (length s), i)] = Ok (mk s (fun c => g (c ++ [i]))).
Proof.
  intros Hne Hf Hl Hi. destruct (fits_snoc_inv s n Hne Hf) as [Hs _].
  assert (length (s ++ [n]) = S (length s)) as El by (rewrite app_length; simpl; lia).
  assert (free_dims (Z.of_nat (length (s ++ [n]))) [(Z.of_nat (length s), i)] = zrange (Z.of_nat (length s))) as Efree.
  { rewrite El. apply free_dims_last. }
  assert (proj (zrange (Z.of_nat (length s))) (s ++ [n]) = s) as Eproj by apply proj_zrange_app.
  destruct (slice_mk (s ++ [n]) g [(Z.of_nat (length s), i)]) as (g' & E & Hg); auto.
  - split; [constructor; [easy|constructor]|]. constructor; [|constructor]. rewrite El. split; [lia|].
    rewrite Nat2Z.id, app_nth2, Nat.sub_diag by lia. simpl. lia.
  - discriminate.
  - rewrite El. simpl. pose proof (length_pos s Hne). lia.
  - lia.
  - rewrite Efree, Eproj. auto.
  - rewrite Efree, Eproj in *. rewrite E. f_equal. apply mk_ext. intros c Hc.
    pose proof (index_in_length _ _ Hc) as Lc. specialize (Hg (c ++ [i])).
    rewrite <- Lc in Hg. rewrite proj_zrange_app in Hg. apply Hg.
    + apply index_in_app; auto. constructor; [lia|constructor].
    + intros d v [[= <- <-]|[]]. rewrite Nat2Z.id, app_nth2, Nat.sub_diag by lia. reflexivity.
Qed.

Definition tabs (s : list Z) (g : list Z -> Z) : Z := total s (fun c => Z.abs (g c)).

Lemma tabs_nonneg s g : 0 <= tabs s g.
Proof. apply total_nonneg. intros. lia. Qed.

Lemma tabs_last s n g i : 0 <= i < n -> tabs s (fun c => g (c ++ [i])) <= tabs (s ++ [n]) g.
Proof.
  intros Hi. unfold tabs. rewrite <- (margin_last s n i (fun c => Z.abs (g c)) Hi). unfold margin, sum_where, total.
  apply sum_filter_le. intros. lia.
Qed.

Lemma sum_abs_margins s d g : 0 <= d < Z.of_nat (length s) ->
  sum_abs (map (fun k => margin s [d] [k] g) (zrange (nth (Z.to_nat d) s 0))) <= tabs s g.
Proof.
  intros Hd. unfold sum_abs. rewrite map_map. unfold tabs.
  rewrite <- (total_margin s [d] (fun c => Z.abs (g c))) by (constructor; [auto|constructor]).
  unfold total at 1. replace (proj [d] s) with [nth (Z.to_nat d) s 0] by reflexivity. rewrite all_indices_1, map_map.
  apply sumZ_map_le. intros k _. unfold margin, sum_where.
  generalize (filter (fun i => idx_eqb (proj [d] i) [k]) (all_indices s)). induction l; simpl; lia.
Qed.

(** * recursive_sample *)

Lemma rec_cons p u todo sm m ix main : todo <> [] -> recursive_sample ((p, u) :: todo) sm m ix main =
  let o := match map_find sm p with Some o => o | None => 0 end in
  let* r := reduce1 IntOps m o in
  let* i := pick r (unit_of u) in
  let* main' := mi_set ix main p i in
  let* sliced := slice m [(o, i)] in
  recursive_sample todo sm sliced ix main'.
Proof. destruct todo; [easy|reflexivity]. Qed.

Section Rec.
Context (sizes ix : list Z) (us : Z -> N).
(** position [p] of the index list refers to dimension [nth p ix] *)
Notation dim_of p := (nth (Z.to_nat p) ix 0).
Context (Hix : valid_dims (length sizes) ix) (Hlen : Z.of_nat (length ix) < 2 ^ 31).

Definition todo_of (P : list Z) : list (Z * N) := rev (map (fun p => (p, us p)) P).
Definition msz (P : list Z) : list Z := map (fun p => nth (Z.to_nat (dim_of p)) sizes 0) P.
Definition dims_of (P : list Z) : list Z := map (fun p => dim_of p) P.

Definition ranks (sm : list (Z * Z)) (P : list Z) : Prop :=
  forall k, (k < length P)%nat -> map_find sm (nth k P 0) = Some (Z.of_nat k).

Definition writes_in (D main main' : list Z) : Prop :=
  length main' = length main /\
  (forall d, ~ In (Z.of_nat d) D -> nth d main' 0 = nth d main 0) /\
  (forall d, In (Z.of_nat d) D -> 0 <= nth d main' 0 < nth d sizes 0).

Lemma dim_of_valid p : 0 <= p < Z.of_nat (length ix) -> 0 <= dim_of p < Z.of_nat (length sizes).
Proof. intros Hp. unfold valid_dims in Hix. rewrite Forall_forall in Hix. apply Hix. apply nth_In. lia. Qed.

Lemma mi_set_ok main p v : length main = length sizes -> 0 <= p < Z.of_nat (length ix) ->
  mi_set ix main p v = Ok (upd main (Z.to_nat (dim_of p)) v).
Proof.
  intros Hl Hp. unfold mi_set. rewrite (vec_get_ok ix p 0) by auto. cbn [bind].
  rewrite vec_set_ok; auto. rewrite Hl. now apply dim_of_valid.
Qed.

Lemma rec_sample P : forall sm g main, P <> [] -> Forall (fun p => 0 <= p < Z.of_nat (length ix)) P -> ranks sm P ->
  fits (msz P) -> Z.of_nat (length P) < 2 ^ 31 -> length main = length sizes -> tabs (msz P) g < 2 ^ 63 ->
  let o := recursive_sample (todo_of P) sm (mk (msz P) g) ix main in
  ((exists e, o = Throw e) \/ (exists main', o = Ok main' /\ writes_in (dims_of P) main main')) /\
  (NoDup (dims_of P) -> (forall c, index_in (msz P) c -> 0 <= g c) -> 0 < total (msz P) g <= 2 ^ 53 ->
   (forall p, In p P -> us p < 2 ^ 32)%N ->
   exists main', o = Ok main' /\ 0 < g (proj (dims_of P) main')).
Proof.
  induction P as [|p P IH] using rev_ind; [easy|]. intros sm g main _ HP Hr Hf Hl Hm Hb.
  apply Forall_app in HP as [HP Hp]. inversion Hp as [|? ? Hp1 _]; subst. clear Hp.
  pose proof (dim_of_valid p Hp1) as Hd.
  set (n := nth (Z.to_nat (dim_of p)) sizes 0).
  assert (msz (P ++ [p]) = msz P ++ [n]) as Em by (unfold msz; now rewrite map_app).
  assert (dims_of (P ++ [p]) = dims_of P ++ [dim_of p]) as Ed by (unfold dims_of; now rewrite map_app).
  assert (length (msz P) = length P) as Lm by (unfold msz; now rewrite map_length).
  rewrite Em in *. rewrite Ed.
  assert (todo_of (P ++ [p]) = (p, us p) :: todo_of P) as Et by (unfold todo_of; now rewrite map_app, rev_app_distr).
  rewrite Et. cbv zeta. destruct (list_eq_dec Z.eq_dec P []) as [->|HPne].
  - clear IH. cbn [todo_of map rev recursive_sample msz app dims_of] in *.
    rewrite nd_values_mk by auto. cbn [bind]. rewrite all_indices_1, map_map.
    assert (length (map (fun x => g [x]) (zrange n)) = Z.to_nat n) as Lz by now rewrite map_length, length_zrange.
    assert (forall k, 0 <= k < n -> writes_in [dim_of p] main (upd main (Z.to_nat (dim_of p)) k)) as Hw.
    { intros k Hk. split; [apply length_upd|]. split.
      - intros d Hnd. apply nth_upd_other. intros ->. apply Hnd. left. lia.
      - intros d [Heq|[]]. rewrite nth_upd by lia. destruct (Nat.eqb_spec d (Z.to_nat (dim_of p))) as [E|E]; [|lia].
        replace (nth d sizes 0) with n; [lia|]. unfold n. now rewrite E. }
    split.
    + destruct (pick_safe (map (fun x => g [x]) (zrange n)) (unit_of (us p))) as [(k & -> & Hk)|(e & ->)]; cbn [bind].
      * unfold sum_abs. rewrite map_map. unfold tabs, total in Hb. rewrite all_indices_1, map_map in Hb. exact Hb.
      * right. eexists. split; [now apply mi_set_ok|]. apply Hw. lia.
      * left. eauto.
    + intros _ Hg Ht Hu. destruct (pick_pos (map (fun x => g [x]) (zrange n)) (us p)) as (k & -> & Hk & Hpos).
      * intros x Hx. apply in_map_iff in Hx as (y & <- & Hy). apply in_zrange in Hy. apply Hg. constructor; [auto|constructor].
      * unfold total in Ht. rewrite all_indices_1, map_map in Ht. exact Ht.
      * apply Hu. now left.
      * cbn [bind]. eexists. split; [now apply mi_set_ok|]. unfold proj. cbn [map].
        rewrite nth_upd by lia. rewrite Nat.eqb_refl.
        rewrite (nth_error_nth _ k (x := g [Z.of_nat k])) in Hpos; auto.
        rewrite nth_error_map. rewrite Lz in Hk. pose proof (nth_error_zrange n (Z.of_nat k) ltac:(lia)) as Ez.
        rewrite Nat2Z.id in Ez. now rewrite Ez.
  - assert (msz P <> []) as Hmne by (destruct P; [easy|discriminate]).
    destruct (fits_snoc_inv _ _ Hmne Hf) as [HfP Hn].
    assert (todo_of P <> []) as Hts.
    { unfold todo_of. intros E. apply (f_equal (@length _)) in E. rewrite rev_length, map_length in E. destruct P; [easy|discriminate]. }
    assert (map_find sm p = Some (Z.of_nat (length P))) as Hsm.
    { specialize (Hr (length P)). rewrite app_nth2, Nat.sub_diag in Hr by lia. apply Hr. rewrite app_length. simpl. lia. }
    assert (ranks sm P) as HrP.
    { intros k Hk. specialize (Hr k). rewrite app_nth1 in Hr by lia. apply Hr. rewrite app_length. lia. }
    rewrite rec_cons, Hsm by auto. cbv zeta.
    assert (length (msz P ++ [n]) = S (length P)) as LmS by (rewrite app_length; simpl; lia).
    rewrite app_length in Hl. simpl in Hl.
    rewrite reduce1_int_abs; auto; try (rewrite LmS; lia); try lia. cbn [bind].
    replace (nth (Z.to_nat (Z.of_nat (length P))) (msz P ++ [n]) 0) with n.
    2:{ rewrite Nat2Z.id, app_nth2, Lm, Nat.sub_diag by lia. reflexivity. }
    set (dist := map (fun k => margin (msz P ++ [n]) [Z.of_nat (length P)] [k] g) (zrange n)).
    assert (length dist = Z.to_nat n) as Ld by (unfold dist; now rewrite map_length, length_zrange).
    assert (sum_abs dist < 2 ^ 63) as Hsa.
    { eapply Z.le_lt_trans; [|exact Hb]. unfold dist.
      pose proof (sum_abs_margins (msz P ++ [n]) (Z.of_nat (length P)) g ltac:(rewrite LmS; lia)) as S.
      replace (nth (Z.to_nat (Z.of_nat (length P))) (msz P ++ [n]) 0) with n in S; auto.
      rewrite Nat2Z.id, app_nth2, Lm, Nat.sub_diag by lia. reflexivity. }
    assert (forall k, 0 <= k < n ->
      (let* main' := mi_set ix main p k in
       let* sliced := slice (mk (msz P ++ [n]) g) [(Z.of_nat (length P), k)] in
       recursive_sample (todo_of P) sm sliced ix main') =
      recursive_sample (todo_of P) sm (mk (msz P) (fun c => g (c ++ [k]))) ix (upd main (Z.to_nat (dim_of p)) k)) as Hstep.
    { intros k Hk. rewrite mi_set_ok by auto. cbn [bind]. rewrite <- Lm. rewrite slice_last; auto. rewrite LmS. lia. }
    assert (forall k, 0 <= k < n -> length (upd main (Z.to_nat (dim_of p)) k) = length sizes) as Hlu.
    { intros. now rewrite length_upd. }
    assert (forall k, 0 <= k < n -> tabs (msz P) (fun c => g (c ++ [k])) < 2 ^ 63) as Hbk.
    { intros k Hk. pose proof (tabs_last (msz P) n g k Hk). lia. }
    split.
    + destruct (pick_safe dist (unit_of (us p)) Hsa) as [(k & -> & Hk)|(e & ->)]; cbn [bind]; [|left; eauto].
      assert (0 <= k < n) as Hk' by lia.
      rewrite (Hstep k Hk'). destruct (IH sm (fun c => g (c ++ [k])) _ HPne HP HrP HfP ltac:(lia) (Hlu k Hk') (Hbk k Hk')) as [[(e & E)|(main' & E & Hw1 & Hw2 & Hw3)] _].
      * left. eauto.
      * right. exists main'. split; auto. split; [now rewrite Hw1, length_upd|]. split.
        { intros d Hnd. rewrite in_app_iff in Hnd. rewrite Hw2 by tauto. apply nth_upd_other. intros ->. apply Hnd. right. left. lia. }
        { intros d Hin. destruct (in_dec Z.eq_dec (Z.of_nat d) (dims_of P)) as [Hi|Hni]; auto.
          apply in_app_iff in Hin as [Hi|[Heq|[]]]; [easy|]. rewrite Hw2 by auto. rewrite nth_upd by lia.
          destruct (Nat.eqb_spec d (Z.to_nat (dim_of p))); [|lia]. replace (nth d sizes 0) with n; [lia|]. unfold n. congruence. }
    + intros Hnd Hg Ht Hu.
      assert (forall k, 0 <= k < n -> margin (msz P ++ [n]) [Z.of_nat (length P)] [k] g = total (msz P) (fun c => g (c ++ [k]))) as Hml.
      { intros k Hk. rewrite <- Lm. now apply margin_last. }
      assert (forall k c, 0 <= k < n -> index_in (msz P) c -> 0 <= g (c ++ [k])) as Hgk.
      { intros k c Hk Hc. apply Hg. apply index_in_app; auto. constructor; [auto|constructor]. }
      assert (sumZ dist = total (msz P ++ [n]) g) as Hst.
      { unfold dist. pose proof (total_margin (msz P ++ [n]) [Z.of_nat (length P)] g) as TM.
        rewrite <- TM by (constructor; [rewrite LmS; lia|constructor]). unfold total at 1, proj. cbn [map].
        rewrite Nat2Z.id, app_nth2, Lm, Nat.sub_diag by lia. cbn [nth]. now rewrite all_indices_1, map_map. }
      destruct (pick_pos dist (us p)) as (k & -> & Hk & Hpos).
      * intros x Hx. apply in_map_iff in Hx as (k & <- & Hk). apply in_zrange in Hk. rewrite Hml by auto.
        apply total_nonneg. auto.
      * lia.
      * apply Hu. apply in_app_iff. right. now left.
      * cbn [bind]. assert (0 <= Z.of_nat k < n) as Hk' by lia. rewrite (Hstep _ Hk').
        destruct (IH sm (fun c => g (c ++ [Z.of_nat k])) _ HPne HP HrP HfP ltac:(lia) (Hlu _ Hk') (Hbk _ Hk')) as [Hs HI].
        assert (nth k dist 0 = total (msz P) (fun c => g (c ++ [Z.of_nat k]))) as En.
        { rewrite <- Hml by auto. apply nth_error_nth. unfold dist. rewrite nth_error_map.
          pose proof (nth_error_zrange n (Z.of_nat k) ltac:(lia)) as Ez. rewrite Nat2Z.id in Ez. now rewrite Ez. }
        destruct HI as (main' & E & Hgp); auto.
        { apply NoDup_remove_1 in Hnd. now rewrite app_nil_r in Hnd. }
        { split; [lia|]. rewrite <- Hml by auto. apply Z.le_trans with (total (msz P ++ [n]) g); [|lia].
          apply sum_filter_le. intros c Hc. apply Hg. now apply in_all_indices. }
        { intros q Hq. apply Hu. apply in_app_iff. now left. }
        exists main'. split; auto. unfold proj in *. rewrite map_app. cbn [map].
        destruct Hs as [(e & Es)|(main'' & Es & Hw1 & Hw2 & _)]; [congruence|].
        assert (main'' = main') as -> by congruence.
        assert (nth (Z.to_nat (dim_of p)) main' 0 = Z.of_nat k) as ->; auto.
        rewrite Hw2.
        { rewrite nth_upd by lia. now rewrite Nat.eqb_refl. }
        { rewrite Z2Nat.id by lia. intros Hin. apply NoDup_remove_2 in Hnd. apply Hnd. rewrite app_nil_r. auto. }
Qed.
End Rec.
