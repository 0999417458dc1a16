(** Proofs about rScale, rDiff, computeErrors and the loop of IPF::solve, for any arithmetic. *)
From Verif Require Import Base Spec SpecFacts NDArray IndexProofs Float64 ArrayOps ArrayProofs Bind BindProofs
  Micro SynthSpec MicroProofs IpfSpec Ipf.
Open Scope Z_scope.

(** * Loops that visit every cell once, in any order *)

Lemma cell_loop_list {T} szs (body : list Z -> nd T -> outcome (nd T)) (h : list Z -> T -> T) l : fits szs ->
  (forall i f, index_in szs i -> body i (mk szs f) = Ok (mk szs (fupd f i (h i (f i))))) ->
  NoDup l -> (forall i, In i l <-> index_in szs i) ->
  forall f, foldM body l (mk szs f) = Ok (mk szs (fun i => h i (f i))).
Proof.
  intros Hf Hb Hn Hl f.
  assert (forall l f, NoDup l -> (forall i, In i l -> index_in szs i) ->
    foldM body l (mk szs f) = Ok (mk szs (fun i => if existsb (idx_eqb i) l then h i (f i) else f i))) as G.
  { clear f l Hn Hl. induction l as [|x l IH]; intros f Hn Hi; cbn [foldM].
    - reflexivity.
    - inversion Hn; subst. rewrite Hb by (apply Hi; now left). cbn [bind]. rewrite IH by (auto; intros; apply Hi; now right).
      f_equal. apply mk_ext. intros i _. cbn [existsb]. unfold fupd. destruct (idx_eqb i x) eqn:E; cbn [orb]; auto.
      apply idx_eqb_true in E. subst i. destruct (existsb (idx_eqb x) l) eqn:Ex; auto.
      apply existsb_exists in Ex as (y & Hy & Ey). apply idx_eqb_true in Ey. subst y. tauto. }
  rewrite G; auto.
  - f_equal. apply mk_ext. intros i Hi. assert (existsb (idx_eqb i) l = true) as ->; auto.
    apply existsb_exists. exists i. split; [now apply Hl|apply idx_eqb_refl].
  - intros i. apply Hl.
Qed.

(** * The two nested mapped loops of rScale *)

Definition complement (n : nat) (ix : list Z) : list Z :=
  filter (fun i => negb (existsb (Z.eqb i) ix)) (zrange (Z.of_nat n)).

Lemma in_complement n ix d : In d (complement n ix) <-> 0 <= d < Z.of_nat n /\ ~ In d ix.
Proof.
  unfold complement. rewrite filter_In, in_zrange, negb_true_iff. split; intros [H1 H2]; split; auto.
  - intros Hin. apply not_true_iff_false in H2. apply H2. apply existsb_exists. exists d. split; auto. apply Z.eqb_refl.
  - apply not_true_iff_false. intros E. apply existsb_exists in E as (x & Hx & Ex). apply Z.eqb_eq in Ex. now subst.
Qed.

Lemma complement_valid n ix : valid_dims n (complement n ix).
Proof. apply Forall_forall. intros d Hd. now apply in_complement in Hd. Qed.

Lemma complement_NoDup n ix : NoDup (complement n ix).
Proof. apply NoDup_filter, NoDup_zrange. Qed.

Lemma complement_ne n ix : (length ix < n)%nat -> complement n ix <> [].
Proof.
  intros Hl E.
  assert (incl (zrange (Z.of_nat n)) ix) as Hi.
  { intros d Hd. destruct (in_dec Z.eq_dec d ix) as [|Hn]; auto. exfalso.
    assert (In d (complement n ix)) as H by (apply in_complement; split; auto; now apply in_zrange). now rewrite E in H. }
  apply NoDup_incl_length in Hi; [|apply NoDup_zrange]. rewrite length_zrange in Hi. lia.
Qed.

Lemma invert_ok n ix : (length ix <= n)%nat -> invert (Z.of_nat n) ix = Ok (complement n ix).
Proof. intros H. unfold invert. destruct (Z.ltb_spec (Z.of_nat n) (Z.of_nat (length ix))); [lia|reflexivity]. Qed.

Lemma proj_writes_other dims dims' vals main : (forall d, In d dims -> ~ In d dims') -> Forall (fun d => 0 <= d) dims ->
  Forall (fun d => 0 <= d) dims' -> proj dims (writes dims' vals main) = proj dims main.
Proof.
  intros H H0 H1. unfold proj. apply map_ext_in. intros d Hd. apply nth_writes_other; auto.
  rewrite Forall_forall in H0. rewrite Z2Nat.id by auto. auto.
Qed.

(** a loop whose body leaves the main index where it was is an ordinary mapped loop *)
Lemma mindex_loop_m_same {S} fuel (body : list Z -> S -> outcome (list Z * S)) (b : list Z -> S -> outcome S) dims szs
  (P : list Z -> Prop) : dims <> [] -> NoDup dims -> length szs = length dims ->
  (forall main, P main -> valid_dims (length main) dims) ->
  (forall main vals, P main -> P (writes dims vals main)) ->
  (forall main s, P main -> body main s = let* s' := b main s in Ok (main, s')) ->
  forall e main s, P main -> mindex_loop_m fuel body (MI dims szs e) main s = mindex_loop fuel b (MI dims szs e) main s.
Proof.
  intros Hne Hn Hl Hv Hw Hb. induction fuel as [|f IH]; intros e main s Hp; [reflexivity|].
  cbn [mindex_loop_m mindex_loop mi_end]. destruct e; auto. rewrite Hb by auto. destruct (b main s) as [s'| | |]; cbn [bind]; auto.
  unfold mindex_next. cbn [mi_dims mi_sizes mi_end]. rewrite carry_loop_spec by auto. cbn [bind].
  apply IH. auto.
Qed.

Lemma foldM_flat {A B S} (f : A -> list B) (body : B -> S -> outcome S) l s :
  foldM (fun a s => foldM body (f a) s) l s = foldM body (flat_map f l) s.
Proof.
  revert s. induction l as [|a l IH]; intros s; simpl; auto. rewrite foldM_app.
  destruct (foldM body (f a) s); cbn [bind]; auto.
Qed.

Section Step.
Context (sizes ix : list Z).
Hypothesis Hf : fits sizes.
Hypothesis Hix : ix <> [].
Hypothesis Hn : NoDup ix.
Hypothesis Hv : valid_dims (length sizes) ix.
Hypothesis Hl : (length ix < length sizes)%nat.
Let inv := complement (length sizes) ix.
Let zeros := repeat 0 (length sizes).

Definition visit : list (list Z) :=
  flat_map (fun co => map (fun ci => writes ix ci (writes (complement (length sizes) ix) co (repeat 0 (length sizes))))
                          (all_indices (proj ix sizes)))
           (all_indices (proj (complement (length sizes) ix) sizes)).

Lemma nonneg_dims n dims : valid_dims n dims -> Forall (fun d => 0 <= d) dims.
Proof. intros H. eapply Forall_impl; [|exact H]. simpl. lia. Qed.

Lemma ix_inv d : In d ix -> ~ In d inv.
Proof. intros H H'. apply in_complement in H'. tauto. Qed.

Lemma zeros_in : index_in sizes zeros.
Proof. apply index_in_zeros. now apply fits_pos. Qed.

Lemma len_idx dims c : index_in (proj dims sizes) c -> length c = length dims.
Proof. intros H. rewrite (index_in_length _ _ H). apply proj_length. Qed.

Lemma w_in co ci : index_in (proj inv sizes) co -> index_in (proj ix sizes) ci -> index_in sizes (writes ix ci (writes inv co zeros)).
Proof.
  intros Hco Hci. apply writes_index_in; auto. apply writes_index_in; auto; [apply zeros_in|apply complement_NoDup|apply complement_valid].
Qed.

Lemma w_ix co ci : index_in (proj ix sizes) ci -> proj ix (writes ix ci (writes inv co zeros)) = ci.
Proof.
  intros Hci. apply proj_writes; auto; [|now apply len_idx]. rewrite length_writes. unfold zeros. now rewrite repeat_length.
Qed.

Lemma w_inv co ci : index_in (proj inv sizes) co -> proj inv (writes ix ci (writes inv co zeros)) = co.
Proof.
  intros Hco. rewrite proj_writes_other.
  - apply proj_writes; [apply complement_NoDup| |now apply len_idx]. unfold zeros. rewrite repeat_length. apply complement_valid.
  - intros d Hd Hd'. now apply (ix_inv d).
  - apply nonneg_dims with (length sizes), complement_valid.
  - now apply nonneg_dims with (length sizes).
Qed.

Lemma w_all i : index_in sizes i -> writes ix (proj ix i) (writes inv (proj inv i) zeros) = i.
Proof.
  intros Hi. pose proof (index_in_length _ _ Hi) as Hli.
  assert (length (writes ix (proj ix i) (writes inv (proj inv i) zeros)) = length sizes) as Hlw.
  { rewrite !length_writes. apply repeat_length. }
  apply nth_ext with (d := 0) (d' := 0); [lia|]. intros k Hk. rewrite Hlw in Hk.
  pose proof (w_ix (proj inv i) (proj ix i) (index_in_valid_proj Hv Hi)) as E1.
  pose proof (w_inv (proj inv i) (proj ix i) (index_in_valid_proj (complement_valid _ _) Hi)) as E2.
  assert (forall dims a b, proj dims a = proj dims b -> In (Z.of_nat k) dims -> nth k a 0 = nth k b 0) as Q.
  { induction dims as [|d ds IH]; simpl; intros a b E H; [easy|]. injection E as Ea Eb. destruct H as [->|H].
    - now rewrite Nat2Z.id in Ea.
    - auto. }
  destruct (in_dec Z.eq_dec (Z.of_nat k) ix) as [H|H]; [exact (Q _ _ _ E1 H)|].
  apply (Q _ _ _ E2). apply in_complement. split; auto. lia.
Qed.

Lemma visit_NoDup : NoDup visit.
Proof.
  unfold visit. fold inv. apply NoDup_flat_map.
  - apply NoDup_all_indices.
  - intros co Hco. apply in_all_indices in Hco.
    assert (forall l, NoDup l -> (forall c, In c l -> index_in (proj ix sizes) c) ->
      NoDup (map (fun ci => writes ix ci (writes inv co zeros)) l)) as G.
    { induction 1 as [|c l Hc Hl' IH]; simpl; intros Hi; constructor; auto.
      intros H. apply in_map_iff in H as (c' & E & Hc'). apply (f_equal (proj ix)) in E. rewrite !w_ix in E by auto. congruence. }
    apply G; [apply NoDup_all_indices|]. intros c. apply in_all_indices.
  - intros co co' i Hco Hco' Hi Hi'. apply in_all_indices in Hco, Hco'.
    apply in_map_iff in Hi as (c & <- & _). apply in_map_iff in Hi' as (c' & E & _). apply (f_equal (proj inv)) in E.
    fold zeros in E. rewrite !w_inv in E by auto. auto.
Qed.

Lemma in_visit i : In i visit <-> index_in sizes i.
Proof.
  unfold visit. fold inv. rewrite in_flat_map. split.
  - intros (co & Hco & Hi). apply in_map_iff in Hi as (ci & <- & Hci). apply in_all_indices in Hco, Hci. now apply w_in.
  - intros Hi. exists (proj inv i). split.
    + apply in_all_indices. apply index_in_valid_proj; auto. apply complement_valid.
    + apply in_map_iff. exists (proj ix i). split; [now apply w_all|]. apply in_all_indices. now apply index_in_valid_proj.
Qed.

Lemma fits_ix : fits (proj ix sizes). Proof. now apply fits_proj. Qed.
Lemma fits_inv : fits (proj inv sizes).
Proof. apply fits_proj; auto; [apply complement_ne; auto|apply complement_NoDup|apply complement_valid]. Qed.

Context {M T : Type} (SO : ScaleOps M T) (add : T -> T -> T).
Hypothesis Hadd : forall x y, n_add (sc_num SO) x y = Ok (add x y).

Definition gmargin (f : list Z -> T) (c : list Z) : T :=
  fold_left add (map f (filter (fun i => idx_eqb (proj ix i) c) (all_indices sizes))) (n_zero (sc_num SO)).

Lemma foldM_add l : forall acc, foldM (fun x acc => n_add (sc_num SO) acc x) l acc = Ok (fold_left add l acc).
Proof. induction l as [|x l IH]; intros acc; simpl; auto. rewrite Hadd. cbn [bind]. apply IH. Qed.

Lemma greduce f : reduce (sc_num SO) (mk sizes f) ix = Ok (mk (proj ix sizes) (gmargin f)).
Proof.
  apply reduce_mk; auto; [apply fits_ix|]. intros c Hc. unfold vec_sum. apply foldM_add.
Qed.

Definition scaled (g : list Z -> M) (f : list Z -> T) (i : list Z) : T :=
  let r := gmargin f (proj ix i) in
  if n_eqb (sc_num SO) r (n_zero (sc_num SO)) then n_zero (sc_num SO) else sc_scale SO (f i) (g (proj ix i)) r.

Lemma rscale_step_ok fuel (g : list Z -> M) f : prodZ sizes < Z.of_nat fuel ->
  rscale_step SO fuel ix (mk (proj ix sizes) g) (mk sizes f) = Ok (mk sizes (scaled g f)).
Proof.
  intros Hfuel. unfold rscale_step. rewrite greduce. cbn [bind]. rewrite sizes_mk.
  rewrite index_new_ok by now apply fits_ne. cbn [bind].
  rewrite invert_ok by lia. cbn [bind]. fold inv. rewrite mindex_new_ok by apply complement_valid. cbn [bind ix_idx].
  set (cell := rscale_cell SO (mk (proj ix sizes) (gmargin f)) (mk (proj ix sizes) g) ix).
  pose proof fits_ix as Fx. pose proof fits_inv as Fi.
  pose proof (prodZ_proj_le sizes ix (fits_pos _ Hf) Hn Hv) as Lx.
  pose proof (prodZ_proj_le sizes inv (fits_pos _ Hf) (complement_NoDup _ _) (complement_valid _ _)) as Li.
  set (b := fun mainv (a : nd T) => foldM (fun ci => cell (writes ix ci mainv)) (all_indices (proj ix sizes)) a).
  set (P := fun main : list Z => length main = length sizes /\ proj ix main = repeat 0 (length ix)).
  assert (forall i h, index_in sizes i -> cell i (mk sizes h) = Ok (mk sizes (fupd h i
     (if n_eqb (sc_num SO) (gmargin f (proj ix i)) (n_zero (sc_num SO)) then n_zero (sc_num SO)
      else sc_scale SO (h i) (g (proj ix i)) (gmargin f (proj ix i)))))) as Hcell.
  { intros i h Hi. unfold cell, rscale_cell. rewrite mapM_vec_get_proj by (now rewrite (index_in_length _ _ Hi)). cbn [bind].
    rewrite nd_get_mk by (auto; now apply index_in_valid_proj). cbn [bind].
    destruct (n_eqb (sc_num SO) (gmargin f (proj ix i)) (n_zero (sc_num SO))); cbn [negb].
    - now apply nd_set_mk.
    - rewrite nd_get_mk by (auto; now apply index_in_valid_proj). cbn [bind].
      rewrite nd_get_mk by auto. cbn [bind]. now apply nd_set_mk. }
  assert (forall fu main a, P main -> nd_sizes a = sizes -> prodZ (proj ix sizes) < Z.of_nat fu ->
     (let* ii := mindex_new (IX main (nd_sizes a) false) ix in mindex_loop fu cell ii main a) =
     let* a' := b main a in Ok (main, a')) as Hbody.
  { intros fu main a [Hlm Hz] Ha Hfu. rewrite Ha. unfold mindex_new. cbn [ix_idx ix_sizes ix_end].
    rewrite mapM_vec_get_proj by auto. cbn [bind]. rewrite mapM_vec_get_proj by now rewrite Hlm. cbn [bind].
    rewrite mindex_loop_spec; auto; try (now rewrite Hlm); try (apply proj_length); now apply fits_pos. }
  (* the loop keeps the array's shape, so the body can be rewritten *)
  assert (forall main a, P main -> index_in sizes main -> nd_sizes a = sizes -> (exists h, a = mk sizes h) ->
     exists h', b main a = Ok (mk sizes h')) as Hkeep.
  { intros main a [Hlm Hz] Him Ha (h & ->). unfold b.
    assert (forall l h, (forall c, In c l -> index_in (proj ix sizes) c) ->
      exists h', foldM (fun ci => cell (writes ix ci main)) l (mk sizes h) = Ok (mk sizes h')) as G.
    { induction l as [|c l IH]; intros h0 Hc; simpl; [eauto|]. rewrite Hcell by (apply writes_index_in; auto; apply Hc; now left).
      cbn [bind]. apply IH. intros. apply Hc. now right. }
    apply G. intros c. apply in_all_indices. }
  set (body := fun mainv a => let* ii := mindex_new (IX mainv (nd_sizes a) false) ix in mindex_loop fuel cell ii mainv a).
  assert (forall fu main a h, P main -> index_in sizes main -> a = mk sizes h -> forall e,
    mindex_loop_m fu body (MI inv (proj inv sizes) e) main a = mindex_loop fu b (MI inv (proj inv sizes) e) main a) as Hsame.
  { induction fu as [|fu IH]; intros main a h HP Him Ea e; [reflexivity|].
    cbn [mindex_loop_m mindex_loop mi_end]. destruct e; auto. unfold body at 1.
    rewrite Hbody; [|auto|now rewrite Ea|lia].
    destruct (Hkeep main a HP Him) as (h' & Eh); [now rewrite Ea|eauto|]. rewrite Eh. cbn [bind].
    destruct HP as [Hlm Hz].
    unfold mindex_next. cbn [mi_dims mi_sizes mi_end].
    rewrite carry_loop_spec; [|apply complement_ne; auto|apply complement_NoDup|rewrite Hlm; apply complement_valid|apply proj_length].
    cbn [bind]. eapply IH; eauto.
    - split; [now rewrite length_writes|]. rewrite proj_writes_other; auto.
      + intros d. apply ix_inv.
      + now apply nonneg_dims with (length sizes).
      + apply nonneg_dims with (length sizes), complement_valid.
    - assert (index_in (proj inv sizes) (proj inv main)) as Hpi by (apply index_in_valid_proj; auto; apply complement_valid).
      apply writes_index_in; auto; [apply complement_NoDup|apply complement_valid|]. now apply (odo_spec _ _ Hpi). }
  fold body. erewrite Hsame; [|split; [apply repeat_length|]|apply zeros_in|reflexivity].
  2:{ clear. unfold proj. induction ix as [|d l IH]; simpl; auto. f_equal; auto. apply nth_repeat. }
  rewrite mindex_loop_spec; auto.
  - fold zeros. unfold b. rewrite (foldM_ext _ (fun co s => foldM cell (map (fun ci => writes ix ci (writes inv co zeros)) (all_indices (proj ix sizes))) s)).
    + rewrite foldM_flat. change (foldM cell (flat_map _ _) (mk sizes f)) with (foldM cell visit (mk sizes f)).
      rewrite (cell_loop_list sizes cell (fun i x => if n_eqb (sc_num SO) (gmargin f (proj ix i)) (n_zero (sc_num SO)) then n_zero (sc_num SO)
      else sc_scale SO x (g (proj ix i)) (gmargin f (proj ix i)))); [|exact Hf|exact Hcell|apply visit_NoDup|apply in_visit].
      cbn [bind]. reflexivity.
    + intros co s _. now rewrite foldM_map.
  - apply complement_ne; auto.
  - apply complement_NoDup.
  - rewrite repeat_length. apply complement_valid.
  - apply proj_length.
  - clear. unfold proj. unfold inv. clear inv. generalize (complement (length sizes) ix). intros inv. induction inv as [|d l IH]; simpl; auto. f_equal; auto. apply nth_repeat.
  - lia.
Qed.

End Step.

(** * Loops over the marginals *)

Lemma numbered_map {A B} (h : A -> B) l : forall k, numbered k (map h l) = map (fun p => (fst p, h (snd p))) (numbered k l).
Proof. induction l as [|a l IH]; intros k; simpl; auto. now rewrite IH. Qed.

Lemma in_numbered_at {A} (l : list A) : forall j k a, In (k, a) (numbered (Z.of_nat j) l) ->
  exists n, k = Z.of_nat n /\ (j <= n)%nat /\ nth_error l (n - j) = Some a.
Proof.
  induction l as [|x l IH]; intros j k a; simpl; [easy|]. intros [[= <- <-]|H].
  - exists j. rewrite Nat.sub_diag. auto.
  - replace (Z.of_nat j + 1) with (Z.of_nat (S j)) in H by lia. apply IH in H as (n & -> & Hn & E). exists n. repeat split; [lia|].
    replace (n - j)%nat with (S (n - S j)) by lia. auto.
Qed.

Lemma upd_app {A} (pre : list A) x post y : upd (pre ++ x :: post) (length pre) y = pre ++ y :: post.
Proof. induction pre; simpl; congruence. Qed.

Lemma upd_loop {A B} (l : list A) (F : Z * A -> list B -> outcome (list B)) (out : A -> B) (Q : A -> B -> Prop) init :
  (forall k a b s, nth_error l k = Some a -> length s = length l -> nth_error s k = Some b -> Q a b ->
     F (Z.of_nat k, a) s = Ok (upd s k (out a))) ->
  Forall2 Q l init -> foldM F (numbered 0 l) init = Ok (map out l).
Proof.
  intros HF HQ.
  assert (forall l2 init2 pre, l = pre ++ l2 -> Forall2 Q l2 init2 ->
    foldM F (numbered (Z.of_nat (length pre)) l2) (map out pre ++ init2) = Ok (map out l)) as G.
  { induction l2 as [|a l2 IH]; intros init2 pre E H2; inversion H2 as [|? y ? l' Hq Hrest]; subst; cbn [numbered foldM].
    - now rewrite !app_nil_r.
    - rewrite (HF _ a y); auto.
      + cbn [bind]. rewrite <- (map_length out pre) at 2. rewrite upd_app.
        replace (Z.of_nat (length pre) + 1) with (Z.of_nat (length (pre ++ [a]))) by (rewrite app_length; simpl; lia).
        specialize (IH l' (pre ++ [a])). rewrite map_app, <- !app_assoc in IH. apply IH; auto.
      + rewrite nth_error_app2, Nat.sub_diag by lia. reflexivity.
      + rewrite !app_length, map_length. simpl. apply Forall2_len in Hrest. lia.
      + rewrite nth_error_app2; rewrite map_length; [|lia]. now rewrite Nat.sub_diag. }
  apply (G l init []); auto.
Qed.

Lemma upd_loop_acc {A B X} (l : list A) (F : Z * A -> list B * X -> outcome (list B * X)) (out : A -> B) (nx : A -> X -> X)
  (Q : A -> B -> Prop) init x0 :
  (forall k a b s x, nth_error l k = Some a -> length s = length l -> nth_error s k = Some b -> Q a b ->
     F (Z.of_nat k, a) (s, x) = Ok (upd s k (out a), nx a x)) ->
  Forall2 Q l init -> foldM F (numbered 0 l) (init, x0) = Ok (map out l, fold_left (fun x a => nx a x) l x0).
Proof.
  intros HF HQ.
  assert (forall l2 init2 pre x, l = pre ++ l2 -> Forall2 Q l2 init2 ->
    foldM F (numbered (Z.of_nat (length pre)) l2) (map out pre ++ init2, x) = Ok (map out l, fold_left (fun x a => nx a x) l2 x)) as G.
  { induction l2 as [|a l2 IH]; intros init2 pre x E H2; inversion H2 as [|? y ? l' Hq Hrest]; subst; cbn [numbered foldM fold_left].
    - now rewrite !app_nil_r.
    - rewrite (HF _ a y); auto.
      + cbn [bind]. rewrite <- (map_length out pre) at 2. rewrite upd_app.
        replace (Z.of_nat (length pre) + 1) with (Z.of_nat (length (pre ++ [a]))) by (rewrite app_length; simpl; lia).
        specialize (IH l' (pre ++ [a]) (nx a x)). rewrite map_app, <- !app_assoc in IH. apply IH; auto.
      + rewrite nth_error_app2, Nat.sub_diag by lia. reflexivity.
      + rewrite !app_length, map_length. simpl. apply Forall2_len in Hrest. lia.
      + rewrite nth_error_app2; rewrite map_length; [|lia]. now rewrite Nat.sub_diag. }
  apply (G l init [] x0); auto.
Qed.

Lemma vec_get_nth_error {A} (l : list A) k a : nth_error l k = Some a -> vec_get l (Z.of_nat k) = Ok a.
Proof.
  intros E. rewrite (vec_get_ok _ _ a).
  - rewrite Nat2Z.id. now rewrite (nth_error_nth _ _ _ E).
  - assert (k < length l)%nat by (apply nth_error_Some; congruence). lia.
Qed.

Lemma vec_set_nat {A} (l : list A) k a : (k < length l)%nat -> vec_set l (Z.of_nat k) a = Ok (upd l k a).
Proof. intros H. rewrite vec_set_ok by lia. now rewrite Nat2Z.id. Qed.

(** * solve *)

Definition gnd {M} (c : gcon M) : nd M := mk (g_sizes c) (g_at c).

(** the constraint's index list names distinct dimensions of the array, leaving at least one out, and its marginal has
    their sizes *)
Definition well_indexed {M} (sizes : list Z) (c : gcon M) : Prop :=
  g_dims c <> [] /\ NoDup (g_dims c) /\ valid_dims (length sizes) (g_dims c) /\ (length (g_dims c) < length sizes)%nat /\
  g_sizes c = proj (g_dims c) sizes.

Section Solve.
Context {M T : Type} (SO : ScaleOps M T) (EO : ErrOps T) (add : T -> T -> T).
Context (sizes : list Z) (cs : list (gcon M)).

Definition step (c : gcon M) (f : list Z -> T) : list Z -> T := scaled sizes (g_dims c) SO add (g_at c) f.
Definition sweep (f : list Z -> T) : list Z -> T := fold_left (fun f c => step c f) cs f.
Definition cell_error (f : list Z -> T) (c : gcon M) (k : list Z) : T :=
  e_abs EO (sc_diff SO (gmargin sizes (g_dims c) SO add f k) (g_at c k)).
Definition max_step (m e : T) : T := if n_ltb (sc_num SO) m e then e else m.
Definition errors_of (f : list Z -> T) (c : gcon M) : list T := map (cell_error f c) (all_indices (g_sizes c)).
Definition max_error (f : list Z -> T) : T :=
  fold_left (fun m c => fold_left max_step (errors_of f c) m) cs (e_lowest EO).
Definition converged (f : list Z -> T) : bool := n_ltb (sc_num SO) (max_error f) (e_tol EO).

(** the loop of solve on functions: the array and the number of sweeps made when it stops *)
Fixpoint sweeps (left : nat) (f : list Z -> T) (n : Z) : (list Z -> T) * Z :=
  match left with
  | O => (f, n)
  | S left' => let f' := sweep f in if converged f' then (f', n + 1) else sweeps left' f' (n + 1)
  end.

Hypothesis Hadd : forall x y, n_add (sc_num SO) x y = Ok (add x y).
Hypothesis Hf : fits sizes.
Hypothesis Hw : forall c, In c cs -> well_indexed sizes c.
Context (fuel : nat).
Hypothesis Hfuel : prodZ sizes < Z.of_nat fuel.

Lemma g_fits c : In c cs -> fits (g_sizes c).
Proof. intros Hc. destruct (Hw c Hc) as (H1 & H2 & H3 & H4 & ->). now apply fits_proj. Qed.

Lemma rscale_ok f : rscale SO fuel (map g_dims cs) (map gnd cs) (mk sizes f) = Ok (mk sizes (sweep f)).
Proof.
  unfold rscale, sweep. rewrite numbered_map, foldM_map.
  assert (forall l2 pre f, cs = pre ++ l2 ->
    foldM (fun b : Z * gcon M => let '(k, ix) := (fst b, g_dims (snd b)) in
       fun arr => let* m := vec_get (map gnd cs) k in rscale_step SO fuel ix m arr)
      (numbered (Z.of_nat (length pre)) l2) (mk sizes f) = Ok (mk sizes (fold_left (fun f c => step c f) l2 f))) as G.
  { induction l2 as [|c l2 IH]; intros pre f0 E; [reflexivity|]. cbn [numbered foldM fold_left fst snd].
    rewrite (vec_get_nth_error _ _ (gnd c)).
    2:{ rewrite E, map_app, nth_error_app2; rewrite map_length; [|lia]. now rewrite Nat.sub_diag. }
    cbn [bind]. destruct (Hw c) as (H1 & H2 & H3 & H4 & H5). { rewrite E. apply in_or_app. simpl. auto. }
    unfold gnd. rewrite H5. rewrite rscale_step_ok with (add := add) by auto. cbn [bind].
    replace (Z.of_nat (length pre) + 1) with (Z.of_nat (length (pre ++ [c]))) by (rewrite app_length; simpl; lia).
    apply IH. now rewrite <- app_assoc. }
  apply (G cs []). reflexivity.
Qed.

Definition diff_arr (f : list Z -> T) (c : gcon M) : nd T :=
  mk (g_sizes c) (fun k => sc_diff SO (gmargin sizes (g_dims c) SO add f k) (g_at c k)).

(** an array of the shape of the constraint's marginal *)
Definition shaped (c : gcon M) (d : nd T) : Prop := exists h, d = mkp (g_sizes c) h.

Lemma rdiff_ok f diffs : Forall2 shaped cs diffs ->
  rdiff SO (map g_dims cs) (map gnd cs) (mk sizes f) diffs = Ok (map (diff_arr f) cs).
Proof.
  intros Hd. unfold rdiff. rewrite numbered_map, foldM_map. cbn [fst snd].
  apply upd_loop with (Q := shaped); auto. intros k c d s Hk Hs Hsk (h & Eh). cbn [fst snd].
  assert (In c cs) as Hc by (eapply nth_error_In; eauto). pose proof (g_fits c Hc) as Fc. destruct (Hw c Hc) as (H1 & H2 & H3 & H4 & H5).
  rewrite greduce with (add := add) by auto. cbn [bind].
  rewrite (vec_get_nth_error _ _ (gnd c)) by (rewrite nth_error_map, Hk; reflexivity). cbn [bind].
  rewrite (vec_get_nth_error _ _ d) by auto. cbn [bind]. unfold sdiff. rewrite sizes_mk, index_loop_spec by (rewrite <- H5; auto).
  rewrite <- H5. rewrite Eh.
  rewrite (foldM_ext _ (fun i d => nd_set d i (sc_diff SO (gmargin sizes (g_dims c) SO add f i) (g_at c i)))).
  - rewrite fill_loop by auto. cbn [bind]. rewrite vec_set_nat; [reflexivity|]. rewrite Hs. apply nth_error_Some. congruence.
  - intros i d' Hi. apply in_all_indices in Hi. rewrite nd_get_mk by auto. cbn [bind]. unfold gnd. rewrite nd_get_mk by auto. reflexivity.
Qed.

Lemma fill_fold {X} szs (g : list Z -> T) (nx : list Z -> X -> X) f0 x0 : fits szs ->
  foldM (fun i '(er, x) => let* er := nd_set er i (g i) in Ok (er, nx i x)) (all_indices szs) (mkp szs f0, x0) =
  Ok (mk szs g, fold_left (fun x i => nx i x) (all_indices szs) x0).
Proof.
  intros Fs. pose proof (fill_loop szs g f0 Fs) as E. revert E. generalize (mk szs g) as r.
  assert (forall i, In i (all_indices szs) -> index_in szs i) as Hi by (intros i; apply in_all_indices).
  revert f0 x0 Hi. generalize (all_indices szs) as l. induction l as [|i l IH]; intros f0 x0 Hi r E; cbn [foldM fold_left] in *.
  - congruence.
  - rewrite nd_set_mkp in * by (auto; apply Hi; now left). cbn [bind] in *. apply IH; auto. intros. apply Hi. now right.
Qed.

Definition err_arr (f : list Z -> T) (c : gcon M) : nd T := mk (g_sizes c) (cell_error f c).

Lemma compute_errors_ok f errs : Forall2 shaped cs errs ->
  compute_errors SO EO (map (diff_arr f) cs) errs = Ok (map (err_arr f) cs, max_error f, converged f).
Proof.
  intros He. unfold compute_errors. rewrite numbered_map, foldM_map.
  rewrite (upd_loop_acc cs _ (err_arr f) (fun c m => fold_left max_step (errors_of f c) m) shaped); auto.
  intros k c d s x Hk Hs Hsk (h & ->). cbn [fst snd].
  assert (In c cs) as Hc by (eapply nth_error_In; eauto). pose proof (g_fits c Hc) as Fc.
  rewrite (vec_get_nth_error _ _ _ Hsk). cbn [bind]. unfold diff_arr at 1. rewrite sizes_mk, index_loop_spec by auto.
  rewrite (foldM_ext _ (fun i '(er, x) => let* er := nd_set er i (cell_error f c i) in Ok (er, max_step x (cell_error f c i)))).
  - rewrite fill_fold by auto. cbn [bind]. rewrite vec_set_nat by (rewrite Hs; apply nth_error_Some; congruence). cbn [bind].
    f_equal. f_equal. unfold errors_of. generalize (all_indices (g_sizes c)) as l. clear. intros l. revert x. induction l; intros x; simpl; auto.
  - intros i [er m] Hi. apply in_all_indices in Hi. unfold diff_arr. rewrite nd_get_mk by auto. reflexivity.
Qed.

Lemma Forall2_map_r {A B C} (R : A -> C -> Prop) (h : B -> C) (l : list A) (l' : list B) :
  Forall2 (fun a b => R a (h b)) l l' -> Forall2 R l (map h l').
Proof. induction 1; simpl; constructor; auto. Qed.

Lemma shaped_map (h : gcon M -> nd T) : (forall c, shaped c (h c)) -> Forall2 shaped cs (map h cs).
Proof. clear. intros H. induction cs; simpl; constructor; auto. Qed.

Lemma ipf_loop_ok : forall left f diffs errs mx n, Forall2 shaped cs diffs -> Forall2 shaped cs errs ->
  ipf_loop SO EO fuel (S left) (map g_dims cs) (map gnd cs) (mk sizes f) diffs errs mx false n =
  let '(f', n') := sweeps (S left) f n in
  Ok (IS (mk sizes f') (map (err_arr f') cs) (max_error f') (converged f') n').
Proof.
  induction left as [|left IH]; intros f diffs errs mx n Hd He.
  - cbn [ipf_loop sweeps]. rewrite rscale_ok. cbn [bind]. rewrite rdiff_ok by auto. cbn [bind].
    rewrite compute_errors_ok by auto. cbn [bind]. destruct (converged (sweep f)) eqn:E; rewrite E; reflexivity.
  - change (sweeps (S (S left)) f n) with
      (if converged (sweep f) then (sweep f, n + 1) else sweeps (S left) (sweep f) (n + 1)).
    remember (S left) as l1. cbn [ipf_loop]. rewrite rscale_ok. cbn [bind]. rewrite rdiff_ok by auto. cbn [bind].
    rewrite compute_errors_ok by auto. cbn [bind]. subst l1. destruct (converged (sweep f)) eqn:E.
    + cbn [ipf_loop]. now rewrite E.
    + apply IH; apply shaped_map; intros c; eexists; reflexivity.
Qed.

Lemma check_seed_same : check_seed sizes sizes = Ok tt.
Proof.
  unfold check_seed. rewrite Nat.eqb_refl. cbn [negb].
  replace (forallb _ (combine sizes sizes)) with true; auto. clear. induction sizes as [|n ns IH]; simpl; auto. now rewrite Z.eqb_refl.
Qed.

Lemma copy_seed_ok (f : list Z -> T) h : copy_seed (mk sizes f) (mkp sizes h) = Ok (mk sizes f).
Proof.
  unfold copy_seed. rewrite nd_values_mk by now apply fits_pos. cbn [bind]. unfold mkp at 1 2. cbn [nd_data].
  rewrite !map_length, Z.leb_refl. cbn [nd_sizes nd_offs nd_storage mkp nd_data].
  rewrite skipn_all2 by (rewrite !map_length; lia). rewrite app_nil_r. unfold mk, mkp. now rewrite map_map.
Qed.

Lemma new_arrays : mapM (fun m : nd M => nd_new (T := T) (nd_sizes m)) (map gnd cs) = Ok (map (fun c => mkp (g_sizes c) (fun _ => None)) cs).
Proof.
  clear Hadd Hfuel. assert (forall l, incl l cs -> mapM (fun m : nd M => nd_new (T := T) (nd_sizes m)) (map gnd l) = Ok (map (fun c => mkp (g_sizes c) (fun _ => None)) l)) as G.
  { induction l as [|c l IH]; intros Hi; simpl; auto. rewrite nd_new_ok by (apply g_fits, Hi; now left). cbn [bind].
    rewrite IH by (intros x Hx; apply Hi; now right). reflexivity. }
  apply G. apply incl_refl.
Qed.

Theorem ipf_solve_ok pop f h :
  ipf_solve SO EO fuel (MS sizes (map g_dims cs) pop (mkp sizes h)) (map gnd cs) (mk sizes f) =
  let '(f', n') := sweeps (Z.to_nat 1000) f 0 in
  Ok (IS (mk sizes f') (map (err_arr f') cs) (max_error f') (converged f') n').
Proof.
  unfold ipf_solve. cbn [ms_array ms_indices]. rewrite sizes_mk, sizes_mkp, check_seed_same. cbn [bind].
  rewrite index_new_ok by now apply fits_ne. cbn [bind]. unfold make_mappings.
  rewrite (mapM_ok _ (fun dims => MI dims (proj dims sizes) false)).
  2:{ intros dims Hd. apply in_map_iff in Hd as (c & <- & Hc). apply mindex_new_ok. now apply Hw. }
  cbn [bind]. rewrite copy_seed_ok. cbn [bind]. rewrite new_arrays. cbn [bind].
  change (Z.to_nat 1000) with (S 999). apply ipf_loop_ok; apply shaped_map; intros c; eexists; reflexivity.
Qed.

End Solve.
