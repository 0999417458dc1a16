(** The constructor of Microsynthesis accepts exactly the valid constraints. *)
From Verif Require Import Base Spec SpecFacts NDArray IndexProofs Float64 FloatProofs ArrayOps ArrayProofs Bind BindProofs
  Micro SynthSpec.
Open Scope Z_scope.

Lemma Forall2_len {A B} (R : A -> B -> Prop) l l' : Forall2 R l l' -> length l = length l'.
Proof. induction 1; simpl; auto. Qed.

Definition nd_of (c : con) : nd Z := mk (c_sizes c) (c_at c).

(** * Collecting the sizes *)

Definition repr_map (m l : list (Z * Z)) : Prop := NoDup (map fst m) /\ forall e, In e m <-> In e l.

Definition functional (l : list (Z * Z)) : Prop := forall d n n', In (d, n) l -> In (d, n') l -> n = n'.

Lemma NoDup_functional m : NoDup (map fst m) -> functional m.
Proof.
  induction m as [|[d n] m IH]; simpl; intros H d' x y Hx Hy; [easy|]. inversion H; subst.
  destruct Hx as [[= <- <-]|Hx], Hy as [E|Hy].
  - now injection E.
  - exfalso. apply H2. apply in_map_iff. now exists (d, y).
  - injection E as <- <-. exfalso. apply H2. apply in_map_iff. now exists (d, x).
  - eapply IH; eauto.
Qed.

Lemma map_find_some m k v : NoDup (map fst m) -> (map_find m k = Some v <-> In (k, v) m).
Proof.
  induction m as [|[d n] m IH]; simpl; intros H; [split; easy|]. inversion H; subst.
  destruct (Z.eqb_spec d k) as [->|Hne].
  - split; [intros [= ->]; now left|]. intros [[= ->]|Hin]; auto.
    exfalso. apply H2. apply in_map_iff. now exists (k, v).
  - rewrite IH by auto. split; [now right|]. intros [[= E _]|Hin]; auto. congruence.
Qed.

Lemma map_find_none m k : map_find m k = None <-> ~ In k (map fst m).
Proof.
  induction m as [|[d n] m IH]; simpl; [split; [auto|easy]|].
  destruct (Z.eqb_spec d k) as [->|Hne].
  - split; [discriminate|]. intros H. exfalso. apply H. now left.
  - rewrite IH. split; intros H; [intros [E|Hin]; auto|]. intros Hin. apply H. now right.
Qed.

Lemma add_dims l : forall m l0, repr_map m l0 ->
  (exists m', foldM add_dim l m = Ok m' /\ repr_map m' (l0 ++ l)) \/
  (~ functional (l0 ++ l) /\ exists e, foldM add_dim l m = Throw e).
Proof.
  induction l as [|[d n] l IH]; intros m l0 [Hn Hm]; simpl.
  - left. exists m. rewrite app_nil_r. now repeat split; auto; apply Hm.
  - destruct (map_find m d) as [n'|] eqn:E; simpl.
    + apply map_find_some in E; auto. destruct (Z.eqb_spec n' n) as [->|Hne]; simpl.
      * destruct (IH m (l0 ++ [(d, n)])) as [(m' & E' & H')|(H' & e & E')].
        { split; auto. intros e. rewrite in_app_iff, <- Hm. simpl. split; auto. intros [|[<-|[]]]; auto. }
        { left. exists m'. rewrite <- app_assoc in H'. auto. }
        { right. rewrite <- app_assoc in H'. split; eauto. }
      * right. split; [|eauto]. intros Hf. apply Hne. apply (Hf d); apply in_app_iff; [left; now apply Hm|right; now left].
    + apply map_find_none in E. destruct (IH ((d, n) :: m) (l0 ++ [(d, n)])) as [(m' & E' & H')|(H' & e & E')].
      { split; [simpl; constructor; auto|]. intros e. rewrite in_app_iff. simpl. rewrite Hm. tauto. }
      { left. exists m'. rewrite <- app_assoc in H'. auto. }
      { right. rewrite <- app_assoc in H'. split; eauto. }
Qed.

Definition pairs (cs : list con) : list (Z * Z) := flat_map (fun c => combine (c_dims c) (c_sizes c)) cs.
Definition lengths_ok (cs : list con) : Prop := forall c, In c cs -> length (c_dims c) = length (c_sizes c).

Lemma collect_spec cs :
  (exists m, collect_sizes (map c_dims cs) (map nd_of cs) = Ok m /\ repr_map m (pairs cs) /\ lengths_ok cs) \/
  ((exists e, collect_sizes (map c_dims cs) (map nd_of cs) = Throw e) /\ ~ (lengths_ok cs /\ functional (pairs cs))).
Proof.
  unfold collect_sizes.
  assert (forall cs m l0, repr_map m l0 ->
    (exists m', foldM (fun '(ix, a) m =>
           if negb (Nat.eqb (length ix) (length (nd_sizes a)))
           then Throw (RuntimeError "index/marginal dimension mismatch")
           else foldM add_dim (combine ix (nd_sizes a)) m)
        (combine (map c_dims cs) (map nd_of cs)) m = Ok m' /\ repr_map m' (l0 ++ pairs cs) /\ lengths_ok cs) \/
    ((exists e, foldM (fun '(ix, a) m =>
           if negb (Nat.eqb (length ix) (length (nd_sizes a)))
           then Throw (RuntimeError "index/marginal dimension mismatch")
           else foldM add_dim (combine ix (nd_sizes a)) m)
        (combine (map c_dims cs) (map nd_of cs)) m = Throw e) /\ ~ (lengths_ok cs /\ functional (l0 ++ pairs cs)))) as G.
  { clear cs. induction cs as [|c cs IH]; intros m l0 Hr; simpl.
    - left. exists m. rewrite app_nil_r. repeat split; try apply Hr. intros c [].
    - destruct (Nat.eqb_spec (length (c_dims c)) (length (c_sizes c))) as [El|El]; simpl.
      + destruct (add_dims (combine (c_dims c) (c_sizes c)) m l0 Hr) as [(m1 & E1 & H1)|(H1 & e & E1)].
        * rewrite E1. cbn [bind]. destruct (IH m1 _ H1) as [(m2 & E2 & H2 & L2)|((e & E2) & H2)].
          { left. exists m2. rewrite app_assoc. repeat split; try apply H2; auto. intros c' [<-|Hc]; auto. }
          { right. split; eauto. rewrite app_assoc. intros [Hl Hf]. apply H2. split; auto. intros c' Hc. apply Hl. now right. }
        * right. rewrite E1. cbn [bind]. split; eauto. intros [_ Hf]. apply H1. intros d n n' Hi Hi'.
          rewrite app_assoc in Hf. apply (Hf d); apply in_app_iff; now left.
      + right. split; eauto. intros [Hl _]. apply El. apply Hl. now left. }
  destruct (G cs [] []) as [H|H]; auto. split; [constructor|easy].
Qed.

(** * The implied sizes *)

Lemma in_combine_nth_error {A B} (l : list A) (l' : list B) a b :
  In (a, b) (combine l l') <-> exists k, nth_error l k = Some a /\ nth_error l' k = Some b.
Proof.
  revert l'. induction l as [|x l IH]; intros [|y l']; simpl.
  - split; [easy|]. intros ([|k] & ? & ?); discriminate.
  - split; [easy|]. intros ([|k] & ? & ?); discriminate.
  - split; [easy|]. intros ([|k] & ? & ?); discriminate.
  - rewrite IH. split.
    + intros [[= -> ->]|(k & H)]; [now exists 0%nat|now exists (S k)].
    + intros ([|k] & H1 & H2); simpl in *; [left; congruence|right; now exists k].
Qed.


Lemma in_pairs cs d n : In (d, n) (pairs cs) <-> exists c, In c cs /\ In (d, n) (combine (c_dims c) (c_sizes c)).
Proof. unfold pairs. now rewrite in_flat_map. Qed.

Lemma in_dims_pair c d : length (c_dims c) = length (c_sizes c) -> In d (c_dims c) ->
  exists n, In (d, n) (combine (c_dims c) (c_sizes c)).
Proof.
  intros Hl Hd. apply In_nth_error in Hd as [k Hk]. destruct (nth_error (c_sizes c) k) as [n|] eqn:E.
  - exists n. apply in_combine_nth_error. eauto.
  - apply nth_error_None in E. assert (k < length (c_dims c))%nat by (apply nth_error_Some; congruence). lia.
Qed.

(** the sizes read off the map *)
Lemma sizes_of_map cs m sizes : lengths_ok cs -> repr_map m (pairs cs) ->
  mapM (fun k => match map_find m k with
                 | Some n => Ok n
                 | None => Throw (RuntimeError "dimension size not defined")
                 end) (zrange (Z.of_nat (length m))) = Ok sizes ->
  implied cs sizes /\ length sizes = length m.
Proof.
  intros Hl [Hn Hm] E.
  assert (forall l r, mapM (fun k => match map_find m k with
                 | Some n => Ok n
                 | None => Throw (RuntimeError "dimension size not defined")
                 end) l = Ok r -> Forall2 (fun k n => In (k, n) m) l r) as G.
  { clear - Hn. induction l as [|k l IH]; simpl; intros r E; [injection E as <-; constructor|].
    destruct (map_find m k) as [n|] eqn:Ek; simpl in E; [|discriminate].
    destruct mapM as [r'| | |] eqn:Er; simpl in E; try discriminate. injection E as <-.
    constructor; auto. now apply map_find_some. }
  apply G in E. clear G.
  assert (length sizes = length m) as Hlen.
  { apply Forall2_len in E. rewrite length_zrange in E. lia. }
  assert (forall d n, In (d, n) m <-> 0 <= d < Z.of_nat (length m) /\ nth (Z.to_nat d) sizes 0 = n) as Hm'.
  { assert (forall d, 0 <= d < Z.of_nat (length m) -> In (d, nth (Z.to_nat d) sizes 0) m) as H1.
    { intros d Hd. assert (forall l r k, Forall2 (fun k n => In (k, n) m) l r -> nth_error l k = Some d ->
        In (d, nth k r 0) m) as G.
      { clear. intros l r k H. revert k. induction H; intros [|k] Hk; simpl in *; try discriminate; auto.
        now injection Hk as ->. }
      eapply G; eauto. now apply nth_error_zrange. }
    assert (incl (zrange (Z.of_nat (length m))) (map fst m)) as Hincl.
    { intros d Hd. apply in_zrange in Hd. apply in_map_iff. eexists; split; [|now apply H1]. reflexivity. }
    assert (incl (map fst m) (zrange (Z.of_nat (length m)))) as Hincl'.
    { apply NoDup_length_incl; auto; [apply NoDup_zrange|]. rewrite map_length, length_zrange. lia. }
    intros d n. split.
    - intros Hin. assert (0 <= d < Z.of_nat (length m)) as Hd.
      { apply in_zrange, Hincl', in_map_iff. now exists (d, n). }
      split; auto. eapply (NoDup_functional m Hn d); eauto.
    - intros [Hd <-]. auto. }
  split; auto. unfold implied. rewrite Hlen. split.
  - intros d. split.
    + intros (c & Hc & Hd). destruct (in_dims_pair c d) as [n Hin]; auto.
      apply (Hm' d n), Hm, in_pairs. eauto.
    + intros Hd. assert (In (d, nth (Z.to_nat d) sizes 0) m) as Hin by (apply Hm'; auto).
      apply Hm, in_pairs in Hin as (c & Hc & Hin). exists c. split; auto. eapply in_combine_l; eauto.
  - intros c Hc. split; auto. unfold proj.
    apply nth_ext with (d := 0) (d' := 0); rewrite map_length; [now apply Hl|].
    intros k Hk. set (d := nth k (c_dims c) 0).
    rewrite (nth_indep _ 0 (nth (Z.to_nat 0) sizes 0)) by now rewrite map_length.
    rewrite (map_nth (fun d => nth (Z.to_nat d) sizes 0)).
    apply (Hm' d (nth k (c_sizes c) 0)). apply Hm, in_pairs. exists c. split; auto.
    apply in_combine_nth_error. exists k. split; apply nth_error_nth'; auto. now rewrite <- (Hl c Hc).
Qed.

Lemma implied_lengths cs sizes : implied cs sizes -> lengths_ok cs.
Proof. intros [_ H] c Hc. now apply H. Qed.

Lemma implied_pair cs sizes d n : implied cs sizes -> In (d, n) (pairs cs) ->
  0 <= d < Z.of_nat (length sizes) /\ nth (Z.to_nat d) sizes 0 = n.
Proof.
  intros [Hd Hp] Hin. apply in_pairs in Hin as (c & Hc & Hin).
  split; [apply Hd; exists c; split; auto; eapply in_combine_l; eauto|].
  apply in_combine_nth_error in Hin as (k & Hk & Hk'). destruct (Hp c Hc) as [_ E].
  rewrite <- E in Hk'. unfold proj in Hk'. rewrite nth_error_map, Hk in Hk'. simpl in Hk'. congruence.
Qed.

Lemma implied_functional cs sizes : implied cs sizes -> functional (pairs cs).
Proof.
  intros H d n n' Hn Hn'. apply (implied_pair _ _ _ _ H) in Hn, Hn'. destruct Hn, Hn'. congruence.
Qed.

(** the map read off the sizes *)
Lemma map_of_sizes cs m sizes : implied cs sizes -> repr_map m (pairs cs) -> length m = length sizes /\
  mapM (fun k => match map_find m k with
                 | Some n => Ok n
                 | None => Throw (RuntimeError "dimension size not defined")
                 end) (zrange (Z.of_nat (length m))) = Ok sizes.
Proof.
  intros Hi [Hn Hm].
  assert (forall d, 0 <= d < Z.of_nat (length sizes) -> In (d, nth (Z.to_nat d) sizes 0) m) as H1.
  { intros d Hd. apply Hi in Hd as Hd'. destruct Hd' as (c & Hc & Hd').
    destruct (in_dims_pair c d) as [n Hin]; auto. { now apply Hi. }
    assert (In (d, n) (pairs cs)) as Hp by (apply in_pairs; eauto).
    destruct (implied_pair _ _ _ _ Hi Hp) as [_ ->]. now apply Hm. }
  assert (length m = length sizes) as Hlen.
  { rewrite <- (map_length fst m). apply Nat.le_antisymm.
    - assert (incl (map fst m) (zrange (Z.of_nat (length sizes)))) as Hinc.
      { intros d Hd. apply in_map_iff in Hd as ([d' n] & <- & Hin). apply Hm in Hin.
        apply (implied_pair _ _ _ _ Hi) in Hin. now apply in_zrange. }
      apply NoDup_incl_length in Hinc; auto. rewrite length_zrange in Hinc. lia.
    - assert (incl (zrange (Z.of_nat (length sizes))) (map fst m)) as Hinc.
      { intros d Hd. apply in_zrange in Hd. apply in_map_iff. eexists; split; [|now apply H1]. reflexivity. }
      apply NoDup_incl_length in Hinc; [|apply NoDup_zrange]. rewrite length_zrange in Hinc. lia. }
  split; auto. rewrite Hlen.
  rewrite (mapM_ok _ (fun k => nth (Z.to_nat k) sizes 0)).
  - f_equal. unfold zrange. rewrite map_map. rewrite Nat2Z.id. apply nth_ext with (d := 0) (d' := 0).
    + now rewrite map_length, seq_length.
    + intros k Hk. rewrite map_length, seq_length in Hk.
      rewrite (nth_indep _ 0 (nth (Z.to_nat (Z.of_nat 0)) sizes 0)) by now rewrite map_length, seq_length.
      rewrite (map_nth (fun x => nth (Z.to_nat (Z.of_nat x)) sizes 0)), seq_nth by auto. simpl. now rewrite Nat2Z.id.
  - intros k Hk. apply in_zrange in Hk. now rewrite (proj2 (map_find_some m k _ Hn) (H1 k Hk)).
Qed.

Lemma mapM_throw_or {A B} (f : A -> outcome B) l :
  (forall a, In a l -> (exists b, f a = Ok b) \/ exists e, f a = Throw e) ->
  (exists r, mapM f l = Ok r) \/ exists e, mapM f l = Throw e.
Proof.
  induction l as [|a l IH]; simpl; intros H; [left; eauto|].
  destruct (H a (or_introl eq_refl)) as [(b & ->)|(e & ->)]; simpl; [|right; eauto].
  destruct IH as [(r & ->)|(e & ->)]; simpl; eauto.
Qed.

(** * Checking loops *)

Lemma foldM_check {A} (P : A -> Prop) (f : A -> unit -> outcome unit) l :
  (forall a, In a l -> (P a /\ f a tt = Ok tt) \/ (~ P a /\ exists e, f a tt = Throw e)) ->
  ((forall a, In a l -> P a) /\ foldM f l tt = Ok tt) \/
  (~ (forall a, In a l -> P a) /\ exists e, foldM f l tt = Throw e).
Proof.
  induction l as [|a l IH]; simpl; intros H; [left; split; auto; easy|].
  destruct (H a (or_introl eq_refl)) as [(Pa & ->)|(Na & e & ->)]; simpl.
  - destruct IH as [(Hl & E)|(Nl & e & E)]; auto.
    + left. split; auto. intros b [<-|Hb]; auto.
    + right. split; eauto.
  - right. split; eauto.
Qed.

Lemma foldM_check_inv {A} (f : A -> unit -> outcome unit) l :
  foldM f l tt = Ok tt -> forall a, In a l -> f a tt = Ok tt.
Proof.
  induction l as [|a l IH]; simpl; intros E b Hb; [easy|].
  destruct (f a tt) as [[]| | |] eqn:Ea; simpl in E; try discriminate. destruct Hb as [<-|Hb]; auto.
Qed.

(** * Negative values *)

Lemma nd_min_mk sizes f : fits sizes -> exists v, nd_min IntOps (mk sizes f) = Ok v /\
  (v < 0 <-> exists i, index_in sizes i /\ f i < 0).
Proof.
  intros Hf. unfold nd_min. rewrite sizes_mk, index_loop_spec by auto.
  assert (forall l mv, (forall i, In i l -> index_in sizes i) -> exists v,
    foldM (fun i mv => let* x := nd_get (mk sizes f) i in Ok (if n_ltb IntOps x mv then x else mv)) l mv = Ok v /\
    (v < 0 <-> mv < 0 \/ exists i, In i l /\ f i < 0)) as G.
  { induction l as [|i l IH]; intros mv Hl; cbn [foldM].
    - exists mv. split; auto. split; auto. intros [|(i & [] & _)]; auto.
    - rewrite nd_get_mk by (auto; apply Hl; now left). cbn [bind].
      destruct (IH (if n_ltb IntOps (f i) mv then f i else mv)) as (v & E & Hv); [intros; apply Hl; now right|].
      exists v. split; auto. rewrite Hv. simpl. destruct (Z.ltb_spec (f i) mv); split.
      + intros [|(j & Hj & ?)]; [right; exists i; auto|right; exists j; auto].
      + intros [|(j & [<-|Hj] & ?)]; [left; lia|now left|right; eauto].
      + intros [|(j & Hj & ?)]; [now left|right; exists j; auto].
      + intros [|(j & [<-|Hj] & ?)]; [now left|left; lia|right; eauto]. }
  destruct (G (all_indices sizes) (n_max IntOps)) as (v & E & Hv); [intros i; apply in_all_indices|].
  exists v. split; auto. rewrite Hv. split.
  - intros [H|(i & Hi & ?)]; [cbn in H; lia|]. exists i. split; auto. now apply in_all_indices.
  - intros (i & Hi & ?). right. exists i. split; auto. now apply in_all_indices.
Qed.

Definition cfits (cs : list con) : Prop := forall c, In c cs -> fits (c_sizes c).

Lemma neg_spec cs : cfits cs ->
  let chk := foldM (fun a (_ : unit) =>
          let* v := nd_min IntOps a in
          if n_ltb IntOps v (n_zero IntOps) then Throw (RuntimeError "negative value in marginal")
          else Ok tt) (map nd_of cs) tt in
  ((forall c, In c cs -> nonneg c) /\ chk = Ok tt) \/
  (~ (forall c, In c cs -> nonneg c) /\ exists e, chk = Throw e).
Proof.
  intros Hf chk. unfold chk. clear chk.
  destruct (foldM_check (fun a => exists c, In c cs /\ a = nd_of c /\ nonneg c) (fun a (_ : unit) =>
          let* v := nd_min IntOps a in
          if n_ltb IntOps v (n_zero IntOps) then Throw (RuntimeError "negative value in marginal")
          else Ok tt) (map nd_of cs)) as [(Ha & E)|(Ha & E)].
  - intros a Ha. apply in_map_iff in Ha as (c & <- & Hc). unfold nd_of.
    destruct (nd_min_mk (c_sizes c) (c_at c) (Hf c Hc)) as (v & E & Hv). rewrite E. cbn [bind n_ltb n_zero IntOps].
    destruct (Z.ltb_spec v 0) as [Hlt|Hge].
    + right. split; eauto. intros (c' & Hc' & Ec' & Hn). apply Hv in Hlt as (i & Hi & Hneg).
      pose proof (f_equal nd_sizes Ec') as Es. simpl in Es. rewrite <- Es in Ec'.
      pose proof (mk_inj _ _ _ Ec' i Hi) as Ei. specialize (Hn i). rewrite <- Es in Hn. specialize (Hn Hi). lia.
    + left. split; auto. exists c. repeat split; auto. intros i Hi.
      destruct (Z.lt_ge_cases (c_at c i) 0); auto. assert (v < 0) by (apply Hv; eauto). lia.
  - left. split; auto. intros c Hc. destruct (Ha (nd_of c)) as (c' & Hc' & Ec & Hn); [now apply in_map|].
    intros i Hi. pose proof (f_equal nd_sizes Ec) as Es. simpl in Es. unfold nd_of in Ec. rewrite <- Es in Ec.
    rewrite (mk_inj _ _ _ Ec i Hi). apply Hn. now rewrite <- Es.
  - right. split; auto. intros Hn. apply Ha. intros a Hin. apply in_map_iff in Hin as (c & <- & Hc). exists c. auto.
Qed.

(** * Sums *)

Definition pop_of (s : Z) : Z := BinarySingleNaN.Btrunc (d_add (d_ofZ s) d_half).

Lemma pop_of_small s : 0 <= s < 2 ^ 52 -> pop_of s = s.
Proof. intros H. destruct (trunc_half s H) as [Hf E]. unfold pop_of. now rewrite (d_trunc _ _ Hf), E. Qed.

Lemma pop_of_big s : 2 ^ 52 <= s < 2 ^ 62 -> 2 ^ 52 <= pop_of s.
Proof. intros H. destruct (trunc_half_big s H) as (r & Hf & E). unfold pop_of. rewrite (d_trunc _ _ Hf). lia. Qed.

Lemma pop_of_ok s : 0 <= s < 2 ^ 62 -> mg_pop IntMarg s = Ok (pop_of s).
Proof.
  intros H. unfold pop_of. cbn [mg_pop IntMarg]. destruct (Z.lt_ge_cases s (2 ^ 52)).
  - destruct (trunc_half s ltac:(lia)) as [Hf E]. rewrite (d_to_i64_ok _ _ Hf) by lia. now rewrite (d_trunc _ _ Hf).
  - destruct (trunc_half_big s ltac:(lia)) as (r & Hf & E). rewrite (d_to_i64_ok _ _ Hf) by lia. now rewrite (d_trunc _ _ Hf).
Qed.

Lemma total_nonneg sizes f : (forall i, index_in sizes i -> 0 <= f i) -> 0 <= total sizes f.
Proof.
  intros H. apply sumZ_nonneg. intros x Hx. apply in_map_iff in Hx as (i & <- & Hi). apply H. now apply in_all_indices.
Qed.

Lemma nd_sum_int sizes f : fits sizes -> (forall i, index_in sizes i -> 0 <= f i) -> total sizes f < 2 ^ 63 ->
  nd_sum IntOps (mk sizes f) = Ok (total sizes f).
Proof.
  intros Hf Hn Ht. rewrite nd_sum_mk by auto. apply vec_sum_int; auto.
  intros x Hx. apply in_map_iff in Hx as (i & <- & Hi). apply Hn. now apply in_all_indices.
Qed.

(** * The lookup table *)

Lemma foldM_map {A B S} (g : B -> A) (f : A -> S -> outcome S) l s : foldM f (map g l) s = foldM (fun b => f (g b)) l s.
Proof. revert s. induction l; intros s; simpl; auto. destruct (f (g a) s); simpl; auto. Qed.

Lemma foldM_flat_map {A B S} (g : B -> list A) (f : A -> S -> outcome S) l s :
  foldM f (flat_map g l) s = foldM (fun b => foldM f (g b)) l s.
Proof. revert s. induction l; intros s; simpl; auto. rewrite foldM_app. destruct (foldM f (g a) s); simpl; auto. Qed.

Definition push (e : Z * (Z * Z)) (lk : list (list (Z * Z))) : outcome (list (list (Z * Z))) :=
  let* l := vec_get lk (fst e) in vec_set lk (fst e) (l ++ [snd e]).

Lemma pushes E : forall lk, Forall (fun e => 0 <= fst e < Z.of_nat (length lk)) E ->
  exists lk', foldM push E lk = Ok lk' /\ length lk' = length lk /\
    forall d, (d < length lk)%nat -> nth d lk' [] = nth d lk [] ++ map snd (filter (fun e => fst e =? Z.of_nat d) E).
Proof.
  induction E as [|[d ki] E IH]; intros lk Hv; simpl.
  - exists lk. split; auto. split; auto. intros. now rewrite app_nil_r.
  - inversion Hv; subst. simpl in H1. unfold push. simpl.
    rewrite (vec_get_ok lk d []) by auto. cbn [bind]. rewrite vec_set_ok by auto. cbn [bind].
    destruct (IH (upd lk (Z.to_nat d) (nth (Z.to_nat d) lk [] ++ [ki]))) as (lk' & El & Hl & Hd).
    { rewrite length_upd. auto. }
    exists lk'. split; auto. rewrite length_upd in *. split; auto. intros d' Hd'. rewrite Hd by auto.
    rewrite nth_upd by lia. destruct (Nat.eqb_spec d' (Z.to_nat d)) as [->|Hne].
    + rewrite Z2Nat.id, Z.eqb_refl by lia. simpl. now rewrite <- app_assoc.
    + destruct (Z.eqb_spec d (Z.of_nat d')); [lia|]. reflexivity.
Qed.

Lemma in_numbered {A} (l : list A) k i a : In (i, a) (numbered k l) <-> exists n, i = k + Z.of_nat n /\ nth_error l n = Some a.
Proof.
  revert k. induction l as [|x l IH]; intros k; simpl.
  - split; [easy|]. intros ([|n] & _ & E); discriminate.
  - rewrite IH. split.
    + intros [[= <- <-]|(n & -> & E)]; [exists 0%nat; split; auto; lia|exists (S n); split; auto; lia].
    + intros ([|n] & -> & E); simpl in E; [left; injection E as ->; f_equal; lia|right; exists n; split; auto; lia].
Qed.

Lemma dim_lookup_ok dim cs : (forall c, In c cs -> valid_dims dim (c_dims c)) ->
  exists lk, dim_lookup dim (map c_dims cs) = Ok lk /\ length lk = dim /\
    forall d k i, (d < dim)%nat -> In (k, i) (nth d lk []) <->
      exists n j c, k = Z.of_nat n /\ i = Z.of_nat j /\ nth_error cs n = Some c /\ nth_error (c_dims c) j = Some (Z.of_nat d).
Proof.
  intros Hv. unfold dim_lookup.
  set (E := flat_map (fun p => map (fun q => (snd q, (fst p, fst q))) (numbered 0 (snd p))) (numbered 0 (map c_dims cs))).
  assert (forall d k i, In (d, (k, i)) E <-> exists n j c, k = Z.of_nat n /\ i = Z.of_nat j /\
    nth_error cs n = Some c /\ nth_error (c_dims c) j = Some d) as HE.
  { intros d k i. unfold E. rewrite in_flat_map. split.
    - intros ([k' ix] & Hk & Hin). apply in_map_iff in Hin as ([i' d'] & Eq & Hin). simpl in *.
      injection Eq as <- <- <-. apply in_numbered in Hk as (n & -> & Hn). apply in_numbered in Hin as (j & -> & Hj).
      rewrite nth_error_map in Hn. destruct (nth_error cs n) as [c|] eqn:Ec; [|discriminate]. injection Hn as <-.
      exists n, j, c. auto.
    - intros (n & j & c & -> & -> & Hn & Hj). exists (Z.of_nat n, c_dims c). split.
      + apply in_numbered. exists n. rewrite nth_error_map, Hn. auto.
      + apply in_map_iff. exists (Z.of_nat j, d). split; auto. apply in_numbered. exists j. auto. }
  destruct (pushes E (repeat [] dim)) as (lk & El & Hl & Hd).
  { rewrite repeat_length. apply Forall_forall. intros [d [k i]] Hin. apply HE in Hin as (n & j & c & _ & _ & Hn & Hj).
    simpl. apply nth_error_In in Hn, Hj. specialize (Hv c Hn). eapply Forall_forall in Hv; eauto. }
  exists lk. rewrite repeat_length in *. split; [|split; auto].
  - rewrite <- El. unfold E. rewrite foldM_flat_map. apply foldM_ext. intros [k ix] s _.
    rewrite foldM_map. apply foldM_ext. intros [i d] s' _. reflexivity.
  - intros d k i Hdim. rewrite Hd by auto. rewrite nth_repeat. simpl. rewrite in_map_iff. split.
    + intros ([d' ki] & Eq & Hin). apply filter_In in Hin as [Hin Ed]. simpl in *. subst ki. apply Z.eqb_eq in Ed. subst d'.
      now apply HE.
    + intros H. exists (Z.of_nat d, (k, i)). split; auto. apply filter_In. split; [now apply HE|]. simpl. apply Z.eqb_refl.
Qed.

(** * Partial sums *)

Lemma allclose_int a b : allclose IntOps a b = true <-> a = b.
Proof.
  unfold allclose. revert b. induction a as [|x a IH]; intros [|y b]; simpl; try (split; [discriminate|discriminate]); [tauto|].
  specialize (IH b). rewrite !andb_true_iff in *. rewrite Z.eqb_eq. split.
  - intros (Hl & Hx & Hr). f_equal; auto. apply IH. auto.
  - intros [= -> E]. apply IH in E as [? ?]. auto.
Qed.

Definition red (c : con) (j : Z) : list Z := map (c_partial c j) (zrange (nth (Z.to_nat j) (c_sizes c) 0)).

Definition csmall (c : con) : Prop :=
  fits (c_sizes c) /\ Z.of_nat (length (c_sizes c)) < 2 ^ 31 /\ total (c_sizes c) (fun k => Z.abs (c_at c k)) < 2 ^ 62.

Lemma reduce1_con c j : csmall c -> 0 <= j < Z.of_nat (length (c_sizes c)) -> reduce1 IntOps (nd_of c) j = Ok (red c j).
Proof.
  intros (Hf & Hl & Ht) Hj. unfold nd_of. rewrite reduce1_int_abs by (auto; lia). reflexivity.
Qed.

Definition con0 : con := CON [] [] (fun _ => 0).

Definition redE (cs : list con) (e : Z * Z) : list Z := red (nth (Z.to_nat (fst e)) cs con0) (snd e).

Definition entry_ok (cs : list con) (e : Z * Z) : Prop :=
  0 <= fst e < Z.of_nat (length cs) /\ 0 <= snd e < Z.of_nat (length (c_sizes (nth (Z.to_nat (fst e)) cs con0))).

Lemma vec_get_margs cs k : 0 <= k < Z.of_nat (length cs) -> vec_get (map nd_of cs) k = Ok (nd_of (nth (Z.to_nat k) cs con0)).
Proof.
  intros Hk. rewrite (vec_get_ok _ _ (nd_of con0)) by now rewrite map_length. now rewrite map_nth.
Qed.

Lemma parts_spec cs lk : (forall c, In c cs -> csmall c) -> (forall l e, In l lk -> In e l -> entry_ok cs e) ->
  let chk := foldM (fun mi (_ : unit) =>
      match mi with
      | (k0, i0) :: ((_ :: _) as rest) =>
          let* a0 := vec_get (map nd_of cs) k0 in
          let* ms0 := reduce1 IntOps a0 i0 in
          foldM (fun '(k, i) (_ : unit) =>
                   let* a := vec_get (map nd_of cs) k in
                   let* msi := reduce1 IntOps a i in
                   if allclose IntOps msi ms0 then Ok tt
                   else Throw (RuntimeError "marginal partial sum mismatch")) rest tt
      | _ => Ok tt
      end) lk tt in
  ((forall l, In l lk -> forall e e', In e l -> In e' l -> redE cs e = redE cs e') /\ chk = Ok tt) \/
  (~ (forall l, In l lk -> forall e e', In e l -> In e' l -> redE cs e = redE cs e') /\ exists e, chk = Throw e).
Proof.
  intros Hs He chk. unfold chk. clear chk. apply foldM_check. intros l Hl.
  assert (forall e, In e l -> vec_get (map nd_of cs) (fst e) = Ok (nd_of (nth (Z.to_nat (fst e)) cs con0)) /\
    reduce1 IntOps (nd_of (nth (Z.to_nat (fst e)) cs con0)) (snd e) = Ok (redE cs e)) as Hred.
  { intros e Hin. destruct (He l e Hl Hin) as [Hk Hi]. split; [now apply vec_get_margs|].
    apply reduce1_con; auto. apply Hs. apply nth_In. lia. }
  destruct l as [|[k0 i0] [|e1 rest]].
  - left. split; auto. intros ? ? [].
  - left. split; auto. intros ? ? [<-|[]] [<-|[]]. reflexivity.
  - destruct (Hred _ (or_introl eq_refl)) as [E0 R0]. simpl in E0, R0. rewrite E0. cbn [bind]. rewrite R0. cbn [bind].
    destruct (foldM_check (fun e => redE cs e = redE cs (k0, i0)) (fun '(k, i) (_ : unit) =>
                   let* a := vec_get (map nd_of cs) k in
                   let* msi := reduce1 IntOps a i in
                   if allclose IntOps msi (redE cs (k0, i0)) then Ok tt
                   else Throw (RuntimeError "marginal partial sum mismatch")) (e1 :: rest)) as [(Ha & E)|(Ha & E)].
    + intros [k i] Hin. destruct (Hred (k, i) (or_intror Hin)) as [E1 R1]. simpl in E1, R1. rewrite E1. cbn [bind].
      rewrite R1. cbn [bind]. destruct (allclose IntOps (redE cs (k, i)) (redE cs (k0, i0))) eqn:C.
      * left. split; auto. now apply allclose_int.
      * right. split; eauto. intros C'. apply allclose_int in C'. congruence.
    + left. split; auto. intros e e' [<-|H] [<-|H']; auto; [symmetry; auto|]. rewrite (Ha e H), (Ha e' H'). reflexivity.
    + right. split; auto. intros H. apply Ha. intros e Hin. apply H; [now right|now left].
Qed.

Lemma lookup_agree cs sizes lk : implied cs sizes -> length lk = length sizes ->
  (forall d k i, (d < length sizes)%nat -> In (k, i) (nth d lk []) <->
      exists n j c, k = Z.of_nat n /\ i = Z.of_nat j /\ nth_error cs n = Some c /\ nth_error (c_dims c) j = Some (Z.of_nat d)) ->
  ((forall l, In l lk -> forall e e', In e l -> In e' l -> redE cs e = redE cs e') <-> partials_agree cs).
Proof.
  intros Hi Hl Hlk.
  assert (forall n j c d, nth_error cs n = Some c -> nth_error (c_dims c) j = Some d ->
     nth j (c_sizes c) 0 = nth (Z.to_nat d) sizes 0) as Hsz.
  { intros n j c d Hn Hj. apply nth_error_In in Hn. destruct Hi as [_ Hi]. destruct (Hi c Hn) as [_ E].
    rewrite <- E. unfold proj. apply nth_error_nth. rewrite nth_error_map, Hj. reflexivity. }
  split.
  - intros H c c' j j' d v Hc Hc' Hj Hj' Hv.
    assert (0 <= d < Z.of_nat (length sizes)) as Hd.
    { apply Hi. exists c. split; auto. eapply nth_error_In; eauto. }
    apply In_nth_error in Hc as [n Hn], Hc' as [n' Hn'].
    assert (In (nth (Z.to_nat d) lk []) lk) as Hin by (apply nth_In; lia).
    specialize (H _ Hin (Z.of_nat n, Z.of_nat j) (Z.of_nat n', Z.of_nat j')).
    rewrite !Hlk in H by lia. rewrite Z2Nat.id in H by lia.
    specialize (H ltac:(exists n, j, c; auto) ltac:(exists n', j', c'; auto)).
    unfold redE in H. simpl in H. rewrite !Nat2Z.id in H.
    rewrite (nth_error_nth _ _ _ Hn), (nth_error_nth _ _ _ Hn') in H. unfold red in H. rewrite !Nat2Z.id in H.
    rewrite (Hsz _ _ _ _ Hn Hj) in *. rewrite (Hsz _ _ _ _ Hn' Hj') in H.
    eapply map_ext_in_iff in H; [exact H|]. now apply in_zrange.
  - intros H l Hin [k i] [k' i'] He He'. apply In_nth with (d := []) in Hin as (d & Hd & <-).
    rewrite Hl in Hd. apply Hlk in He as (n & j & c & -> & -> & Hn & Hj); auto.
    apply Hlk in He' as (n' & j' & c' & -> & -> & Hn' & Hj'); auto.
    unfold redE. simpl. rewrite !Nat2Z.id. rewrite (nth_error_nth _ _ _ Hn), (nth_error_nth _ _ _ Hn').
    unfold red. rewrite !Nat2Z.id. rewrite (Hsz _ _ _ _ Hn Hj), (Hsz _ _ _ _ Hn' Hj').
    apply map_ext_in. intros v Hv. apply in_zrange in Hv.
    eapply H; eauto using nth_error_In. now rewrite (Hsz _ _ _ _ Hn Hj).
Qed.

(** * The constructor *)

(** validity as the code checks it: the totals are compared after rounding to int64_t through double *)
Definition valid_code (cs : list con) (sizes : list Z) : Prop :=
  (2 <= length cs)%nat /\ implied cs sizes /\ (2 <= length sizes)%nat /\
  (forall c, In c cs -> nonneg c) /\
  (forall c c', In c cs -> In c' cs -> pop_of (c_total c) = pop_of (c_total c')) /\
  partials_agree cs.

Lemma total_le_abs sizes f : total sizes f <= total sizes (fun k => Z.abs (f k)).
Proof. apply sumZ_map_le. intros. lia. Qed.

Lemma nd_new_int_ok sizes : fits sizes -> nd_new (T := Z) sizes = Ok (mkp sizes (fun _ => None)).
Proof. apply nd_new_ok. Qed.

Lemma implied_valid_dims cs sizes c : implied cs sizes -> In c cs -> valid_dims (length sizes) (c_dims c).
Proof. intros [H _] Hc. apply Forall_forall. intros d Hd. apply H. eauto. Qed.

Lemma implied_fits cs sizes : implied cs sizes -> (forall c, In c cs -> csmall c) -> (2 <= length sizes)%nat ->
  prodZ sizes < 2 ^ 60 -> fits sizes.
Proof.
  intros Hi Hs Hl Hp. split; [destruct sizes; simpl in *; [lia|discriminate]|]. split; auto.
  apply Forall_forall. intros n Hn. apply In_nth with (d := 0) in Hn as (k & Hk & <-).
  destruct Hi as [Hd Hp']. destruct (proj2 (Hd (Z.of_nat k)) ltac:(lia)) as (c & Hc & Hin).
  destruct (Hp' c Hc) as [_ E]. destruct (Hs c Hc) as ((_ & Hpos & _) & _).
  rewrite <- E in Hpos. unfold positive in Hpos. rewrite Forall_forall in Hpos. apply Hpos.
  unfold proj. apply in_map_iff. exists (Z.of_nat k). split; auto. now rewrite Nat2Z.id.
Qed.

Lemma create_mappings_spec cs sizes : implied cs sizes -> (2 <= length cs)%nat -> (forall c, In c cs -> csmall c) ->
  (forall c, In c cs -> nonneg c) ->
  ((forall c c', In c cs -> In c' cs -> pop_of (c_total c) = pop_of (c_total c')) /\ partials_agree cs /\
   create_mappings IntMarg (length sizes) (map c_dims cs) (map nd_of cs) = Ok (pop_of (c_total (hd con0 cs)))) \/
  (~ ((forall c c', In c cs -> In c' cs -> pop_of (c_total c) = pop_of (c_total c')) /\ partials_agree cs) /\
   exists e, create_mappings IntMarg (length sizes) (map c_dims cs) (map nd_of cs) = Throw e).
Proof.
  intros Hi H2 Hs Hn. unfold create_mappings.
  destruct (dim_lookup_ok (length sizes) cs) as (lk & -> & Hl & Hlk).
  { intros c Hc. eapply implied_valid_dims; eauto. }
  cbn [bind]. destruct cs as [|c0 cs]; [simpl in H2; lia|].
  change (map nd_of (c0 :: cs)) with (nd_of c0 :: map nd_of cs).
  rewrite (vec_get_ok _ 0 (nd_of c0)) by (simpl length; lia). cbn [bind Z.to_nat nth tl mg_num IntMarg].
  assert (forall c, In c (c0 :: cs) -> nd_sum IntOps (nd_of c) = Ok (c_total c) /\
    mg_pop IntMarg (c_total c) = Ok (pop_of (c_total c))) as Hsum.
  { intros c Hc. destruct (Hs c Hc) as (Hf & _ & Ht). pose proof (total_le_abs (c_sizes c) (c_at c)).
    pose proof (total_nonneg (c_sizes c) (c_at c) (Hn c Hc)). split.
    - unfold nd_of. apply nd_sum_int; [auto|apply (Hn c Hc)|]. lia.
    - apply pop_of_ok. unfold c_total. lia. }
  destruct (Hsum c0 (or_introl eq_refl)) as [E0 P0]. rewrite E0. cbn [bind]. rewrite P0. cbn [bind].
  destruct (foldM_check (fun a => exists c, In c cs /\ a = nd_of c /\ pop_of (c_total c) = pop_of (c_total c0)) (fun a (_ : unit) =>
      let* s := nd_sum IntOps a in
      let* p := mg_pop IntMarg s in
      if p =? pop_of (c_total c0) then Ok tt else Throw (RuntimeError "marginal sum mismatch")) (map nd_of cs))
    as [(Ha & E)|(Ha & e & E)].
  - intros a Hin. apply in_map_iff in Hin as (c & <- & Hc). destruct (Hsum c (or_intror Hc)) as [E P].
    rewrite E. cbn [bind]. rewrite P. cbn [bind]. destruct (Z.eqb_spec (pop_of (c_total c)) (pop_of (c_total c0))) as [Eq|Ne].
    + left. split; eauto.
    + right. split; eauto. intros (c' & Hc' & Ec & Eq). destruct (Hsum c' (or_intror Hc')) as [E' _].
      rewrite <- Ec in E'. congruence.
  - rewrite E. cbn [bind].
    assert (forall c, In c (c0 :: cs) -> pop_of (c_total c) = pop_of (c_total c0)) as Hp.
    { intros c [<-|Hc]; auto. destruct (Ha (nd_of c)) as (c' & Hc' & Ec & Eq); [now apply in_map|].
      destruct (Hsum c' (or_intror Hc')) as [E' _]. destruct (Hsum c (or_intror Hc)) as [E'' _]. congruence. }
    assert (forall l e, In l lk -> In e l -> entry_ok (c0 :: cs) e) as He.
    { intros l [k i] Hin He. apply In_nth with (d := []) in Hin as (d & Hd & <-). rewrite Hl in Hd.
      apply Hlk in He as (n & j & c & -> & -> & Hnc & Hj); auto. split; simpl fst; simpl snd; rewrite ?Nat2Z.id.
      - assert (n < length (c0 :: cs))%nat by (apply nth_error_Some; congruence). lia.
      - rewrite (nth_error_nth _ _ _ Hnc). rewrite <- (implied_lengths _ _ Hi c) by (eapply nth_error_In; eauto).
        assert (j < length (c_dims c))%nat by (apply nth_error_Some; congruence). lia. }
    destruct (parts_spec (c0 :: cs) lk Hs He) as [(Hpa & Ec)|(Hpa & e & Ec)];
      change (map nd_of (c0 :: cs)) with (nd_of c0 :: map nd_of cs) in Ec; rewrite Ec; cbn [bind];
      rewrite (lookup_agree (c0 :: cs) sizes lk Hi Hl Hlk) in Hpa.
    + left. repeat split; auto. intros c c' Hc Hc'. rewrite (Hp c Hc), (Hp c' Hc'). reflexivity.
    + right. split; eauto. tauto.
  - right. rewrite E. cbn [bind]. split; eauto. intros [Hp _]. apply Ha. intros a Hin.
    apply in_map_iff in Hin as (c & <- & Hc). exists c. repeat split; auto. apply Hp; simpl; auto.
Qed.

Lemma implied_unique cs s s' : implied cs s -> implied cs s' -> s = s'.
Proof.
  intros H H'.
  assert (length s = length s') as Hl.
  { assert (forall d, 0 <= d < Z.of_nat (length s) <-> 0 <= d < Z.of_nat (length s')) as Hd.
    { intros d. destruct H as [<- _], H' as [<- _]. tauto. }
    pose proof (Hd (Z.of_nat (length s) - 1)). pose proof (Hd (Z.of_nat (length s') - 1)). lia. }
  apply nth_ext with (d := 0) (d' := 0); auto. intros k Hk.
  destruct H as [Hd Hp]. destruct (proj2 (Hd (Z.of_nat k)) ltac:(lia)) as (c & Hc & Hin).
  destruct (in_dims_pair c (Z.of_nat k)) as [n Hn]; auto. { now apply Hp. }
  assert (In (Z.of_nat k, n) (pairs cs)) as Hpair by (apply in_pairs; eauto).
  destruct (implied_pair cs s _ _ (conj Hd Hp) Hpair) as [_ <-].
  destruct (implied_pair cs s' _ _ H' Hpair) as [_ E]. now rewrite Nat2Z.id in *.
Qed.

Theorem micro_new_spec {T} cs : (forall c, In c cs -> csmall c) -> (forall sizes, implied cs sizes -> prodZ sizes < 2 ^ 60) ->
  (exists sizes, valid_code cs sizes /\
     micro_new (T := T) IntMarg (map c_dims cs) (map nd_of cs) =
       Ok (MS sizes (map c_dims cs) (pop_of (c_total (hd con0 cs))) (mkp sizes (fun _ => None)))) \/
  (~ (exists sizes, valid_code cs sizes) /\ exists e, micro_new (T := T) IntMarg (map c_dims cs) (map nd_of cs) = Throw e).
Proof.
  intros Hs Hpr. unfold micro_new. rewrite !map_length, Nat.eqb_refl. cbn [negb orb].
  destruct (Nat.ltb_spec (length cs) 2) as [H2|H2].
  { right. split; eauto. intros (sizes & H & _). lia. }
  destruct (collect_spec cs) as [(m & -> & Hm & Hl)|((e & ->) & Hno)]; cbn [bind].
  2:{ right. split; eauto. intros (sizes & _ & Hi & _). apply Hno. split; [eapply implied_lengths|eapply implied_functional]; eauto. }
  destruct (Nat.ltb_spec (length m) 2) as [Hm2|Hm2].
  { right. split; eauto. intros (sizes & _ & Hi & Hs2 & _). destruct (map_of_sizes cs m sizes Hi Hm). lia. }
  destruct (neg_spec cs) as [(Hn & E)|(Hn & e & E)]; [intros c Hc; now apply Hs| |]; cbv zeta in E; cbn [mg_num IntMarg];
    rewrite E; clear E; cbn [bind].
  2:{ right. split; eauto. intros (sizes & _ & _ & _ & H & _). auto. }
  destruct (mapM_throw_or (fun k => match map_find m k with
                                   | Some n => Ok n
                                   | None => Throw (RuntimeError "dimension size not defined")
                                   end) (zrange (Z.of_nat (length m)))) as [(sizes & E)|(e & E)].
  { intros k _. destruct (map_find m k); eauto. }
  2:{ right. rewrite E. cbn [bind]. split; eauto. intros (sizes & _ & Hi & _). destruct (map_of_sizes cs m sizes Hi Hm) as [_ E'].
      congruence. }
  rewrite E. cbn [bind]. destruct (sizes_of_map cs m sizes Hl Hm E) as [Hi Hlen]. rewrite <- Hlen in *.
  destruct (create_mappings_spec cs sizes Hi H2 Hs Hn) as [(Hp & Hpa & ->)|(Hno & e & ->)]; cbn [bind].
  - left. exists sizes. split; [repeat split; auto; apply Hi; auto|].
    rewrite nd_new_ok; [reflexivity|]. eapply implied_fits; eauto.
  - right. split; eauto. intros (sizes' & _ & Hi' & _ & _ & Hp & Hpa). apply Hno. auto.
Qed.

(** below 2^52 the code's validity is validity *)
Lemma pop_of_inj s s' : 0 <= s < 2 ^ 62 -> 0 <= s' < 2 ^ 52 -> pop_of s = pop_of s' -> s = s'.
Proof.
  intros H H' E. rewrite (pop_of_small s') in E by auto. destruct (Z.lt_ge_cases s (2 ^ 52)).
  - rewrite pop_of_small in E by lia. auto.
  - pose proof (pop_of_big s ltac:(lia)). lia.
Qed.

Lemma valid_code_iff cs : (forall c, In c cs -> csmall c) -> (exists c, In c cs /\ c_total c < 2 ^ 52) ->
  ((exists sizes, valid_code cs sizes) <-> valid cs).
Proof.
  intros Hs (c1 & Hc1 & Ht1). split.
  - intros (sizes & H2 & Hi & Hl & Hn & Hp & Hpa). repeat split; eauto. intros c c' Hc Hc'.
    assert (forall c, In c cs -> 0 <= c_total c < 2 ^ 62) as Hb.
    { intros x Hx. destruct (Hs x Hx) as (_ & _ & Ht). pose proof (total_le_abs (c_sizes x) (c_at x)).
      pose proof (total_nonneg _ _ (Hn x Hx)). unfold c_total. lia. }
    assert (forall c, In c cs -> c_total c = c_total c1) as Hall.
    { intros x Hx. apply pop_of_inj; auto. pose proof (Hb c1 Hc1). lia. }
    rewrite (Hall c Hc), (Hall c' Hc'). reflexivity.
  - intros (H2 & (sizes & Hi & Hl) & Hn & Hp & Hpa). exists sizes. repeat split; auto; try apply Hi; auto.
    intros c c' Hc Hc'. now rewrite (Hp c c').
Qed.
