(** The R functions call the same C++ as the Python ones, with the dimensions reversed. *)
From Coq Require Import Permutation Sorted.
From Verif Require Import Base Spec SpecFacts NDArray IndexProofs Float64 ArrayOps ArrayProofs Bind BindProofs Sobol Micro Stat Qis Ipf Qisi
  Integerise SynthSpec IpfSpec RSpec RArray RArrayProofs RApi MicroProofs QisProofs QisClaims IpfDbl QisiClaims.
Open Scope Z_scope.

(** * The corresponding Python arguments *)

Definition np_iv (dim : Z) (iv : list Z) : ndarray Z := NDA [Z.of_nat (length iv)] (map (fun d => dim - d) iv).
Definition np_m {M} (df : M) (m : rarray M) : ndarray M := NDA (col_sizes m) (map (r_entry df m) (all_indices (col_sizes m))).
Definition np_il (dim : Z) (indices : list (list Z)) : list (ndarray Z) := rev (map (np_iv dim) indices).
Definition np_ml {M} (df : M) (marginals : list (rarray M)) : list (ndarray M) := rev (map (np_m df) marginals).

Definition r_ok {M} (m : rarray M) : Prop := wf_rarray m /\ prodZ (col_sizes m) < 2 ^ 60.

Lemma np_m_wf {M} (df : M) m : r_ok m -> wf_array (np_m df m).
Proof. intros [(Hne & Hp & _) _]. apply wf_NDA_map; auto. Qed.

Lemma np_m_cv {M} (df : M) m : r_ok m -> mk (shape (np_m df m)) (entry df (np_m df m)) = mk (col_sizes m) (r_entry df m).
Proof. intros Hw. apply mk_ext. intros i Hi. cbn [np_m shape] in *. unfold np_m. now rewrite entry_NDA_map. Qed.

Lemma combine_app' {A B} (a a' : list A) (b b' : list B) : length a = length b -> combine (a ++ a') (b ++ b') = combine a b ++ combine a' b'.
Proof. revert b. induction a as [|x a IH]; intros [|y b] H; simpl in *; try lia; auto. f_equal. apply IH. lia. Qed.

Lemma combine_rev {A B} (a : list A) (b : list B) : length a = length b -> combine (rev a) (rev b) = rev (combine a b).
Proof.
  revert b. induction a as [|x a IH]; intros [|y b] H; simpl in *; try lia; auto.
  rewrite combine_app' by (rewrite !rev_length; lia). rewrite IH by lia. reflexivity.
Qed.

Lemma combine_map2 {A B C D} (f : A -> C) (g : B -> D) a b : combine (map f a) (map g b) = map (fun p => (f (fst p), g (snd p))) (combine a b).
Proof. revert b. induction a as [|x a IH]; intros [|y b]; simpl; auto. now rewrite IH. Qed.

Lemma np_combine {M} (df : M) dim indices marginals : length indices = length marginals ->
  combine (np_il dim indices) (np_ml df marginals) = map (fun p => (np_iv dim (fst p), np_m df (snd p))) (rev (combine indices marginals)).
Proof. intros H. unfold np_il, np_ml. rewrite combine_rev by (rewrite !map_length; auto). now rewrite combine_map2, map_rev. Qed.

Lemma mapM_map {A B C} (f : B -> outcome C) (g : A -> B) l : mapM f (map g l) = mapM (fun x => f (g x)) l.
Proof. induction l as [|x l IH]; simpl; auto. now rewrite IH. Qed.

Lemma mapM_ext_in {A B} (f g : A -> outcome B) l : (forall x, In x l -> f x = g x) -> mapM f l = mapM g l.
Proof. induction l as [|x l IH]; intros H; simpl; auto. rewrite (H x) by now left. now rewrite IH by (intros; apply H; now right). Qed.

Lemma r_args_py {M} (df : M) (cv : ndarray M -> outcome (nd M)) dim indices marginals :
  (forall a, wf_array a -> prodZ (shape a) < 2 ^ 60 -> cv a = Ok (mk (shape a) (entry df a))) ->
  length indices = length marginals -> Forall r_ok marginals ->
  r_args dim indices marginals = py_lists cv (np_il dim indices) (np_ml df marginals).
Proof.
  intros Hcv Hl Hm. unfold r_args, py_lists. unfold np_il at 1, np_ml at 1. rewrite !rev_length, !map_length, Hl, Nat.eqb_refl. cbn [negb].
  rewrite np_combine by auto. rewrite mapM_map. f_equal. apply mapM_ext_in. intros [iv m] Hin. cbn [fst snd].
  apply in_rev, in_combine_r in Hin. rewrite Forall_forall in Hm. specialize (Hm m Hin). destruct Hm as [Hw Hb] eqn:E.
  rewrite (convert_array_ok df) by auto. rewrite Hcv by (auto; now apply np_m_wf). rewrite np_m_cv by auto. reflexivity.
Qed.

(** * getDimension *)

Lemma map_put_fst m k v k' : In k' (map fst (map_put m k v)) <-> k' = k \/ In k' (map fst m).
Proof.
  induction m as [|[a b] m IH]; cbn [map_put map fst In]; [intuition|].
  destruct (Z.ltb_spec k a); cbn [map fst In]; [intuition|].
  destruct (Z.eqb_spec k a); cbn [map fst In]; [subst; intuition|]. rewrite IH. intuition.
Qed.

Lemma map_put_in m k v k' v' : In (k', v') (map_put m k v) -> (k' = k /\ v' = v) \/ In (k', v') m.
Proof.
  induction m as [|[a b] m IH]; cbn [map_put In].
  - intros [E|[]]. inversion E. auto.
  - destruct (Z.ltb_spec k a); cbn [In].
    + intros [E|H']; [inversion E; auto|auto].
    + destruct (Z.eqb_spec k a); cbn [In].
      * intros [E|H']; [inversion E; auto|auto].
      * intros [E|H']; [auto|]. destruct (IH H'); auto.
Qed.

Lemma map_put_sorted m k v : StronglySorted Z.lt (map fst m) -> StronglySorted Z.lt (map fst (map_put m k v)).
Proof.
  induction m as [|[a b] m IH]; cbn [map_put map fst]; intros H; [repeat constructor|].
  inversion H as [|? ? H1 H2]; subst. destruct (Z.ltb_spec k a); cbn [map fst].
  - constructor; auto. constructor; auto. eapply Forall_impl; [|exact H2]. simpl. intros; lia.
  - destruct (Z.eqb_spec k a); cbn [map fst]; [subst; auto|].
    constructor; auto. rewrite Forall_forall in *. intros x Hx. apply map_put_fst in Hx as [->|Hx]; [lia|auto].
Qed.

(** axis [j] of a marginal is declared to be dimension [d], and has size [n] *)
Definition axis {T} (indices : list (list Z)) (marginals : list (rarray T)) (d n : Z) : Prop :=
  exists iv m j, In (iv, m) (combine indices marginals) /\ nth_error iv j = Some d /\ nth_error (col_sizes m) j = Some n.

Lemma numbered_in {A} (l : list A) k i x : In (i, x) (numbered k l) <-> exists j, i = k + Z.of_nat j /\ nth_error l j = Some x.
Proof.
  revert k. induction l as [|a l IH]; intros k; cbn [numbered In].
  - split; [easy|]. intros (j & _ & H). now destruct j.
  - rewrite IH. split.
    + intros [E|(j & -> & H)]; [inversion E; subst; exists 0%nat; split; [lia|auto]|]. exists (S j). split; [lia|auto].
    + intros ([|j] & -> & H); [left; f_equal; [lia|now inversion H]|]. right. exists j. split; [lia|auto].
Qed.

Lemma foldM_inv {A S} (f : A -> S -> outcome S) (P : list A -> S -> Prop) : forall l s s',
  P [] s -> (forall pre a s s', In a l -> P pre s -> f a s = Ok s' -> P (pre ++ [a]) s') -> foldM f l s = Ok s' -> P l s'.
Proof.
  intros l s s' H0 Hs E.
  assert (forall post pre s, (forall a, In a post -> In a l) -> P pre s -> foldM f post s = Ok s' -> P (pre ++ post) s') as G.
  { induction post as [|a post IH]; intros pre t Hin Hp E'; cbn [foldM] in E'.
    - inversion E'; subst. now rewrite app_nil_r.
    - destruct (f a t) as [t'| | |] eqn:Ef; try discriminate. cbn [bind] in E'.
      replace (pre ++ a :: post) with ((pre ++ [a]) ++ post) by now rewrite <- app_assoc.
      apply (IH _ t'); auto. { intros; apply Hin; now right. } eapply Hs; eauto. apply Hin. now left. }
  apply (G l [] s); auto.
Qed.

Definition put_all (ps : list (Z * Z)) (m : list (Z * Z)) : Prop :=
  StronglySorted Z.lt (map fst m) /\ (forall k v, In (k, v) m -> In (k, v) ps) /\ (forall k v, In (k, v) ps -> In k (map fst m)).

Lemma put_all_step ps m k v : put_all ps m -> put_all (ps ++ [(k, v)]) (map_put m k v).
Proof.
  intros (H1 & H2 & H3). split; [now apply map_put_sorted|]. split.
  - intros a b H. apply in_app_iff. apply map_put_in in H as [[-> ->]|H]; [right; now left|left; auto].
  - intros a b H. apply map_put_fst. apply in_app_iff in H as [H|[E|[]]]; [right; eauto|inversion E; auto].
Qed.

Lemma get_dimension_inv {T} indices (marginals : list (rarray T)) rs : get_dimension indices marginals = Ok rs ->
  exists m, rs = map snd m /\ StronglySorted Z.lt (map fst m) /\ (forall k v, In (k, v) m -> axis indices marginals k v) /\
    (forall k v, axis indices marginals k v -> In k (map fst m)) /\
    (forall iv mv, In (iv, mv) (combine indices marginals) -> (length (col_sizes mv) <= length iv)%nat).
Proof.
  unfold get_dimension. set (body := fun '(iv, mv) lookup => _). destruct (foldM body _ _) as [m| | |] eqn:E; try discriminate.
  intros E'. inversion E'; subst. clear E'. exists m. split; auto.
  set (P := fun (done : list (list Z * rarray T)) (m : list (Z * Z)) => exists ps, put_all ps m /\
    (forall k v, In (k, v) ps <-> exists iv mv j, In (iv, mv) done /\ nth_error iv j = Some k /\ nth_error (col_sizes mv) j = Some v) /\
    (forall iv mv, In (iv, mv) done -> (length (col_sizes mv) <= length iv)%nat)).
  assert (P (combine indices marginals) m) as (ps & (S1 & S2 & S3) & Hps & Hlen).
  { refine (foldM_inv body P _ _ _ _ _ E).
    - exists []. split; [split; [constructor|split; intros ? ? []]|]. split; [|intros ? ? []]. intros k v. split; [intros []|]. intros (? & ? & ? & [] & _).
    - intros pre [iv mv] s s' _ (ps & Hall & Hps & Hlen) Eb. unfold body in Eb.
      set (Q := fun (dn : list (Z * Z)) (m : list (Z * Z)) => exists qs, put_all (ps ++ qs) m /\
         (forall k v, In (k, v) qs <-> exists j, In (j, v) dn /\ 0 <= j /\ nth_error iv (Z.to_nat j) = Some k) /\
         (forall j v, In (j, v) dn -> (Z.to_nat j < length iv)%nat)).
      assert (Q (numbered 0 (col_sizes mv)) s') as (qs & Ha & Hq & Hl).
      { refine (foldM_inv _ Q _ _ _ _ _ Eb).
        - exists []. rewrite app_nil_r. split; auto. split; [|intros ? ? []]. intros k v. split; [intros []|]. intros (? & [] & _).
        - intros dn [j n] t t' _ (qs & Ha & Hq & Hl) Ej. unfold vec_get in Ej. destruct (Z.leb_spec 0 j); [|discriminate].
          destruct (nth_error iv (Z.to_nat j)) as [d|] eqn:En; [|discriminate]. cbn [bind] in Ej. inversion Ej; subst.
          exists (qs ++ [(d, n)]). split; [rewrite app_assoc; now apply put_all_step|]. split.
          + intros k v. rewrite in_app_iff, Hq. split.
            * intros [(j' & H1 & H2)|[E1|[]]]; [exists j'; split; auto; apply in_app_iff; auto|].
              inversion E1; subst. exists j. split; auto. apply in_app_iff. right. now left.
            * intros (j' & H1 & H2 & H3). apply in_app_iff in H1 as [H1|[E1|[]]]; [left; eauto|]. inversion E1; subst. right. left. congruence.
          + intros j' v H'. apply in_app_iff in H' as [H'|[E1|[]]]; [eauto|]. inversion E1; subst. apply nth_error_Some. congruence. }
      exists (ps ++ qs). split; auto. split.
      + intros k v. rewrite in_app_iff, Hps, Hq. split.
        * intros [(a & b & j & H1 & H2)|(j & H1 & H2 & H3)].
          -- exists a, b, j. split; auto. apply in_app_iff; auto.
          -- apply numbered_in in H1 as (j' & -> & H1). exists iv, mv, j'. split; [apply in_app_iff; right; now left|]. split; auto.
             now rewrite Z.add_0_l, Nat2Z.id in H3.
        * intros (a & b & j & H1 & H2 & H3). apply in_app_iff in H1 as [H1|[E1|[]]]; [left; eauto 6|]. inversion E1; subst.
          right. exists (Z.of_nat j). rewrite Nat2Z.id. split; [|split; auto; lia]. apply numbered_in. exists j. split; auto; lia.
      + intros a b H. apply in_app_iff in H as [H|[E1|[]]]; [eauto|]. inversion E1; subst.
        destruct (col_sizes b) as [|n ns] eqn:Ec; [simpl; lia|].
        destruct (nth_error (n :: ns) (length ns)) as [v|] eqn:En; [|apply nth_error_None in En; simpl in En; lia].
        assert (In (Z.of_nat (length ns), v) (numbered 0 (n :: ns))) as Hin by (apply numbered_in; exists (length ns); split; auto; lia).
        specialize (Hl _ _ Hin). rewrite Nat2Z.id in Hl. simpl. lia. }
  split; auto. split; [|split; auto].
  - intros k v H. apply S2, Hps in H. destruct H as (a & b & j & H). exists a, b, j. auto.
  - intros k v (a & b & j & H). apply (S3 k v). apply Hps. exists a, b, j. auto.
Qed.

Lemma sorted_eq (a b : list Z) : StronglySorted Z.lt a -> StronglySorted Z.lt b -> (forall x, In x a <-> In x b) -> a = b.
Proof.
  revert b. induction a as [|x a IH]; intros [|y b] Ha Hb H; auto.
  - destruct (proj2 (H y)); now left.
  - destruct (proj1 (H x)); now left.
  - inversion Ha as [|? ? Ha1 Ha2]; inversion Hb as [|? ? Hb1 Hb2]; subst. rewrite Forall_forall in *.
    assert (x = y).
    { destruct (proj1 (H x) (or_introl eq_refl)) as [E|H1]; auto. destruct (proj2 (H y) (or_introl eq_refl)) as [E|H2]; auto.
      specialize (Ha2 y H2). specialize (Hb2 x H1). lia. }
    subst y. f_equal. apply IH; auto. intros z. split; intros Hz.
    + destruct (proj1 (H z) (or_intror Hz)) as [<-|]; auto. specialize (Ha2 x Hz). lia.
    + destruct (proj2 (H z) (or_intror Hz)) as [<-|]; auto. specialize (Hb2 x Hz). lia.
Qed.

Lemma sorted_NoDup (a : list Z) : StronglySorted Z.lt a -> NoDup a.
Proof.
  induction 1 as [|x a H IH Hx]; constructor; auto. intros Hin. rewrite Forall_forall in Hx. specialize (Hx x Hin). lia.
Qed.

Definition range_from (a : Z) (n : nat) : list Z := map (fun i => a + Z.of_nat i) (seq 0 n).
Lemma range_from_in a n x : In x (range_from a n) <-> a <= x < a + Z.of_nat n.
Proof.
  unfold range_from. rewrite in_map_iff. split.
  - intros (i & <- & H). apply in_seq in H. lia.
  - intros H. exists (Z.to_nat (x - a)). split; [lia|]. apply in_seq. lia.
Qed.
Lemma range_from_sorted a n : StronglySorted Z.lt (range_from a n).
Proof.
  unfold range_from. generalize 0%nat. induction n as [|n IH]; intros k; cbn [seq map]; constructor; auto.
  rewrite Forall_forall. intros x Hx. apply in_map_iff in Hx as (i & <- & Hi). apply in_seq in Hi. lia.
Qed.

Lemma outline_axis {M} (df : M) dim indices (marginals : list (rarray M)) sizes : length indices = length marginals ->
  implied (map outline (gcons_of df (np_il dim indices) (np_ml df marginals))) sizes ->
  (forall d, 0 <= d < Z.of_nat (length sizes) <-> exists n, axis indices marginals (dim - d) n) /\
  (forall k n, axis indices marginals k n -> n = nth (Z.to_nat (dim - k)) sizes 0).
Proof.
  intros Hl Hi. unfold gcons_of in Hi. rewrite np_combine in Hi by auto. rewrite !map_map in Hi.
  assert (forall iv m, In (iv, m) (combine indices marginals) -> length iv = length (col_sizes m) /\ proj (map (fun d => dim - d) iv) sizes = col_sizes m) as Hp.
  { intros iv m H. destruct Hi as [_ Hi]. specialize (Hi (CON (map (fun d => dim - d) iv) (col_sizes m) (fun _ => 0))).
    cbn [c_dims c_sizes] in Hi. rewrite map_length in Hi. apply Hi. apply in_map_iff. exists (iv, m). split; [reflexivity|]. now apply in_rev in H. }
  split.
  - intros d. destruct Hi as [Hd _]. rewrite <- Hd. split.
    + intros (c & Hc & Hin). apply in_map_iff in Hc as ([iv m] & <- & Hc). apply in_rev in Hc. cbn in Hin.
      apply in_map_iff in Hin as (k & <- & Hk). apply In_nth_error in Hk as (j & Hj). destruct (Hp iv m Hc) as [Hll _].
      destruct (nth_error (col_sizes m) j) as [n|] eqn:En.
      * exists n, iv, m, j. replace (dim - (dim - k)) with k by lia. auto.
      * apply nth_error_None in En. assert (j < length iv)%nat by (apply nth_error_Some; congruence). lia.
    + intros (n & iv & m & j & Hc & H1 & H2). eexists. split.
      * apply in_map_iff. exists (iv, m). split; [reflexivity|]. now apply -> in_rev.
      * cbn. apply in_map_iff. exists (dim - d). split; [lia|]. eapply nth_error_In; eauto.
  - intros k n (iv & m & j & Hc & H1 & H2). destruct (Hp iv m Hc) as [_ Hpr].
    rewrite <- Hpr in H2. unfold proj in H2. rewrite map_map, nth_error_map, H1 in H2. cbn in H2. congruence.
Qed.

Lemma get_dimension_rev {M} (df : M) dim indices marginals rs sizes : length indices = length marginals ->
  get_dimension indices marginals = Ok rs ->
  implied (map outline (gcons_of df (np_il dim indices) (np_ml df marginals))) sizes -> rs = rev sizes.
Proof.
  intros Hl E Hi. destruct (get_dimension_inv _ _ _ E) as (m & -> & Hs & H1 & H2 & _).
  destruct (outline_axis df dim _ _ _ Hl Hi) as [Ha Hn].
  assert (map fst m = range_from (dim - Z.of_nat (length sizes) + 1) (length sizes)) as Ek.
  { apply sorted_eq; auto. { apply range_from_sorted. } intros x. rewrite range_from_in. split.
    - intros Hx. apply in_map_iff in Hx as ([k v] & <- & Hx). cbn [fst]. apply H1 in Hx.
      assert (0 <= dim - k < Z.of_nat (length sizes)); [|lia]. apply Ha. exists v. now replace (dim - (dim - k)) with k by lia.
    - intros Hx. destruct (proj1 (Ha (dim - x)) ltac:(lia)) as (n & Hax). replace (dim - (dim - x)) with x in Hax by lia. eauto. }
  assert (map snd m = map (fun k => nth (Z.to_nat (dim - k)) sizes 0) (map fst m)) as ->.
  { rewrite map_map. apply map_ext_in. intros [k v] H. cbn [fst snd]. apply Hn. eauto. }
  rewrite Ek. unfold range_from. rewrite map_map. apply (nth_ext _ _ 0 0).
  { now rewrite rev_length, map_length, seq_length. }
  intros i H. rewrite map_length, seq_length in H. rewrite rev_nth by auto.
  rewrite (nth_indep _ 0 (nth (Z.to_nat (dim - (dim - Z.of_nat (length sizes) + 1 + Z.of_nat 0))) sizes 0)) by (rewrite map_length, seq_length; auto).
  rewrite (map_nth (fun i => nth (Z.to_nat (dim - (dim - Z.of_nat (length sizes) + 1 + Z.of_nat i))) sizes 0)). rewrite seq_nth by auto. f_equal. lia.
Qed.

Lemma get_dimension_total {T} indices (marginals : list (rarray T)) :
  (exists rs, get_dimension indices marginals = Ok rs /\
     forall iv mv, In (iv, mv) (combine indices marginals) -> (length (col_sizes mv) <= length iv)%nat) \/
  (exists w, get_dimension indices marginals = UB w /\
     exists iv mv, In (iv, mv) (combine indices marginals) /\ (length iv < length (col_sizes mv))%nat).
Proof.
  assert (forall (iv : list Z) (l : list (Z * Z)) lk, (forall j n, In (j, n) l -> 0 <= j) ->
    (exists lk', foldM (fun '(j, n) lookup => let* d := vec_get iv j in Ok (map_put lookup d n)) l lk = Ok lk') \/
    (exists w j n, foldM (fun '(j, n) lookup => let* d := vec_get iv j in Ok (map_put lookup d n)) l lk = UB w /\ In (j, n) l /\ (length iv <= Z.to_nat j)%nat)) as G.
  { intros iv. induction l as [|[j n] l IH]; intros lk Hj; cbn [foldM]; [left; eauto|]. unfold vec_get at 1 3.
    destruct (Z.leb_spec 0 j); [|specialize (Hj j n (or_introl eq_refl)); lia].
    destruct (nth_error iv (Z.to_nat j)) as [d|] eqn:E; cbn [bind].
    - destruct (IH (map_put lk d n)) as [H'|(w & j' & n' & H1 & H2 & H3)]; [intros; eapply Hj; right; eauto|now left|].
      right. exists w, j', n'. split; auto. split; auto. now right.
    - right. exists "vector index out of range"%string, j, n. split; auto. split; [now left|]. now apply nth_error_None. }
  assert (forall (l : list (list Z * rarray T)) lk,
    (exists lk', foldM (fun '(iv, mv) lookup => foldM (fun '(j, n) lookup => let* d := vec_get iv j in Ok (map_put lookup d n)) (numbered 0 (col_sizes mv)) lookup) l lk = Ok lk') \/
    (exists w iv mv, foldM (fun '(iv, mv) lookup => foldM (fun '(j, n) lookup => let* d := vec_get iv j in Ok (map_put lookup d n)) (numbered 0 (col_sizes mv)) lookup) l lk = UB w /\
       In (iv, mv) l /\ (length iv < length (col_sizes mv))%nat)) as H.
  { induction l as [|[iv mv] l IH]; intros lk; cbn [foldM]; [left; eauto|].
    destruct (G iv (numbered 0 (col_sizes mv)) lk) as [(lk' & ->)|(w & j & n & -> & H2 & H3)]; cbn [bind].
    - intros j n Hin. apply numbered_in in Hin as (i & -> & _). lia.
    - destruct (IH lk') as [H'|(w & a & b & H1 & H2 & H3)]; [now left|]. right. exists w, a, b. split; auto. split; auto. now right.
    - right. exists w, iv, mv. split; auto. split; [now left|]. apply numbered_in in H2 as (i & -> & H2).
      assert (i < length (col_sizes mv))%nat by (apply nth_error_Some; congruence). lia. }
  destruct (H (combine indices marginals) []) as [(m & E)|(w & iv & mv & E & H1)].
  - left. assert (get_dimension indices marginals = Ok (map snd m)) as E' by (unfold get_dimension; now rewrite E).
    exists (map snd m). split; auto. destruct (get_dimension_inv _ _ _ E') as (? & _ & _ & _ & _ & H'). exact H'.
  - right. exists w. split; eauto. unfold get_dimension. now rewrite E.
Qed.

(** * Reversing the dimensions *)

Lemma proj_rev dims (sizes idx : list Z) : length idx = length sizes ->
  (forall d, In d dims -> 1 <= d <= Z.of_nat (length sizes)) ->
  proj (map (fun d => Z.of_nat (length sizes) - d) dims) (rev idx) = proj (map (fun d => d - 1) dims) idx.
Proof.
  intros Hl H. unfold proj. rewrite !map_map. apply map_ext_in. intros d Hd. specialize (H d Hd).
  rewrite rev_nth by lia. f_equal. lia.
Qed.

Lemma rev_indices sizes : Permutation (map (@rev Z) (all_indices sizes)) (all_indices (rev sizes)).
Proof.
  apply NoDup_Permutation.
  - apply FinFun.Injective_map_NoDup; [|apply NoDup_all_indices]. intros a b H. rewrite <- (rev_involutive a), H. apply rev_involutive.
  - apply NoDup_all_indices.
  - intros x. rewrite in_map_iff. split.
    + intros (y & <- & H). apply in_all_indices in H. apply in_all_indices. now apply index_in_rev.
    + intros H. exists (rev x). split; [apply rev_involutive|]. apply in_all_indices in H. apply in_all_indices.
      apply index_in_rev in H. now rewrite rev_involutive in H.
Qed.

Lemma sumZ_perm a b : Permutation a b -> sumZ a = sumZ b.
Proof. induction 1; simpl; lia. Qed.

Lemma filter_perm {A} (p : A -> bool) a b : Permutation a b -> Permutation (filter p a) (filter p b).
Proof.
  induction 1; cbn [filter]; auto.
  - destruct (p x); auto.
  - destruct (p x), (p y); auto. constructor.
  - eapply Permutation_trans; eauto.
Qed.

Lemma filter_map' {A B} (p : B -> bool) (g : A -> B) l : filter p (map g l) = map g (filter (fun x => p (g x)) l).
Proof. induction l as [|x l IH]; simpl; auto. destruct (p (g x)); simpl; now rewrite IH. Qed.

Lemma margin_rev rs dims k (f : list Z -> Z) : (forall d, In d dims -> 1 <= d <= Z.of_nat (length rs)) ->
  margin (rev rs) (map (fun d => Z.of_nat (length rs) - d) dims) k f = margin rs (map (fun d => d - 1) dims) k (fun i => f (rev i)).
Proof.
  intros Hd. unfold margin, sum_where.
  rewrite <- (sumZ_perm _ _ (Permutation_map f (filter_perm _ _ _ (rev_indices rs)))).
  rewrite filter_map', map_map. f_equal. f_equal. apply filter_ext_in. intros i Hi. apply in_all_indices in Hi.
  rewrite proj_rev; auto. now rewrite (index_in_length _ _ Hi).
Qed.

Lemma total_rev rs (f : list Z -> Z) : total (rev rs) f = total rs (fun i => f (rev i)).
Proof. unfold total. rewrite <- (sumZ_perm _ _ (Permutation_map f (rev_indices rs))). now rewrite map_map. Qed.

(** the cells of a column-major array are those of the row-major one with the dimensions reversed *)
Lemma r_entry_rev {T} (d : T) rs l i : index_in rs i -> r_entry d (RA (Some rs) l) i = entry d (NDA (rev rs) l) (rev i).
Proof. intros H. unfold r_entry, entry, col_sizes. cbn [r_dim r_data shape flat]. rewrite colmajor_rowmajor; auto. now rewrite (index_in_length _ _ H). Qed.

Lemma prodZ_rev l : prodZ (rev l) = prodZ l.
Proof. induction l as [|n l IH]; cbn [rev]; auto. rewrite prodZ_app, IH. simpl. ring. Qed.

Lemma positive_rev l : positive (rev l) -> positive l.
Proof. unfold positive. rewrite !Forall_forall. intros H x Hx. apply H. now apply -> in_rev. Qed.

(** the constraints with the dimensions counted from the other end *)
Lemma implied_rev {M} (df : M) dim indices marginals rs : length indices = length marginals ->
  implied (map outline (gcons_of df (np_il dim indices) (np_ml df marginals))) (rev rs) <->
  implied (map outline (rgcons_from (dim + 1 - Z.of_nat (length rs)) df indices marginals)) rs.
Proof.
  intros Hl. unfold gcons_of, rgcons_from. rewrite np_combine by auto. rewrite !map_map.
  set (n := Z.of_nat (length rs)). set (b := dim + 1 - n). unfold implied. rewrite rev_length. fold n.
  set (F := fun x : list Z * rarray M => outline (gcon_of df (fst (np_iv dim (fst x), np_m df (snd x))) (snd (np_iv dim (fst x), np_m df (snd x))))).
  set (G := fun x : list Z * rarray M => outline (GC (map (fun d => d - b) (fst x)) (col_sizes (snd x)) (r_entry df (snd x)))).
  assert (forall c, In c (map F (rev (combine indices marginals))) <-> exists p, In p (combine indices marginals) /\ c = F p) as HF.
  { intros c. rewrite in_map_iff. split; [intros (p & <- & H); exists p; split; auto; now apply in_rev|intros (p & H & ->); exists p; split; auto; now apply -> in_rev]. }
  assert (forall c, In c (map G (combine indices marginals)) <-> exists p, In p (combine indices marginals) /\ c = G p) as HG.
  { intros c. rewrite in_map_iff. split; [intros (p & <- & H); eauto|intros (p & H & ->); eauto]. }
  assert (forall p, c_dims (F p) = map (fun d => dim - d) (fst p)) as FD by reflexivity.
  assert (forall p, c_dims (G p) = map (fun d => d - b) (fst p)) as GD by reflexivity.
  assert (forall p, c_sizes (F p) = c_sizes (G p)) as FG by reflexivity.
  assert ((forall d, (exists c, In c (map F (rev (combine indices marginals))) /\ In d (c_dims c)) <-> 0 <= d < n) <->
          (forall d, (exists c, In c (map G (combine indices marginals)) /\ In d (c_dims c)) <-> 0 <= d < n)) as H1.
  { split; intros H d; specialize (H (n - 1 - d)); split.
    - intros (c & Hc & Hd). apply HG in Hc as (p & Hp & ->). rewrite GD in Hd. apply in_map_iff in Hd as (x & <- & Hx).
      assert (0 <= n - 1 - (x - b) < n); [|lia]. apply H. exists (F p). split; [apply HF; eauto|]. rewrite FD. apply in_map_iff. exists x. split; auto. lia.
    - intros Hd. destruct (proj2 H ltac:(lia)) as (c & Hc & Hin). apply HF in Hc as (p & Hp & ->). rewrite FD in Hin. apply in_map_iff in Hin as (x & Ex & Hx).
      exists (G p). split; [apply HG; eauto|]. rewrite GD. apply in_map_iff. exists x. split; auto. lia.
    - intros (c & Hc & Hd). apply HF in Hc as (p & Hp & ->). rewrite FD in Hd. apply in_map_iff in Hd as (x & <- & Hx).
      assert (0 <= n - 1 - (dim - x) < n); [|lia]. apply H. exists (G p). split; [apply HG; eauto|]. rewrite GD. apply in_map_iff. exists x. split; auto. lia.
    - intros Hd. destruct (proj2 H ltac:(lia)) as (c & Hc & Hin). apply HG in Hc as (p & Hp & ->). rewrite GD in Hin. apply in_map_iff in Hin as (x & Ex & Hx).
      exists (F p). split; [apply HF; eauto|]. rewrite FD. apply in_map_iff. exists x. split; auto. lia. }
  assert (forall p, (forall d, In d (fst p) -> 0 <= d - b < n) -> proj (c_dims (F p)) (rev rs) = proj (c_dims (G p)) rs) as HP.
  { intros p Hd. rewrite FD, GD. unfold proj. rewrite !map_map. apply map_ext_in. intros d Hin. specialize (Hd d Hin).
    rewrite rev_nth by lia. f_equal. lia. }
  rewrite H1. split; intros [Ha Hb]; (split; [exact Ha|]).
  - intros c Hc. apply HG in Hc as (p & Hp & ->). destruct (Hb (F p)) as [L1 L2]; [apply HF; eauto|].
    rewrite HP, FG in L2; [|intros d Hd; apply Ha; exists (G p); split; [apply HG; eauto|rewrite GD; apply in_map_iff; eauto]].
    split; auto. rewrite GD, map_length. rewrite FD, map_length in L1. rewrite L1. auto.
  - intros c Hc. apply HF in Hc as (p & Hp & ->). destruct (Hb (G p)) as [L1 L2]; [apply HG; eauto|].
    rewrite HP, FG; [|intros d Hd; apply Ha; exists (G p); split; [apply HG; eauto|rewrite GD; apply in_map_iff; eauto]].
    split; auto. rewrite FD, map_length. rewrite GD, map_length in L1. rewrite L1. auto.
Qed.

Lemma implied_rev1 {M} (df : M) indices marginals rs : length indices = length marginals ->
  implied (map outline (gcons_of df (np_il (Z.of_nat (length rs)) indices) (np_ml df marginals))) (rev rs) <->
  implied (map outline (rgcons_of df indices marginals)) rs.
Proof. intros Hl. rewrite implied_rev by auto. now replace (Z.of_nat (length rs) + 1 - Z.of_nat (length rs)) with 1 by lia. Qed.

(** * Integer marginals *)

Lemma implied_con indices marginals b sizes :
  implied (map outline (rgcons_from b 0 indices marginals)) sizes <-> implied (rcons_from b indices marginals) sizes.
Proof.
  unfold rgcons_from, rcons_from. etransitivity; [|apply implied_outline]. now rewrite !map_map.
Qed.

Lemma implied_np dim indices marginals sizes :
  implied (map outline (gcons_of 0 (np_il dim indices) (np_ml 0 marginals))) sizes <-> implied (cons_of (np_il dim indices) (np_ml 0 marginals)) sizes.
Proof. unfold gcons_of, cons_of. etransitivity; [|apply implied_outline]. now rewrite !map_map. Qed.

Lemma np_in_range dim indices marginals : r_range indices marginals -> length indices = length marginals ->
  in_range (np_il dim indices) (np_ml 0 marginals) /\
  (forall c, In c (cons_of (np_il dim indices) (np_ml 0 marginals)) -> c_total c < 2 ^ 61).
Proof.
  intros (Hi & Hm & Hp) Hl. rewrite Forall_forall in Hi, Hm.
  assert (forall m, In m (np_ml 0 marginals) -> wf_array m /\ prodZ (shape m) < 2 ^ 60 /\ Z.of_nat (length (shape m)) < 2 ^ 31 /\
     total (shape m) (fun k => Z.abs (entry 0 m k)) < 2 ^ 61) as H.
  { intros m Hin. unfold np_ml in Hin. apply in_rev in Hin. apply in_map_iff in Hin as (a & <- & Ha).
    destruct (Hm a Ha) as (Hw & Hb & Hd). destruct (Hi a Ha) as (_ & Ht). split; [apply np_m_wf; split; auto|]. split; auto. split; auto.
    cbn [np_m shape]. unfold total in *. erewrite map_ext_in; [exact Ht|]. intros i Hx. apply in_all_indices in Hx. cbn beta. unfold np_m. now rewrite entry_NDA_map. }
  split; [split|].
  - rewrite Forall_forall. intros m Hin. destruct (H m Hin) as (H1 & H2 & H3 & H4). repeat split; auto; try apply H1. lia.
  - intros sizes Hs. apply implied_np in Hs. rewrite <- (rev_involutive sizes), implied_rev in Hs by auto. apply Hp in Hs. now rewrite prodZ_rev in Hs.
  - intros c Hc. unfold cons_of in Hc. apply in_map_iff in Hc as ([i m] & <- & Hin). apply in_combine_r in Hin. cbn [fst snd].
    destruct (H m Hin) as (_ & _ & _ & H4). unfold c_total, con_of. cbn [c_sizes c_at]. pose proof (total_le_abs (shape m) (entry 0 m)). lia.
Qed.

Lemma r_range_ok indices marginals : r_range indices marginals -> Forall r_ok marginals.
Proof. intros (_ & Hm & _). eapply Forall_impl; [|exact Hm]. intros m (H1 & H2 & _). split; auto. Qed.

(** meeting the constraints *)
Lemma meets_rev indices marginals rs f : length indices = length marginals ->
  implied (cons_of (np_il (Z.of_nat (length rs)) indices) (np_ml 0 marginals)) (rev rs) ->
  (forall c, In c (cons_of (np_il (Z.of_nat (length rs)) indices) (np_ml 0 marginals)) -> meets (rev rs) f c) <->
  (forall c, In c (rcons_of indices marginals) -> meets rs (fun i => f (rev i)) c).
Proof.
  intros Hl Hi. assert (implied (rcons_of indices marginals) rs) as Hr.
  { apply implied_con. apply implied_rev1; auto. now apply implied_np. }
  unfold cons_of, rcons_of, rcons_from. rewrite np_combine, map_map by auto. cbn [fst snd].
  assert (forall p, In p (combine indices marginals) -> (meets (rev rs) f (con_of (np_iv (Z.of_nat (length rs)) (fst p)) (np_m 0 (snd p))) <->
    meets rs (fun i => f (rev i)) (CON (map (fun d => d - 1) (fst p)) (col_sizes (snd p)) (r_entry 0 (snd p))))) as G.
  { intros p Hp. unfold meets, con_of. cbn [np_iv np_m c_sizes c_dims c_at flat shape].
    assert (forall d, In d (fst p) -> 1 <= d <= Z.of_nat (length rs)) as Hd.
    { intros d Hd. assert (0 <= d - 1 < Z.of_nat (length rs)); [|lia]. apply (proj1 Hr).
      eexists. split; [apply in_map_iff; exists p; split; [reflexivity|exact Hp]|]. cbn. apply in_map_iff. eauto. }
    split; intros H k Hk; specialize (H k Hk); rewrite margin_rev in * by auto; unfold np_m in *; rewrite entry_NDA_map in * by auto; auto. }
  split; intros H c Hc; apply in_map_iff in Hc as (p & <- & Hp).
  - apply G; auto. apply H. apply in_map_iff. exists p. split; auto. now apply -> in_rev.
  - apply in_rev in Hp. apply G; auto. apply H. apply in_map_iff. eauto.
Qed.

(** * Copying the result *)

Lemma s32_id x : 0 <= x < 2 ^ 31 -> s32 x = x.
Proof. intros H. unfold s32, u32. rewrite Z.mod_small by lia. destruct (Z.ltb_spec x (2 ^ 31)); lia. Qed.

Lemma r_copy_inv {A B} (cv : A -> B) z n sizes (a : nd A) l arr : r_copy cv z n a = Ok l -> from_nd a = Ok (NDA sizes arr) -> Z.of_nat (length arr) = n ->
  l = map cv arr.
Proof.
  unfold r_copy, from_nd. destruct (nd_values a) as [vs| | |]; try discriminate. cbn [bind]. intros E1 E2. inversion E2; subst. clear E2. intros Hn.
  destruct (Z.leb_spec (Z.of_nat (length arr)) n); [|discriminate]. inversion E1. replace (Z.to_nat n - length arr)%nat with 0%nat by lia. cbn [repeat]. apply app_nil_r.
Qed.

Lemma r_copy_map {A B} (cv : A -> B) z n (a : nd A) l : r_copy cv z n a = Ok l -> exists arr, from_nd a = Ok (NDA (nd_sizes a) arr).
Proof. unfold r_copy, from_nd. destruct (nd_values a) as [vs| | |]; try discriminate. cbn [bind]. eauto. Qed.
