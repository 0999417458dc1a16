(** C40: the invariant of the heap of arrays over all legal histories. *)
From Verif Require Import Base Spec SpecFacts NDArray IndexProofs ArrayProofs Storage StorageSpec.
Open Scope Z_scope.

Definition get (l : list (option obj)) (i : nat) : option obj := match nth_error l i with Some x => x | None => None end.
Lemma get_array w i o : array w i o <-> get (w_objs w) i = Some o.
Proof. unfold array, get. destruct (nth_error (w_objs w) i) as [[x|]|]; split; congruence. Qed.
Lemma get_lt l i o : get l i = Some o -> (i < length l)%nat.
Proof. unfold get. intros H. apply nth_error_Some. destruct (nth_error l i); congruence. Qed.
Lemma get_add l o i : get (l ++ [Some o]) i = if Nat.eqb i (length l) then Some o else get l i.
Proof.
  unfold get. destruct (Nat.eqb_spec i (length l)) as [->|].
  - now rewrite nth_error_app2, Nat.sub_diag by auto.
  - destruct (Nat.lt_ge_cases i (length l)).
    + now rewrite nth_error_app1 by auto.
    + rewrite nth_error_app2 by auto. destruct (i - length l)%nat as [|k] eqn:E; [lia|]. cbn. rewrite (proj2 (nth_error_None l i)) by auto. now destruct k.
Qed.
Lemma get_upd l i x j : (i < length l)%nat -> get (upd l i x) j = if Nat.eqb j i then x else get l j.
Proof. intros H. unfold get. rewrite nth_error_upd by auto. now destruct (Nat.eqb_spec j i). Qed.

(** what holds of each array *)
Definition shaped (o : obj) : Prop :=
  o_sizes o = [] \/ (good_shape (o_sizes o) /\ o_dim o = length (o_sizes o) /\ o_offs o = strides (o_sizes o) /\ o_storage o = prodZ (o_sizes o)).
Definition owns (h : list blk) (o : obj) : Prop := o_owned o = true ->
  (o_sizes o = [] /\ o_ptr o = None /\ o_storage o = 0) \/
  (o_sizes o <> [] /\ exists b x, o_ptr o = Some b /\ nth_error h b = Some x /\ b_live x = true /\ b_caller x = false /\ o_storage o <= b_size x).
Definition inv (h : list blk) (l : list (option obj)) : Prop :=
  (forall i o, get l i = Some o -> shaped o /\ owns h o) /\
  (forall i j o o' b, get l i = Some o -> get l j = Some o' -> o_owned o = true -> o_owned o' = true -> o_ptr o = Some b -> o_ptr o' = Some b -> i = j) /\
  (forall b x, nth_error h b = Some x -> b_live x = true -> b_caller x = false -> exists i o, get l i = Some o /\ o_owned o = true /\ o_ptr o = Some b).

Lemma owns_some h o b : owns h o -> o_owned o = true -> o_ptr o = Some b ->
  exists x, nth_error h b = Some x /\ b_live x = true /\ b_caller x = false /\ o_storage o <= b_size x.
Proof. intros H Ho Hp. destruct (H Ho) as [(_ & E & _)|(_ & b' & x & E & H')]; [congruence|]. assert (b' = b) as -> by congruence. eauto. Qed.

(** a heap where the blocks of arrays are kept *)
Lemma owns_mono h h' o : (forall b x, o_ptr o = Some b -> nth_error h b = Some x -> b_live x = true -> b_caller x = false -> nth_error h' b = Some x) -> owns h o -> owns h' o.
Proof.
  intros Hk Ho Hw. destruct (Ho Hw) as [?|(Hs & b & x & H1 & H2 & H3 & H4 & H5)]; auto. right. split; auto. exists b, x. repeat split; auto.
Qed.

Lemma nth_lt' {A} (l : list A) n x : nth_error l n = Some x -> (n < length l)%nat.
Proof. intros E. apply nth_error_Some. congruence. Qed.
Lemma nth_grow {A} (l : list A) y n x : nth_error l n = Some x -> nth_error (l ++ y) n = Some x.
Proof. intros E. rewrite nth_error_app1; auto. eapply nth_lt'; eauto. Qed.
Lemma nth_snoc {A} (l : list A) y n x : nth_error (l ++ [y]) n = Some x -> nth_error l n = Some x \/ (n = length l /\ x = y).
Proof.
  intros E. destruct (Nat.lt_ge_cases n (length l)); [rewrite nth_error_app1 in E; auto|]. rewrite nth_error_app2 in E by auto.
  destruct (n - length l)%nat as [|k] eqn:Ek; cbn in E; [right; split; [lia|congruence]|]. now destruct k.
Qed.

(** an array that owns nothing new is added *)
Lemma inv_add h l o : inv h l -> shaped o -> owns h o -> (o_owned o = true -> o_ptr o = None) -> inv h (l ++ [Some o]).
Proof.
  intros (H1 & H2 & H3) Hs Ho Hp. split; [|split].
  - intros i o'. rewrite get_add. destruct (Nat.eqb i (length l)); [injection 1 as <-; auto|apply H1].
  - intros i j o1 o2 b. rewrite !get_add. destruct (Nat.eqb_spec i (length l)), (Nat.eqb_spec j (length l)); try lia.
    + injection 1 as <-. intros _ Hw _ E _. rewrite Hp in E by auto. discriminate.
    + intros _. injection 1 as <-. intros _ Hw _ E. rewrite Hp in E by auto. discriminate.
    + apply H2.
  - intros b x E E1 E2. destruct (H3 b x E E1 E2) as (i & o' & G & G'). exists i, o'. split; auto. rewrite get_add.
    destruct (Nat.eqb_spec i (length l)); auto. apply get_lt in G. lia.
Qed.

(** an array is added with a new block *)
Lemma inv_add_new h l o n : inv h l -> shaped o -> o_sizes o <> [] -> o_ptr o = Some (length h) -> o_storage o <= n -> o_owned o = true ->
  inv (h ++ [BLK n true false]) (l ++ [Some o]).
Proof.
  intros (H1 & H2 & H3) Hs Hne Hp Hn Hw.
  assert (forall i o', get l i = Some o' -> o_owned o' = true -> o_ptr o' <> Some (length h)) as Hf.
  { intros i o' G W E. destruct (owns_some h o' _ (proj2 (H1 i o' G)) W E) as (x & Ex & _). apply nth_lt' in Ex. lia. }
  split; [|split].
  - intros i o'. rewrite get_add. destruct (Nat.eqb i (length l)).
    + injection 1 as <-. split; auto. intros _. right. split; auto. exists (length h), (BLK n true false).
      rewrite nth_error_app2, Nat.sub_diag by auto. repeat split; auto.
    + intros G. destruct (H1 i o' G). split; auto. eapply owns_mono; [|eassumption]. intros b x _ E _ _. now apply nth_grow.
  - intros i j o1 o2 b. rewrite !get_add. destruct (Nat.eqb_spec i (length l)), (Nat.eqb_spec j (length l)); try lia.
    + injection 1 as <-. intros G _ W E E'. exfalso. apply (Hf _ _ G W). congruence.
    + intros G. injection 1 as <-. intros W _ E E'. exfalso. apply (Hf _ _ G W). congruence.
    + apply H2.
  - intros b x E E1 E2. apply nth_snoc in E as [E|[-> ->]].
    + destruct (H3 b x E E1 E2) as (i & o' & G & G'). exists i, o'. split; auto. rewrite get_add.
      destruct (Nat.eqb_spec i (length l)); auto. apply get_lt in G. lia.
    + exists (length l), o. rewrite get_add, Nat.eqb_refl. auto.
Qed.

(** an array gets another shape in its block, or loses an empty one *)
Lemma inv_put h l i o o' : inv h l -> get l i = Some o -> shaped o' -> owns h o' -> o_owned o' = o_owned o -> o_ptr o' = o_ptr o -> inv h (put_obj i o' l).
Proof.
  intros (H1 & H2 & H3) G Hs Ho Ew Ep. pose proof (get_lt _ _ _ G) as Hi. unfold put_obj. split; [|split].
  - intros j x. rewrite get_upd by auto. destruct (Nat.eqb j i); [injection 1 as <-; auto|apply H1].
  - intros j k o1 o2 b. rewrite !get_upd by auto. destruct (Nat.eqb_spec j i) as [->|], (Nat.eqb_spec k i) as [->|]; auto.
    + injection 1 as <-. rewrite Ew, Ep. eauto.
    + intros G1. injection 1 as <-. rewrite Ew, Ep. eauto.
    + eauto.
  - intros b x E E1 E2. destruct (H3 b x E E1 E2) as (j & o1 & G1 & W1 & P1). exists j. destruct (Nat.eqb_spec j i) as [->|].
    + exists o'. rewrite get_upd, Nat.eqb_refl by auto. split; auto. assert (o1 = o) by congruence. subst. split; congruence.
    + exists o1. rewrite get_upd by auto. destruct (Nat.eqb_spec j i); [lia|auto].
Qed.

Definition dead (x : blk) : blk := BLK (b_size x) false (b_caller x).

(** an array's block is replaced by a new one *)
Lemma inv_realloc h l i o o' b x n : inv h l -> get l i = Some o -> o_owned o = true -> o_ptr o = Some b -> nth_error h b = Some x ->
  shaped o' -> o_sizes o' <> [] -> o_ptr o' = Some (length h) -> o_storage o' <= n -> o_owned o' = true ->
  inv (upd h b (dead x) ++ [BLK n true false]) (put_obj i o' l).
Proof.
  intros (H1 & H2 & H3) G W P Ex Hs Hne Hp Hn Hw. pose proof (get_lt _ _ _ G) as Hi. pose proof (nth_lt' _ _ _ Ex) as Hb. unfold put_obj.
  assert (forall c y, c <> b -> nth_error h c = Some y -> nth_error (upd h b (dead x) ++ [BLK n true false]) c = Some y) as Hk.
  { intros c y Hc E. apply nth_grow. rewrite nth_error_upd by auto. destruct (Nat.eqb_spec c b); [easy|auto]. }
  assert (forall j o1, j <> i -> get l j = Some o1 -> o_owned o1 = true -> o_ptr o1 <> Some (length h) /\ o_ptr o1 <> Some b) as Hf.
  { intros j o1 Hj G1 W1. split; intros E.
    - destruct (owns_some h o1 _ (proj2 (H1 j o1 G1)) W1 E) as (y & Ey & _). apply nth_lt' in Ey. lia.
    - apply Hj. eapply H2; eauto. }
  split; [|split].
  - intros j o1. rewrite get_upd by auto. destruct (Nat.eqb_spec j i) as [->|Hj].
    + injection 1 as <-. split; auto. intros _. right. split; auto. exists (length h), (BLK n true false).
      rewrite nth_error_app2, length_upd, Nat.sub_diag by (rewrite length_upd; auto). repeat split; auto.
    + intros G1. destruct (H1 j o1 G1) as [S1 O1]. split; auto. intros W1. destruct (O1 W1) as [?|(N1 & c & y & P1 & Q)]; auto. right. split; auto.
      exists c, y. destruct Q as (E & Q). split; auto. split; auto. apply Hk; auto. intros ->. now apply (Hf j o1 Hj G1 W1).
  - intros j k o1 o2 c. rewrite !get_upd by auto. destruct (Nat.eqb_spec j i) as [->|Hj], (Nat.eqb_spec k i) as [->|Hk']; auto.
    + injection 1 as <-. intros G2 _ W2 E E'. exfalso. apply (proj1 (Hf k o2 Hk' G2 W2)). congruence.
    + intros G1. injection 1 as <-. intros W1 _ E E'. exfalso. apply (proj1 (Hf j o1 Hj G1 W1)). congruence.
    + eauto.
  - intros c y E E1 E2. apply nth_snoc in E as [E|[-> ->]].
    + rewrite nth_error_upd in E by auto. destruct (Nat.eqb_spec c b) as [->|Hc]; [injection E as <-; discriminate|].
      destruct (H3 c y E E1 E2) as (j & o1 & G1 & W1 & P1). exists j, o1. rewrite get_upd by auto. destruct (Nat.eqb_spec j i) as [->|]; auto. congruence.
    + exists i, o'. rewrite get_upd, Nat.eqb_refl, length_upd by auto. auto.
Qed.
(** an array without a block gets one *)
Lemma inv_alloc h l i o o' n : inv h l -> get l i = Some o -> o_ptr o = None ->
  shaped o' -> o_sizes o' <> [] -> o_ptr o' = Some (length h) -> o_storage o' <= n -> o_owned o' = true ->
  inv (h ++ [BLK n true false]) (put_obj i o' l).
Proof.
  intros (H1 & H2 & H3) G P Hs Hne Hp Hn Hw. pose proof (get_lt _ _ _ G) as Hi. unfold put_obj.
  assert (forall j o1, get l j = Some o1 -> o_owned o1 = true -> o_ptr o1 <> Some (length h)) as Hf.
  { intros j o1 G1 W1 E. destruct (owns_some h o1 _ (proj2 (H1 j o1 G1)) W1 E) as (y & Ey & _). apply nth_lt' in Ey. lia. }
  split; [|split].
  - intros j o1. rewrite get_upd by auto. destruct (Nat.eqb_spec j i) as [->|Hj].
    + injection 1 as <-. split; auto. intros _. right. split; auto. exists (length h), (BLK n true false).
      rewrite nth_error_app2, Nat.sub_diag by auto. repeat split; auto.
    + intros G1. destruct (H1 j o1 G1). split; auto. eapply owns_mono; [|eassumption]. intros b x _ E _ _. now apply nth_grow.
  - intros j k o1 o2 c. rewrite !get_upd by auto. destruct (Nat.eqb_spec j i) as [->|Hj], (Nat.eqb_spec k i) as [->|Hk']; auto.
    + injection 1 as <-. intros G2 _ W2 E E'. exfalso. apply (Hf k o2 G2 W2). congruence.
    + intros G1. injection 1 as <-. intros W1 _ E E'. exfalso. apply (Hf j o1 G1 W1). congruence.
    + eauto.
  - intros c y E E1 E2. apply nth_snoc in E as [E|[-> ->]].
    + destruct (H3 c y E E1 E2) as (j & o1 & G1 & W1 & P1). exists j, o1. rewrite get_upd by auto. destruct (Nat.eqb_spec j i) as [->|]; auto. congruence.
    + exists i, o'. rewrite get_upd, Nat.eqb_refl by auto. auto.
Qed.

(** an array stops owning its block, which changes hands, or is freed ([x'] dead or the caller's), and perhaps ends *)
Lemma inv_drop h l i o r b x x' : inv h l -> get l i = Some o -> o_owned o = true -> o_ptr o = Some b -> nth_error h b = Some x ->
  b_live x' = false \/ b_caller x' = true -> (forall o', r = Some o' -> shaped o' /\ o_owned o' = false) -> inv (upd h b x') (upd l i r).
Proof.
  intros (H1 & H2 & H3) G W P Ex Hx Hr. pose proof (get_lt _ _ _ G) as Hi. pose proof (nth_lt' _ _ _ Ex) as Hb. split; [|split].
  - intros j o1. rewrite get_upd by auto. destruct (Nat.eqb_spec j i) as [->|Hj].
    + intros E. destruct (Hr _ E) as [S1 W1]. split; auto. intros W2. congruence.
    + intros G1. destruct (H1 j o1 G1) as [S1 O1]. split; auto. intros W1. destruct (O1 W1) as [?|(N1 & c & y & P1 & E & Q)]; auto. right. split; auto.
      exists c, y. split; auto. split; auto. rewrite nth_error_upd by auto. destruct (Nat.eqb_spec c b) as [->|]; auto. exfalso. apply Hj. eapply H2; eauto.
  - intros j k o1 o2 c. rewrite !get_upd by auto. destruct (Nat.eqb_spec j i) as [->|Hj], (Nat.eqb_spec k i) as [->|Hk']; auto.
    + intros E. destruct (Hr _ E). congruence.
    + intros _ E. destruct (Hr _ E). congruence.
    + eauto.
  - intros c y E E1 E2. rewrite nth_error_upd in E by auto. destruct (Nat.eqb_spec c b) as [->|Hc].
    { injection E as <-. destruct Hx; congruence. }
    destruct (H3 c y E E1 E2) as (j & o1 & G1 & W1 & P1). exists j, o1. rewrite get_upd by auto. destruct (Nat.eqb_spec j i) as [->|]; auto. congruence.
Qed.
(** the same for an array with no block of its own *)
Lemma inv_drop0 h l i o r : inv h l -> get l i = Some o -> o_owned o = false \/ o_ptr o = None -> 
  (forall o', r = Some o' -> shaped o' /\ o_owned o' = false) -> inv h (upd l i r).
Proof.
  intros (H1 & H2 & H3) G P Hr. pose proof (get_lt _ _ _ G) as Hi. split; [|split].
  - intros j o1. rewrite get_upd by auto. destruct (Nat.eqb_spec j i) as [->|Hj]; [|apply H1].
    intros E. destruct (Hr _ E) as [S1 W1]. split; auto. intros W2. congruence.
  - intros j k o1 o2 c. rewrite !get_upd by auto. destruct (Nat.eqb_spec j i) as [->|Hj], (Nat.eqb_spec k i) as [->|Hk']; auto.
    + intros E. destruct (Hr _ E). congruence.
    + intros _ E. destruct (Hr _ E). congruence.
    + eauto.
  - intros c y E E1 E2. destruct (H3 c y E E1 E2) as (j & o1 & G1 & W1 & P1). exists j, o1. rewrite get_upd by auto.
    destruct (Nat.eqb_spec j i) as [->|]; auto. assert (o1 = o) by congruence. subst. destruct P; congruence.
Qed.
(** the block of an array passes to a new one *)
Lemma inv_move h l i o o' : inv h l -> get l i = Some o -> shaped o' -> o_owned o' = false -> inv h (put_obj i o' l ++ [Some o]).
Proof.
  intros (H1 & H2 & H3) G Hs Hw. pose proof (get_lt _ _ _ G) as Hi. unfold put_obj.
  assert (forall j, get (upd l i (Some o') ++ [Some o]) j = if Nat.eqb j (length l) then Some o else if Nat.eqb j i then Some o' else get l j) as Hg.
  { intros j. rewrite get_add, length_upd, get_upd by auto. reflexivity. }
  split; [|split].
  - intros j o1. rewrite Hg. destruct (Nat.eqb j (length l)); [injection 1 as <-; eauto|]. destruct (Nat.eqb j i); [|apply H1].
    injection 1 as <-. split; auto. intros W. congruence.
  - intros j k o1 o2 b. rewrite !Hg. destruct (Nat.eqb_spec j (length l)) as [->|Hj], (Nat.eqb_spec k (length l)) as [->|Hk]; auto.
    + injection 1 as <-. destruct (Nat.eqb_spec k i) as [->|N]; [injection 1 as <-; congruence|]. intros G2 W1 W2 P1 P2. exfalso. apply N. symmetry. eapply H2; eauto.
    + destruct (Nat.eqb_spec j i) as [->|N]; [injection 1 as <-; congruence|]. intros G2. injection 1 as <-. intros W1 W2 P1 P2. exfalso. apply N. eapply H2; eauto.
    + destruct (Nat.eqb_spec j i) as [->|]; [injection 1 as <-; congruence|]. destruct (Nat.eqb_spec k i) as [->|]; [intros _; injection 1 as <-; congruence|]. eauto.
  - intros b x E E1 E2. destruct (H3 b x E E1 E2) as (j & o1 & G1 & W1 & P1). destruct (Nat.eqb_spec j i) as [->|N].
    + exists (length l), o. rewrite Hg, Nat.eqb_refl. assert (o1 = o) by congruence. now subst.
    + exists j, o1. rewrite Hg. apply get_lt in G1 as L. destruct (Nat.eqb_spec j (length l)); [lia|]. destruct (Nat.eqb_spec j i); [easy|auto].
Qed.
(** blocks of the caller *)
Lemma inv_caller_new h l n : inv h l -> inv (h ++ [BLK n true true]) l.
Proof.
  intros (H1 & H2 & H3). split; [|split; auto].
  - intros i o G. destruct (H1 i o G). split; auto. eapply owns_mono; [|eassumption]. intros b x _ E _ _. now apply nth_grow.
  - intros b x E E1 E2. apply nth_snoc in E as [E|[-> ->]]; [eauto|discriminate].
Qed.
Lemma inv_caller_delete h l b x : inv h l -> nth_error h b = Some x -> b_caller x = true -> inv (upd h b (dead x)) l.
Proof.
  intros (H1 & H2 & H3) Ex Ec. pose proof (nth_lt' _ _ _ Ex) as Hb. split; [|split; auto].
  - intros i o G. destruct (H1 i o G). split; auto. eapply owns_mono; [|eassumption]. intros c y _ E _ Hc. rewrite nth_error_upd by auto.
    destruct (Nat.eqb_spec c b) as [->|]; auto. congruence.
  - intros c y E E1 E2. rewrite nth_error_upd in E by auto. destruct (Nat.eqb_spec c b) as [->|]; [injection E as <-; discriminate|eauto].
Qed.

(** * The operations *)

Lemma good_fits s : good_shape s -> fits s. Proof. auto. Qed.
Lemma good_storage s : good_shape s -> storage_size s = Ok (prodZ s) /\ compute_offs (prodZ s) s = Ok (strides s) /\ 0 < prodZ s < 2 ^ 60.
Proof.
  intros G. pose proof (fits_prod s G) as P. destruct G as (N & Q & R). split; [apply storage_size_ok; auto; lia|]. split; auto. apply compute_offs_ok; auto; lia.
Qed.
Lemma delete_live h b x : nth_error h b = Some x -> b_live x = true -> delete_block (Some b) h = Ok (upd h b (dead x)).
Proof. intros E L. unfold delete_block. now rewrite E, L. Qed.

Lemma resize_ok h l i o sizes : inv h l -> get l i = Some o -> o_owned o = true -> good_shape sizes ->
  exists h' p, let o' := OBJ (length sizes) sizes (strides sizes) (prodZ sizes) p true in
    resize_obj false o sizes h = ((h', o'), Ok tt) /\ inv h' (put_obj i o' l) /\ (p = o_ptr o \/ p = Some (length h)) /\
    forall c y, nth_error h c = Some y -> o_ptr o <> Some c -> nth_error h' c = Some y.
Proof.
  intros Hinv G W Hg. destruct (good_storage sizes Hg) as (E1 & E2 & Hp). pose proof Hinv as (H1 & _ & _). destruct (H1 i o G) as [Hs Ho].
  unfold resize_obj. rewrite W, E1. cbn [bind_w].
  assert (forall p, shaped (OBJ (length sizes) sizes (strides sizes) (prodZ sizes) p true)) as Hsh by (intros p; right; auto).
  assert (sizes <> []) as Hne by apply Hg.
  destruct (Z.ltb_spec (o_storage o) (prodZ sizes)) as [Hlt|Hge].
  - assert (forall h1, new_block false false (prodZ sizes) h1 = Ok (h1 ++ [BLK (prodZ sizes) true false], length h1)) as En.
    { intros h1. unfold new_block. cbn [orb]. destruct (Z.leb_spec (2 ^ 60) (prodZ sizes)); [lia|auto]. }
    destruct (Ho W) as [(_ & P & _)|(_ & b & x & P & Ex & L & C & _)]; rewrite P.
    + cbn [delete_block bind_w]. rewrite En. cbn [bind_w]. rewrite E2. cbn [bind_w]. exists (h ++ [BLK (prodZ sizes) true false]), (Some (length h)).
      cbv zeta. split; auto. split; [|split; auto; intros; now apply nth_grow]. eapply inv_alloc; eauto. cbn. lia.
    + rewrite (delete_live _ _ _ Ex L). cbn [bind_w]. rewrite En. cbn [bind_w]. rewrite E2. cbn [bind_w]. rewrite length_upd.
      exists (upd h b (dead x) ++ [BLK (prodZ sizes) true false]), (Some (length h)). cbv zeta. split; auto. split; [|split; auto].
      * eapply inv_realloc; eauto. cbn. lia.
      * intros c y E N. apply nth_grow. rewrite nth_error_upd by (eapply nth_lt'; eauto). destruct (Nat.eqb_spec c b); congruence.
  - rewrite E2. cbn [bind_w]. exists h, (o_ptr o). cbv zeta. split; auto. split; auto.
    apply (inv_put h l i o); auto. intros _. right. destruct (Ho W) as [(_ & P & S)|(_ & b & x & P & Ex & L & C & S)]; [lia|]. cbn. split; auto.
    exists b, x. repeat split; auto. lia.
Qed.

Lemma touch_ok h p b x lo hi : p = Some b -> nth_error h b = Some x -> b_live x = true -> 0 <= lo -> hi <= b_size x -> touch h p lo hi = Ok tt.
Proof.
  intros -> E L H1 H2. unfold touch. destruct (hi <=? lo); auto. rewrite E, L. cbn [negb].
  destruct (Z.leb_spec 0 lo), (Z.leb_spec hi (b_size x)); auto; lia.
Qed.

Lemma make_ok h l sizes fail : inv h l -> sizes <> [] -> positive sizes -> prodZ sizes < 2 ^ 63 ->
  (exists e, step (Make sizes fail) (W h l) = (W h l, Throw e)) \/
  (exists h' o, step (Make sizes fail) (W h l) = (W h' (l ++ [Some o]), Ok tt) /\ inv h' (l ++ [Some o])).
Proof.
  intros Hinv Hne Hpos Hp. pose proof (prodZ_pos sizes Hpos) as H0. cbn [step]. unfold resize_obj. cbn [o_owned o_storage o_ptr o_offs].
  rewrite storage_size_ok by (auto; lia). cbn [bind_w]. destruct (Z.ltb_spec 0 (prodZ sizes)); [|lia]. cbn [delete_block bind_w].
  unfold new_block. destruct fail; cbn [orb bind_w]; [left; eauto|]. destruct (Z.leb_spec (2 ^ 60) (prodZ sizes)) as [|Hlt]; cbn [bind_w]; [left; eauto|].
  rewrite compute_offs_ok by auto. cbn [bind_w]. right. eexists _, _. split; [reflexivity|]. apply inv_add_new; cbn; auto; [|lia].
  right. cbn. repeat split; auto.
Qed.

Lemma with_get w i o {A} (f : obj -> world * outcome A) : get (w_objs w) i = Some o -> with_obj w i f = f o.
Proof. unfold get, with_obj. destruct (nth_error (w_objs w) i) as [[x|]|]; congruence. Qed.

(** a legal operation returns or throws, and keeps the invariant *)
Definition fine {A} (x : outcome A) : Prop := match x with Ok _ | Throw _ => True | _ => False end.

Lemma use_ok h l i o : inv h l -> get l i = Some o -> o_owned o = true \/ usable (W h l) (o_ptr o) (o_storage o) ->
  o_storage o = 0 \/ exists b x, o_ptr o = Some b /\ nth_error h b = Some x /\ b_live x = true /\ o_storage o <= b_size x.
Proof.
  intros (H1 & _) G [W|(b & x & U)]; [|right; exists b, x; exact U]. destruct (H1 i o G) as [_ Ho].
  destruct (Ho W) as [(_ & _ & S)|(_ & b & x & P & E & L & _ & S)]; [auto|right; exists b, x; auto].
Qed.

Lemma step_ok c h l : inv h l -> legal c (W h l) -> fine (snd (step c (W h l))) /\ inv (w_heap (fst (step c (W h l)))) (w_objs (fst (step c (W h l)))).
Proof.
  intros Hinv Hc. pose proof Hinv as (H1 & H2 & H3).
  destruct c as [|sizes fail|sizes b|i|i sizes fail|i j fail|i|i idx|i|i|n fail|b]; cbn [legal] in Hc.
  - cbn. split; auto. apply inv_add; auto; cbn; [left; auto|]. intros _. left. auto.
  - destruct Hc as (N & P & Q). destruct (make_ok h l sizes fail Hinv N P Q) as [(e & ->)|(h' & o & -> & H)]; cbn; auto.
  - destruct Hc as (G & U). destruct (good_storage sizes G) as (E1 & E2 & _). cbn [step]. rewrite E1. cbn [bind]. rewrite E2. cbn. split; auto.
    apply inv_add; auto; [|intros W; discriminate W|intros W; discriminate W]. right. cbn. auto.
  - destruct Hc as (o & A). apply get_array in A. cbn [w_objs] in A. cbn [step]. rewrite (with_get (W h l) i o _ A). cbn. split; auto.
    apply inv_move; auto. left. reflexivity.
  - destruct Hc as (G & -> & o & A). apply get_array in A. cbn [w_objs] in A. cbn [step]. rewrite (with_get (W h l) i o _ A).
    destruct (o_owned o) eqn:Ew.
    + destruct (resize_ok h l i o sizes Hinv A Ew G) as (h' & p & E & Hi & _). rewrite E. cbn. auto.
    + unfold resize_obj. rewrite Ew. cbn. split; auto. apply (inv_put h l i o); auto; apply (H1 i o A).
  - destruct Hc as (-> & o & o' & A & A' & N & D & U). apply get_array in A, A'. cbn [w_objs] in A, A'. cbn [step].
    rewrite (with_get (W h l) i o _ A), (with_get (W h l) j o' _ A'). destruct (o_owned o') eqn:Ew.
    + destruct (H1 i o A) as [[?|(G & Ed & Eo & Est)] _]; [congruence|].
      destruct (resize_ok h l j o' (o_sizes o) Hinv A' Ew G) as (h' & p & E & Hi & Hpp & Hk). rewrite E. cbn [bind_w].
      assert (Nat.eqb i j = false) as ->. { apply Nat.eqb_neq. intros ->. congruence. }
      destruct (good_storage _ G) as (_ & _ & Hpos).
      destruct (use_ok h l i o Hinv A U) as [?|(b & x & P & Ex & L & S)]; [lia|].
      rewrite (touch_ok h' (o_ptr o) b x); auto; [|apply Hk; auto; congruence|lia]. cbn [bind o_ptr].
      pose proof (proj1 Hi j) as Hj. unfold put_obj in Hj. rewrite get_upd, Nat.eqb_refl in Hj by (eapply get_lt; eauto). specialize (Hj _ eq_refl).
      destruct (proj2 Hj eq_refl) as [(F & _)|(_ & c & y & P' & Ey & L' & _ & S')]; [now cbn in F|]. cbn [o_ptr o_storage] in P', S'. subst p.
      rewrite (touch_ok h' (Some c) c y); auto; [|lia|lia]. cbn [bind_w]. rewrite P.
      destruct (Nat.eqb_spec b c) as [<-|]; cbn; [|auto]. exfalso. destruct Hpp as [Hpp|Hpp]; [congruence|]. injection Hpp as ->. apply nth_lt' in Ex. lia.
    + unfold resize_obj. rewrite Ew. cbn. split; auto. apply (inv_put h l j o'); auto; apply (H1 j o' A').
  - destruct Hc as (o & A). apply get_array in A. cbn [w_objs] in A. cbn [step]. rewrite (with_get (W h l) i o _ A). cbn. split; auto.
    unfold put_obj. set (o2 := OBJ _ _ _ _ _ false). assert (forall o', Some o2 = Some o' -> shaped o' /\ o_owned o' = false) as Hr.
    { injection 1 as <-. split; auto. exact (proj1 (H1 i o A)). }
    destruct (o_owned o) eqn:Ew; [|eapply inv_drop0; eauto].
    destruct (proj2 (H1 i o A) Ew) as [(_ & P & _)|(_ & b & x & P & Ex & L & C & S)]; rewrite P; cbn [mark_caller].
    + eapply inv_drop0; eauto.
    + rewrite Ex. eapply inv_drop; eauto.
  - destruct Hc as (o & A & N & I & U). apply get_array in A. cbn [w_objs] in A. cbn [step]. rewrite (with_get (W h l) i o _ A). cbn [fst snd]. split; auto.
    destruct (H1 i o A) as [[?|(G & Ed & Eo & Est)] _]; [congruence|]. destruct (good_storage _ G) as (_ & _ & Hpos).
    unfold offset_obj. rewrite Ed, Eo. assert (length (strides (o_sizes o)) = length (o_sizes o)) as El by (clear; induction (o_sizes o); cbn; auto).
    rewrite El, Nat.ltb_irrefl, <- El, firstn_all, offset_from_ok by (auto; lia). cbn [bind]. pose proof (rowmajor_bound _ _ I).
    destruct (use_ok h l i o Hinv A U) as [?|(b & x & P & Ex & L & S)]; [lia|]. rewrite (touch_ok h (o_ptr o) b x); cbn; auto; lia.
  - destruct Hc as (o & A & U). apply get_array in A. cbn [w_objs] in A. cbn [step]. rewrite (with_get (W h l) i o _ A). cbn [fst snd]. split; auto.
    destruct (use_ok h l i o Hinv A U) as [->|(b & x & P & Ex & L & S)]; [reflexivity|]. rewrite (touch_ok h (o_ptr o) b x); cbn; auto; lia.
  - destruct Hc as (o & A). apply get_array in A. cbn [w_objs] in A. cbn [step]. rewrite (with_get (W h l) i o _ A).
    destruct (o_owned o) eqn:Ew; [|cbn; split; auto; eapply inv_drop0; eauto; congruence].
    destruct (proj2 (H1 i o A) Ew) as [(_ & P & _)|(_ & b & x & P & Ex & L & C & S)]; rewrite P.
    + cbn. split; auto. eapply inv_drop0; eauto. congruence.
    + rewrite (delete_live _ _ _ Ex L). cbn. split; auto. eapply inv_drop; eauto. congruence.
  - cbn [step]. unfold new_block. destruct (fail || _); cbn; auto. split; auto. now apply inv_caller_new.
  - destruct Hc as (x & E & L & C). cbn [w_heap] in E. cbn [step]. rewrite (delete_live _ _ _ E L). cbn. split; auto. now apply inv_caller_delete.
Qed.

Lemma run_ok ops : forall w, inv (w_heap w) (w_objs w) -> legal_history ops w ->
  snd (run ops w) = Ok tt /\ inv (w_heap (fst (run ops w))) (w_objs (fst (run ops w))).
Proof.
  induction ops as [|c ops IH]; intros [h l] Hi Hl; [cbn; auto|]. destruct Hl as [Hc Hl]. destruct (step_ok c h l Hi Hc) as [Hf Hi'].
  cbn [run]. destruct (step c (W h l)) as [w' [u|e|x|]]; cbn [fst snd fine] in *; try easy; apply IH; auto.
Qed.
Lemma inv_start : inv [] [].
Proof.
  split; [|split].
  - intros i o G. apply get_lt in G. cbn in G. lia.
  - intros i j o o' b G. apply get_lt in G. cbn in G. lia.
  - intros b x E. now destruct b.
Qed.

(** * The claims *)

Lemma inv_sound w : inv (w_heap w) (w_objs w) -> sound w.
Proof.
  intros (H1 & H2 & _) i o A W. apply get_array in A. destruct (H1 i o A) as [Hs Ho]. split.
  - destruct Hs as [|(G & _ & _ & E)]; auto. right. split; auto. destruct (Ho W) as [(F & _)|(_ & b & x & P & Ex & L & _ & S)]; [destruct G; congruence|].
    exists b, x. rewrite <- E. auto.
  - intros j o' A' W' E N. apply get_array in A'. destruct (o_ptr o) as [b|] eqn:P; [|easy]. eapply H2; eauto.
Qed.
Lemma inv_leak w : inv (w_heap w) (w_objs w) -> no_leak w.
Proof. intros (_ & _ & H3) b x E L C. destruct (H3 b x E L C) as (i & o & G & Q). exists i, o. split; auto. now apply get_array. Qed.

Lemma history_claim ops : legal_history ops start -> snd (run ops start) = Ok tt /\ sound (fst (run ops start)).
Proof. intros H. destruct (run_ok ops start inv_start H) as [E I]. split; auto. now apply inv_sound. Qed.
Lemma leak_claim ops : legal_history ops start -> let w := fst (run ops start) in no_leak w /\
  (all_destroyed w -> forall b x, nth_error (w_heap w) b = Some x -> b_caller x = false -> b_live x = false).
Proof.
  intros H w. destruct (run_ok ops start inv_start H) as [_ I]. pose proof (inv_leak _ I) as N. split; auto.
  intros Hd b x E C. destruct (b_live x) eqn:L; auto. destruct (N b x E L C) as (i & o & A & _). now apply Hd in A.
Qed.

(** a growing resize that runs out of memory: the block is gone, the array still owns it *)
Lemma resize_throws_claim ops w i o sizes fail : legal_history ops start -> w = fst (run ops start) -> array w i o -> o_owned o = true -> o_sizes o <> [] ->
  sizes <> [] -> positive sizes -> prodZ (o_sizes o) < prodZ sizes < 2 ^ 63 -> fail = true \/ 2 ^ 60 <= prodZ sizes ->
  snd (step (Resize i sizes fail) w) = Throw BadAlloc /\
  snd (run [Resize i sizes fail; Destroy i] w) = UB "double free" /\
  snd (run [Resize i sizes fail; Fill i] w) = UB "use after free".
Proof.
  intros H -> A Wo N Hne Hpos Hp Hf. destruct (run_ok ops start inv_start H) as [_ I]. revert A I. destruct (fst (run ops start)) as [h l]. cbn [w_heap w_objs].
  intros A (H1 & _). apply get_array in A. cbn [w_objs] in A. destruct (H1 i o A) as [[?|(G & _ & _ & E)] Ho]; [congruence|].
  destruct (Ho Wo) as [(F & _)|(_ & b & x & P & Ex & L & _ & S)]; [congruence|]. pose proof (nth_lt' _ _ _ Ex) as Hb. pose proof (get_lt _ _ _ A) as Hi.
  set (o1 := OBJ (length sizes) sizes (o_offs o) (prodZ sizes) (Some b) true).
  assert (step (Resize i sizes fail) (W h l) = (W (upd h b (dead x)) (put_obj i o1 l), Throw BadAlloc)) as Es.
  { cbn [step]. rewrite (with_get (W h l) i o _ A). unfold resize_obj. rewrite Wo, storage_size_ok by (auto; lia). cbn [bind_w]. rewrite E.
    destruct (Z.ltb_spec (prodZ (o_sizes o)) (prodZ sizes)); [|lia]. rewrite P, (delete_live _ _ _ Ex L). cbn [bind_w]. unfold new_block.
    assert (fail || (2 ^ 60 <=? prodZ sizes) = true) as ->.
    { destruct Hf as [-> |]; auto. apply Bool.orb_true_iff. right. apply Z.leb_le. auto. }
    reflexivity. }
  assert (get (put_obj i o1 l) i = Some o1) as A1 by (unfold put_obj; rewrite get_upd, Nat.eqb_refl by auto; auto).
  assert (nth_error (upd h b (dead x)) b = Some (dead x)) as E1 by (rewrite nth_error_upd, Nat.eqb_refl by auto; auto).
  split; [now rewrite Es|]. cbn [run]. rewrite Es. split.
  - cbn [step]. rewrite (with_get (W (upd h b (dead x)) (put_obj i o1 l)) i o1 _ A1). cbn [o_owned o1 o_ptr delete_block]. rewrite E1. reflexivity.
  - cbn [step]. rewrite (with_get (W (upd h b (dead x)) (put_obj i o1 l)) i o1 _ A1). unfold touch. cbn [o_ptr o_storage o1]. rewrite E1.
    destruct (Z.leb_spec (prodZ sizes) 0); [pose proof (prodZ_pos sizes Hpos); lia|]. reflexivity.
Qed.
