(** C93: the table of individuals that flatten makes of a synthesised population. *)
From Coq Require Import Sorted Permutation.
From Verif Require Import Base Spec NDArray ArrayOps Bind RArray SpecFacts ArrayProofs ArrayClaims SynthSpec PeopleSpec.
From Verif Require Import Micro Qis Qisi QisProofs QisClaims QisiClaims QuantProofs GrowProofs RSpec RApi RApiProofs RApiClaims RApiExamples IpfExamples QisExamples QisiExamples.
Open Scope Z_scope.

Notation idx_dec := (list_eq_dec Z.eq_dec).

(** * Counting rows *)
Lemma count_margin sizes dims k rows : Forall (index_in sizes) rows ->
  margin sizes dims k (fun i => Z.of_nat (count_occ idx_dec rows i)) = Z.of_nat (length (filter (fun r => idx_eqb (proj dims r) k) rows)).
Proof.
  induction 1 as [|r rows Hr _ IH]; [apply margin_0|].
  rewrite (margin_ext _ _ _ _ (inc (fun i => Z.of_nat (count_occ idx_dec rows i)) r)).
  - rewrite margin_inc, IH by auto. cbn [filter]. destruct (idx_eqb (proj dims r) k); cbn [length]; lia.
  - intros i _. unfold inc, fupd, idx_eqb. cbn [count_occ]. destruct (idx_dec r i) as [->|N]; repeat (destruct (list_eq_dec _ _ _)); try congruence; lia.
Qed.

Lemma filter_seq {A} (f : A -> bool) d l n : n = length l -> length (filter (fun p => f (nth p l d)) (seq 0 n)) = length (filter f l).
Proof.
  intros ->. assert (map (fun p => nth p l d) (seq 0 (length l)) = l) as E.
  { apply (nth_ext _ _ d d); rewrite map_length, seq_length; auto. intros p Hp.
    rewrite (nth_indep _ d (nth 0 l d)) by (now rewrite map_length, seq_length).
    rewrite (map_nth (fun p => nth p l d)), seq_nth by auto. reflexivity. }
  replace (filter f l) with (filter f (map (fun p => nth p l d) (seq 0 (length l)))) by now rewrite E. clear E. induction (seq 0 (length l)) as [|x s IH]; auto. cbn [map filter]. destruct (f (nth x l d)); cbn [length]; auto.
Qed.

(** the table with rows [rows], category numbers shifted by [o] *)
Definition table (o : Z) (D : nat) (rows : list (list Z)) : list (list Z) := map (fun j => map (fun r => o + nth j r 0) rows) (seq 0 D).

Lemma table_person o D rows p : Forall (fun r => length r = D) rows -> (p < length rows)%nat ->
  person (table o D rows) p = map (Z.add o) (nth p rows []).
Proof.
  intros Hf Hp. unfold person, table. rewrite map_map.
  pose proof (proj1 (Forall_forall _ _) Hf _ (nth_In rows [] Hp)) as Hlen. cbv beta in Hlen.
  apply (nth_ext _ _ 0 0); rewrite !map_length, seq_length; auto. intros j Hj.
  assert (forall A B (f : A -> B) (l : list A) n a b, (n < length l)%nat -> nth n (map f l) b = f (nth n l a)) as M.
  { intros A B f l n a b Hn. rewrite (nth_indep _ b (f a)) by now rewrite map_length. apply map_nth. }
  rewrite (M _ _ _ _ _ 0%nat) by now rewrite seq_length. rewrite seq_nth by auto. cbn [Nat.add].
  rewrite (M _ _ _ _ _ []) by auto. rewrite (M _ _ _ _ _ 0) by lia. reflexivity.
Qed.

Lemma proj_shift o dims r : Forall (fun d => 0 <= d < Z.of_nat (length r)) dims -> proj dims (map (Z.add o) r) = map (Z.add o) (proj dims r).
Proof.
  intros H. unfold proj. rewrite map_map. apply map_ext_in. intros d Hd. apply (proj1 (Forall_forall _ _) H) in Hd.
  rewrite (nth_indep _ 0 (o + 0)) by (rewrite map_length; lia). apply (map_nth (Z.add o)).
Qed.

Lemma idx_eqb_shift o a b : idx_eqb (map (Z.add o) a) (map (Z.add o) b) = idx_eqb a b.
Proof.
  unfold idx_eqb. destruct (idx_dec a b) as [->|N]; destruct (idx_dec _ _) as [E|N']; auto; try congruence.
  exfalso. apply N. clear N. revert b E. induction a as [|x a IH]; intros [|y b]; cbn [map]; try discriminate; auto.
  intros H. injection H as H1 H2. f_equal; [lia|auto].
Qed.

Lemma table_count o sizes rows dims k : Forall (index_in sizes) rows -> Forall (fun d => 0 <= d < Z.of_nat (length sizes)) dims ->
  head_count (table o (length sizes) rows) (Z.of_nat (length rows)) dims (map (Z.add o) k) =
  margin sizes dims k (fun i => Z.of_nat (count_occ idx_dec rows i)).
Proof.
  intros Hin Hd. rewrite count_margin by auto. unfold head_count. f_equal. rewrite Nat2Z.id.
  rewrite <- (filter_seq (fun r => idx_eqb (proj dims r) k) [] rows _ eq_refl). f_equal.
  apply filter_ext_in. intros p Hp. apply in_seq in Hp.
  assert (Forall (fun r => length r = length sizes) rows) as Hl by (eapply Forall_impl; [|exact Hin]; intros r Hr; now apply index_in_length).
  rewrite table_person by (auto; lia). rewrite proj_shift.
  - apply idx_eqb_shift.
  - rewrite (proj1 (Forall_forall _ _) Hl (nth p rows [])) by (apply nth_In; lia). exact Hd.
Qed.

(** the table of the population [r] is what the theorem asks for *)
Lemma table_spec o sizes r rows cs pop (conv : Prop) : implied cs sizes -> Z.of_nat (length rows) = total sizes r -> total sizes r = pop ->
  Forall (index_in sizes) rows -> (forall i, index_in sizes i -> Z.of_nat (count_occ idx_dec rows i) = r i) ->
  (conv <-> forall c, In c cs -> meets sizes r c) ->
  let cols := table o (length sizes) rows in
  length cols = length sizes /\ Forall (fun col => Z.of_nat (length col) = pop) cols /\
  (forall p, Z.of_nat p < pop -> exists i, index_in sizes i /\ person cols p = map (Z.add o) i) /\
  (conv <-> forall c k, In c cs -> index_in (c_sizes c) k -> head_count cols pop (c_dims c) (map (Z.add o) k) = c_at c k).
Proof.
  intros Hi Hl Ht Hin Hc Hcv cols.
  split; [unfold cols, table; now rewrite map_length, seq_length|].
  split; [unfold cols, table; apply Forall_map, Forall_forall; intros j _; rewrite map_length; lia|].
  split.
  - intros p Hp. exists (nth p rows []). assert (p < length rows)%nat as Hp' by lia. split.
    + exact (proj1 (Forall_forall _ _) Hin _ (nth_In rows [] Hp')).
    + apply table_person; auto. eapply Forall_impl; [|exact Hin]; intros x Hx; now apply index_in_length.
  - rewrite Hcv. rewrite <- Ht, <- Hl.
    assert (forall c k, In c cs -> head_count cols (Z.of_nat (length rows)) (c_dims c) (map (Z.add o) k) = margin sizes (c_dims c) k r) as E.
    { intros c k Hcs. unfold cols. rewrite table_count; auto.
      - now apply margin_ext.
      - apply Forall_forall. intros d Hd. apply (proj1 Hi). eauto. }
    split.
    + intros H c k Hcs Hk. rewrite E by auto. now apply H.
    + intros H c Hcs k Hk. rewrite <- E by auto. now apply H.
Qed.

Lemma table_0 D rows : map (fun j => map (fun r => nth j r 0) rows) (seq 0 D) = table 0 D rows.
Proof. reflexivity. Qed.

(** * The four calls *)
Lemma shift_0 l : map (Z.add 0) l = l.
Proof. apply map_id. Qed.

Lemma people_qis L fuel ilist mlist skips res : in_range ilist mlist -> py_qis L fuel ilist mlist skips = Ok res ->
  let a := qr_pop_array res in Forall (fun n => n <= 2 ^ 31) (shape a) -> qr_pop res < 2 ^ 61 ->
  exists cols, flatten a = Ok cols /\ length cols = length (shape a) /\ Forall (fun col => Z.of_nat (length col) = qr_pop res) cols /\
    (forall p, Z.of_nat p < qr_pop res -> index_in (shape a) (person cols p)) /\
    (qr_conv res = true <->
     forall c k, In c (cons_of ilist mlist) -> index_in (c_sizes c) k -> head_count cols (qr_pop res) (c_dims c) k = c_at c k).
Proof.
  intros Hr E a Hs Hp. destruct (population_claim _ _ _ _ _ _ Hr E) as (Hi & Hw & Hn & Ht & _). fold a in Hi, Hw, Hn, Ht.
  destruct (flatten_claim a Hw (proj2 Hr _ Hi) Hs Hn) as (rows & Ef & Hl & Hin & Hc & _); [lia|].
  destruct (table_spec 0 _ _ _ _ _ _ Hi Hl Ht Hin Hc (conv_claim _ _ _ _ _ _ Hr E)) as (H1 & H2 & H3 & H4).
  exists (table 0 (length (shape a)) rows). split; [exact Ef|]. split; [exact H1|]. split; [exact H2|]. split.
  - intros p H. destruct (H3 p H) as (i & Hii & ->). now rewrite shift_0.
  - rewrite H4. split; intros H c k A B; specialize (H c k A B); now rewrite shift_0 in *.
Qed.

Lemma people_qisi L fuel seed ilist mlist skips res : qisi_range ilist mlist seed -> py_qisi L fuel seed ilist mlist skips = Ok res ->
  let a := qr_pop_array res in Forall (fun n => n <= 2 ^ 31) (shape a) ->
  exists cols, flatten a = Ok cols /\ length cols = length (shape a) /\ Forall (fun col => Z.of_nat (length col) = qr_pop res) cols /\
    (forall p, Z.of_nat p < qr_pop res -> index_in (shape a) (person cols p)) /\
    (qr_conv res = true <->
     forall c k, In c (cons_of ilist mlist) -> index_in (c_sizes c) k -> head_count cols (qr_pop res) (c_dims c) k = c_at c k).
Proof.
  intros Hr E a Hs. destruct (qisi_population_claim _ _ _ _ _ _ _ Hr E) as (Esh & Hi & Hw & Hn & Ht & Hall). fold a in Esh, Hi, Hw, Hn, Ht.
  pose proof Hr as (Hr0 & Hp & _).
  destruct (proj2 (proj1 Hi 0)) as (c0 & Hc0 & _). { destruct Hw as (Hne & _). destruct (shape a); [easy|cbn [length]; lia]. }
  pose proof (Hp _ Hc0). pose proof (Hall _ Hc0).
  destruct (flatten_claim a Hw (proj2 Hr0 _ Hi) Hs Hn) as (rows & Ef & Hl & Hin & Hc & _); [lia|].
  destruct (table_spec 0 _ _ _ _ _ _ Hi Hl Ht Hin Hc (qisi_conv_claim _ _ _ _ _ _ _ Hr E)) as (H1 & H2 & H3 & H4).
  exists (table 0 (length (shape a)) rows). split; [exact Ef|]. split; [exact H1|]. split; [exact H2|]. split.
  - intros p Hpp. destruct (H3 p Hpp) as (i & Hii & ->). now rewrite shift_0.
  - rewrite H4. split; intros Hx c k A B; specialize (Hx c k A B); now rewrite shift_0 in *.
Qed.

Lemma people_r_qis L fuel indices marginals skips res : r_range indices marginals -> r_qis L fuel indices marginals skips = Ok res ->
  let a := rr_result res in Forall (fun n => n < 2 ^ 31) (col_sizes a) -> rr_pop res < 2 ^ 31 ->
  exists cols, r_flatten a = Ok cols /\ length cols = length (col_sizes a) /\ Forall (fun col => Z.of_nat (length col) = rr_pop res) cols /\
    (forall p, Z.of_nat p < rr_pop res -> exists i, index_in (col_sizes a) i /\ person cols p = map (Z.add 1) i) /\
    (rr_conv res = true <->
     forall c k, In c (rcons_of indices marginals) -> index_in (c_sizes c) k ->
       head_count cols (rr_pop res) (c_dims c) (map (Z.add 1) k) = c_at c k).
Proof.
  intros Hr E a Hs Hp. destruct (r_qis_claim _ _ _ _ _ _ Hr E) as (Hi & Hw & _).
  destruct (r_qis_pop_claim _ _ _ _ _ _ Hr E) as (_ & H). destruct (H Hp) as (Hn & Ht & Hcv). fold a in Hi, Hw, Hn, Ht, Hcv.
  assert (prodZ (col_sizes a) < 2 ^ 60) as Hpr by (apply (proj2 (proj2 Hr) 1); apply implied_con; exact Hi).
  destruct (r_flatten_claim a Hw Hpr Hs Hn) as (rows & Ef & Hl & Hin & Hc & _); [lia|].
  exists (table 1 (length (col_sizes a)) rows). split; [exact Ef|]. now apply (table_spec 1 _ _ _ _ _ _ Hi Hl Ht Hin Hc Hcv).
Qed.

Lemma people_r_qisi L fuel sdim sdata indices marginals skips res : r_range indices marginals -> r_seed sdim sdata ->
  r_qisi L fuel sdim sdata indices marginals skips = Ok res ->
  let a := rr_result res in Forall (fun n => n < 2 ^ 31) sdim -> rr_pop res < 2 ^ 31 ->
  exists cols, r_flatten a = Ok cols /\ length cols = length sdim /\ Forall (fun col => Z.of_nat (length col) = rr_pop res) cols /\
    (forall p, Z.of_nat p < rr_pop res -> exists i, index_in sdim i /\ person cols p = map (Z.add 1) i) /\
    (rr_conv res = true <->
     forall c k, In c (rcons_of indices marginals) -> index_in (c_sizes c) k ->
       head_count cols (rr_pop res) (c_dims c) (map (Z.add 1) k) = c_at c k).
Proof.
  intros Hr Hsd E a Hs Hp. destruct (r_qisi_claim _ _ _ _ _ _ _ _ Hr Hsd E) as (Esh & Hw & Hi & _ & _ & H). destruct (H Hp) as (Hn & Ht & Hcv).
  fold a in Esh, Hw, Hn, Ht, Hcv. destruct Hsd as [_ Hpr]. rewrite <- Esh in *.
  destruct (r_flatten_claim a Hw Hpr Hs Hn) as (rows & Ef & Hl & Hin & Hc & _); [lia|].
  exists (table 1 (length (col_sizes a)) rows). split; [exact Ef|]. now apply (table_spec 1 _ _ _ _ _ _ Hi Hl Ht Hin Hc Hcv).
Qed.

(** * The same people with further attributes *)
Lemma lex_le_antisym a b : length a = length b -> lex_le a b -> lex_le b a -> a = b.
Proof.
  revert b. induction a as [|x a IH]; intros [|y b]; cbn [length lex_le]; try discriminate; auto.
  intros Hl [H|[-> H]] [H'|[E H']]; try lia. f_equal. apply IH; auto; lia.
Qed.

Lemma sorted_unique D l l' : Forall (fun r => length r = D) l -> StronglySorted lex_le l -> StronglySorted lex_le l' -> Permutation l l' -> l = l'.
Proof.
  revert l'. induction l as [|x l IH]; intros l' Hf Hs Hs' Hp; [now apply Permutation_nil in Hp|].
  destruct l' as [|y l']; [now apply Permutation_sym, Permutation_nil in Hp|].
  assert (Forall (fun r => length r = D) (y :: l')) as Hf' by (now rewrite <- Hp).
  apply StronglySorted_inv in Hs as [Hs Hx]. apply StronglySorted_inv in Hs' as [Hs' Hy].
  assert (x = y) as ->.
  { inversion Hf as [|? ? Lx Hf1]; inversion Hf' as [|? ? Ly Hf1']; subst.
    destruct (list_eq_dec Z.eq_dec x y) as [|N]; auto.
    apply lex_le_antisym; [congruence| |].
    - assert (In y (x :: l)) as [->|H] by (rewrite Hp; now left); [easy|]. exact (proj1 (Forall_forall _ _) Hx _ H).
    - assert (In x (y :: l')) as [->|H] by (rewrite <- Hp; now left); [easy|]. exact (proj1 (Forall_forall _ _) Hy _ H). }
  f_equal. apply IH; auto; [now inversion Hf|]. now apply Permutation_cons_inv in Hp.
Qed.

Lemma lex_le_first D a b : lex_le a b -> lex_le (firstn D a) (firstn D b).
Proof.
  revert a b. induction D as [|D IH]; intros [|x a] [|y b]; cbn [firstn lex_le]; auto.
  intros [H|[E H]]; [now left|right; auto].
Qed.

Lemma sorted_first D l : StronglySorted lex_le l -> StronglySorted lex_le (map (firstn D) l).
Proof.
  induction 1 as [|x l Hs IH Hx]; cbn [map]; constructor; auto.
  apply Forall_map. eapply Forall_impl; [|exact Hx]. intros r. apply lex_le_first.
Qed.

Lemma count_map {A} (g : A -> list Z) i l : count_occ idx_dec (map g l) i = length (filter (fun r => idx_eqb (g r) i) l).
Proof.
  induction l as [|x l IH]; auto. cbn [map count_occ filter]. unfold idx_eqb at 1. destruct (idx_dec (g x) i); cbn [length]; now rewrite IH.
Qed.

Lemma table_first o D D' rows : (D <= D')%nat -> table o D (map (firstn D) rows) = firstn D (table o D' rows).
Proof.
  intros H. unfold table. rewrite firstn_map. replace (firstn D (seq 0 D')) with (seq 0 D).
  - apply map_ext_in. intros j Hj. apply in_seq in Hj. rewrite map_map. apply map_ext. intros r. now rewrite nth_first by lia.
  - replace D' with (D + (D' - D))%nat by lia. rewrite seq_app, firstn_app, seq_length, Nat.sub_diag. cbn [firstn].
    rewrite app_nil_r. rewrite firstn_all2; auto. rewrite seq_length. lia.
Qed.

Lemma index_in_first D sizes i : index_in sizes i -> index_in (firstn D sizes) (firstn D i).
Proof.
  intros H. revert D. induction H as [|n x ns i Hx _ IH]; intros [|D]; cbn [firstn]; constructor; auto. apply IH.
Qed.

Lemma people_extended L fuel ilist mlist ilist' mlist' skips sizes res' :
  vectors ilist mlist -> (2 <= length ilist)%nat -> implied (cons_of ilist mlist) sizes -> (2 <= length sizes)%nat ->
  in_range (ilist ++ ilist') (mlist ++ mlist') -> py_qis L fuel (ilist ++ ilist') (mlist ++ mlist') skips = Ok res' -> (32 <= fuel)%nat ->
  Forall (fun n => n <= 2 ^ 31) (shape (qr_pop_array res')) -> qr_pop res' < 2 ^ 61 ->
  exists res cols', py_qis L fuel ilist mlist skips = Ok res /\ flatten (qr_pop_array res') = Ok cols' /\
    flatten (qr_pop_array res) = Ok (firstn (length sizes) cols').
Proof.
  intros Hvec Hl2 Himp Hd2 Hr' E' Hfuel Hs' Hp'.
  destruct (grow_claim' L fuel ilist mlist ilist' mlist' skips sizes res' Hvec Hl2 Himp Hd2 Hr' E' Hfuel) as (res & E & Esh & Ep & Hk & _).
  destruct (population_claim _ _ _ _ _ _ Hr' E') as (Hi' & Hw' & Hn' & Ht' & _).
  assert (in_range ilist mlist) as Hr by (eapply in_range_prefix; eauto; apply Hvec).
  destruct (population_claim _ _ _ _ _ _ Hr E) as (Hi & Hw & Hn & Ht & _).
  set (a := qr_pop_array res) in *. set (a' := qr_pop_array res') in *.
  destruct (flatten_claim a' Hw' (proj2 Hr' _ Hi') Hs' Hn') as (rows' & Ef' & Hl' & Hin' & Hc' & Hso'); [lia|].
  rewrite cons_of_app in Hi' by apply Hvec.
  pose proof (fewer _ _ _ _ Himp Hi') as Hfew. pose proof (sizes_first _ _ _ _ Himp Hi') as Hfst.
  assert (Forall (fun n => n <= 2 ^ 31) (shape a)) as Hs.
  { rewrite Esh, <- Hfst. apply Forall_forall. intros x Hx. apply (proj1 (Forall_forall _ _) Hs'). rewrite <- (firstn_skipn (length sizes) (shape a')). apply in_or_app. now left. }
  destruct (flatten_claim a Hw (proj2 Hr _ Hi) Hs Hn) as (rows & Ef & Hl & Hin & Hc & Hso); [lia|].
  exists res, (table 0 (length (shape a')) rows'). split; [exact E|]. split; [exact Ef'|]. fold a. rewrite Ef, table_0, Esh. f_equal.
  rewrite <- table_first by exact Hfew. f_equal. set (D := length sizes) in *.
  assert (Forall (index_in sizes) (map (firstn D) rows')) as HinD.
  { apply Forall_map. eapply Forall_impl; [|exact Hin']. intros r Hr0. rewrite <- Hfst. now apply index_in_first. }
  apply (sorted_unique D).
  - eapply Forall_impl; [|exact Hin]. intros r Hr0. rewrite (index_in_length _ _ Hr0). now rewrite Esh.
  - exact Hso.
  - now apply sorted_first.
  - apply (Permutation_count_occ idx_dec). intros i. apply Nat2Z.inj.
    destruct (in_dec idx_dec i (all_indices sizes)) as [Hx|Hx]; rewrite in_all_indices in Hx.
    + rewrite Hc, Hk by (rewrite ?Esh; auto). rewrite count_map. rewrite <- (margin_ext _ _ _ _ _ Hc'). rewrite count_margin by auto.
      f_equal. f_equal. apply filter_ext_in. intros r Hr0. f_equal. apply proj_dimsD.
      rewrite (index_in_length _ _ (proj1 (Forall_forall _ _) Hin' _ Hr0)). exact Hfew.
    + f_equal. transitivity 0%nat; [|symmetry]; apply count_occ_not_In; intros H; apply Hx.
      * rewrite <- Esh. exact (proj1 (Forall_forall _ _) Hin _ H).
      * exact (proj1 (Forall_forall _ _) HinD _ H).
Qed.

(** * Examples *)
Definition people_of (x : outcome qis_result) : outcome (list (list Z)) := let* r := x in flatten (qr_pop_array r).
Definition r_people_of (x : outcome r_result) : outcome (list (list Z)) := let* r := x in r_flatten (rr_result r).
Definition exPe_i : list (list Z) := [[1]; [2]].
Definition exPe_m : list (rarray Z) := [RA (Some [2]) [7; 2]; RA (Some [2]) [5; 4]].
Lemma exPe_range : r_range exPe_i exPe_m. Proof. apply (r_range_by _ _ [2; 2]); vm_compute; reflexivity. Qed.
Lemma exPe_seed : r_seed [2; 2] (dz [1; 2; 3; 1]). Proof. apply r_seed_by. vm_compute. reflexivity. Qed.
