(** Finite facts about all 1111 dimensions, checked by computation over the whole table. *)
From Verif Require Import Base SobolTable Sobol SobolSpec SobolInit Primitive.
Open Scope N_scope.

(** direction numbers are odd and number j is below 2^(j+1) *)
Definition valid_directions (m : list N) : Prop :=
  length m = 32%nat /\ forall j, (j < 32)%nat -> N.odd (m_at m j) = true /\ m_at m j < 2 ^ N.of_nat (j + 1).

(** the initial numbers of a row of the table are odd and in range, for the polynomials whose degree exceeds the row *)
Definition row_b (j : nat) : bool :=
  let row := nth j sobol_minit [] in
  Nat.eqb (length row) 1110 &&
  forallb (fun '(p, v) => if N.of_nat j <? N.log2 p then N.odd v && (v <? 2 ^ N.of_nat (j + 1)) else true) (combine sobol_a row).
Lemma rows_ok : forallb row_b (seq 0 13) = true.
Proof. vm_cast_no_check (eq_refl true). Qed.
Lemma degrees_ok : forallb (fun p => (0 <? N.log2 p) && (N.log2 p <=? 13)) sobol_a = true.
Proof. vm_cast_no_check (eq_refl true). Qed.
Lemma table_lengths : length sobol_a = 1110%nat /\ length sobol_minit = 13%nat.
Proof. split; reflexivity. Qed.

Lemma degree_of i' : (i' < 1110)%nat -> (1 <= N.to_nat (N.log2 (nth i' sobol_a 0%N)) <= 13)%nat.
Proof.
  intros Hi. pose proof degrees_ok as H. rewrite forallb_forall in H. specialize (H (nth i' sobol_a 0)).
  rewrite andb_true_iff, N.ltb_lt, N.leb_le in H. enough (0 < N.log2 (nth i' sobol_a 0) /\ N.log2 (nth i' sobol_a 0) <= 13) by lia.
  apply H, nth_In. destruct table_lengths as [-> _]. exact Hi.
Qed.
Lemma row_of j : (j < 13)%nat -> row_b j = true.
Proof. intros Hj. pose proof rows_ok as H. rewrite forallb_forall in H. apply H, in_seq. lia. Qed.

Lemma init_dim_ok i : (0 < i < 1111)%nat ->
  exists m, init_dim (N.of_nat i) = Ok m /\ valid_directions m /\ is_directions i m.
Proof.
  intros Hi. destruct i as [|i']; [lia|]. assert (i' < 1110)%nat as Hi' by lia. clear Hi. pose proof (degree_of i' Hi') as Hd.
  destruct table_lengths as [La Lm].
  assert (forall j, (j < 13)%nat -> length (nth j sobol_minit []) = 1110%nat) as Lr.
  { intros j Hj. pose proof (row_of j Hj) as H. unfold row_b in H. cbv zeta in H. apply andb_prop in H as [H _]. now apply Nat.eqb_eq in H. }
  destruct (init_dim_general i') as (m & E & G & D).
  - now rewrite La.
  - rewrite La. reflexivity.
  - lia.
  - rewrite Lm. lia.
  - intros j Hj. rewrite Lr by lia. exact Hi'.
  - intros j Hj. cbv zeta. pose proof (row_of j ltac:(lia)) as H. unfold row_b in H. cbv zeta in H. apply andb_prop in H as [_ H].
    rewrite forallb_forall in H. specialize (H (nth i' sobol_a 0, nth i' (nth j sobol_minit []) 0)). cbv beta iota in H.
    replace (N.of_nat j <? N.log2 (nth i' sobol_a 0)) with true in H by (symmetry; apply N.ltb_lt; lia).
    rewrite andb_true_iff, N.ltb_lt in H. apply H. rewrite <- combine_nth by (rewrite La, Lr by lia; reflexivity).
    apply nth_In. rewrite combine_length, La, Lr by lia. lia.
  - exists m. split; [exact E|]. pose proof D as [L _]. split; [|exact D]. split; [exact L|]. intros j Hj. apply G. lia.
Qed.

Lemma ones_ok : valid_directions (repeat 1 32) /\ is_directions 0 (repeat 1 32).
Proof.
  assert (forall j, (j < 32)%nat -> m_at (repeat 1 32) j = 1) as H.
  { intros j Hj. unfold m_at. do 32 (destruct j as [|j]; [reflexivity|]). lia. }
  split; split; [apply repeat_length| |apply repeat_length|exact H].
  intros j Hj. rewrite H by exact Hj. split; [reflexivity|]. apply N.pow_gt_1; lia.
Qed.

Lemma xor_list_ext l l' : l = l' -> xor_list l = xor_list l'. Proof. congruence. Qed.

(** the direction numbers of a dimension are determined by the specification *)
Lemma is_directions_unique i m m' : (i < 1111)%nat -> is_directions i m -> is_directions i m' -> m = m'.
Proof.
  intros Hi [L H] [L' H']. apply (nth_ext _ _ 0 0); [congruence|]. rewrite L.
  destruct i as [|i]; [intros j Hj; now rewrite (H j Hj : nth j m 0 = 1), (H' j Hj : nth j m' 0 = 1)|].
  cbv zeta in H, H'. set (p := nth i sobol_a 0) in *. set (d := N.to_nat (N.log2 p)) in *. destruct H as [Ha Hb], H' as [Ha' Hb'].
  assert (0 < d)%nat as Hd.
  { assert (forallb (fun p => 0 <? N.log2 p) sobol_a = true) as Hf by (vm_compute; reflexivity).
    rewrite forallb_forall in Hf. specialize (Hf p).
    assert (In p sobol_a) as Hin by (apply nth_In; change (length sobol_a) with 1110%nat; lia).
    apply Hf, N.ltb_lt in Hin. lia. }
  clearbody d p. intros j. induction j as [j IH] using lt_wf_ind. intros Hj.
  destruct (Nat.lt_ge_cases j d) as [Hlt|Hge].
  - transitivity (m_at m j); [reflexivity|]. rewrite (Ha j Hlt), <- (Ha' j Hlt). reflexivity.
  - transitivity (m_at m j); [reflexivity|]. rewrite (Hb j (conj Hge Hj)). transitivity (m_at m' j); [|reflexivity].
    rewrite (Hb' j (conj Hge Hj)). f_equal; [apply IH; lia|]. apply xor_list_ext, map_ext_in. intros k Hk.
    apply in_seq in Hk. destruct (N.testbit p (N.of_nat k)); auto. f_equal. apply IH; lia.
Qed.

(** primitivity: for each degree d, exponents such that every proper divisor of 2^d-1 divides one of them *)
Definition exponents : list (list positive) :=
  [[]; []; [1]; [1]; [3; 5]; [1]; [9; 21]; [1]; [15; 51; 85]; [7; 73]; [33; 93; 341]; [23; 89]; [315; 585; 819; 1365]; [1]]%positive.
Fixpoint from_b (f : N -> bool) (n : nat) (g : N) : bool := match n with O => true | S n' => f g && from_b f n' (g + 1) end.
Lemma from_b_ok f n : forall g, from_b f n g = true -> forall k, g <= k < g + N.of_nat n -> f k = true.
Proof.
  induction n as [|n IH]; intros g H k Hk; cbn [from_b] in H; [lia|]. apply andb_prop in H as [H1 H2].
  destruct (N.eq_dec k g) as [->|]; auto. apply (IH _ H2). lia.
Qed.
Definition covers_b (d : nat) : bool :=
  let n := 2 ^ N.of_nat d - 1 in
  from_b (fun g => if n mod g =? 0 then existsb (fun m => N.pos m mod g =? 0) (nth d exponents []) else true) (N.to_nat (n - 1)) 1.
Lemma covers_ok : forallb covers_b (seq 1 13) = true.
Proof. vm_cast_no_check (eq_refl true). Qed.

Definition primitive_b (p : N) : bool :=
  let d := N.log2 p in
  (0 <? d) && (d <=? 13) &&
  match 2 ^ d - 1 with N0 => false | Npos n => ppow p d n =? 1 end &&
  forallb (fun m => negb (ppow p d m =? 1)) (nth (N.to_nat d) exponents []).

Lemma primitive_b_ok p : primitive_b p = true -> primitive p.
Proof.
  unfold primitive_b. cbv zeta. rewrite !andb_true_iff, N.ltb_lt, N.leb_le. intros [[[H0 H13] H1] H2].
  pose proof (fun e => fpow_ok p H0 e) as F. set (d := N.log2 p) in *. unfold primitive. cbv zeta. fold d. split; [exact H0|].
  destruct (2 ^ d - 1) as [|n] eqn:En; [discriminate|]. rewrite N.eqb_eq, F in H1. cbn [N.to_nat]. split; [exact H1|].
  intros e He1 He2. apply (order_by p H0 (Pos.to_nat n) (map Pos.to_nat (nth (N.to_nat d) exponents []))); auto; [lia| |].
  - intros m Hm. apply in_map_iff in Hm as (q & <- & Hq). rewrite forallb_forall in H2. specialize (H2 q Hq). fold d.
    rewrite F in H2. rewrite negb_true_iff, N.eqb_neq in H2. exact H2.
  - intros g Hg Hdv. pose proof covers_ok as C. rewrite forallb_forall in C. specialize (C (N.to_nat d) ltac:(apply in_seq; lia)).
    unfold covers_b in C. cbv zeta in C. rewrite N2Nat.id, En in C. apply from_b_ok with (k := N.of_nat g) in C; [|lia].
    assert (N.pos n mod N.of_nat g = 0) as Em.
    { destruct Hdv as (q & Eq). replace (N.pos n) with (N.of_nat q * N.of_nat g) by lia. apply N.mod_mul. lia. }
    rewrite Em, N.eqb_refl in C. apply existsb_exists in C as (m & Hm & Em').
    exists (Pos.to_nat m). split; [now apply in_map|]. apply N.eqb_eq in Em'. apply N.mod_divide in Em' as (q & Eq); [|lia].
    exists (N.to_nat q). lia.
Qed.

Lemma all_primitive : forallb primitive_b sobol_a = true.
Proof. vm_cast_no_check (eq_refl true). Qed.

Fixpoint sorted_distinct_b (l : list N) (seen : list N) : bool :=
  match l with [] => true | x :: l' => negb (existsb (N.eqb x) seen) && sorted_distinct_b l' (x :: seen) end.

Lemma distinct_b_ok l seen : sorted_distinct_b l seen = true -> NoDup l /\ forall x, In x l -> ~ In x seen.
Proof.
  revert seen. induction l as [|x l IH]; intros seen; simpl; [split; [constructor|easy]|].
  rewrite andb_true_iff, negb_true_iff. intros [Hx Hl]. destruct (IH _ Hl) as [Hn Hs].
  assert (~ In x seen) as Hxs.
  { intros Hin. enough (existsb (N.eqb x) seen = true) by congruence. apply existsb_exists. exists x. now rewrite N.eqb_refl. }
  split.
  - constructor; auto. intros Hin. apply (Hs x Hin). now left.
  - intros y [->|Hy]; auto. intros Hin. apply (Hs y Hy). now right.
Qed.

Lemma polynomials_distinct : NoDup sobol_a.
Proof. apply (distinct_b_ok sobol_a []). vm_cast_no_check (eq_refl true). Qed.
