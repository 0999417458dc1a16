(** The Sobol points of all 1111 coordinates form a digital net: proof of C72. *)
From Verif Require Import Base SpecFacts SobolTable Sobol SobolSpec SobolTableProofs SobolProofs SobolClaims NetLin NetPoly NetSpec.
Open Scope N_scope.
#[local] Arguments N.lxor : simpl never.
#[local] Arguments N.testbit : simpl never.
#[local] Arguments N.shiftl : simpl never.
#[local] Arguments N.pow : simpl never.
#[local] Arguments N.add : simpl never.
#[local] Arguments N.mul : simpl never.
#[local] Arguments N.sub : simpl never.
#[local] Arguments N.div : simpl never.

(** * the polynomials *)
Lemma table_len : length sobol_a = 1110%nat. Proof. reflexivity. Qed.
Lemma table_degrees : forallb (fun p => (0 <? N.log2 p) && (N.log2 p <? 32) && negb (p =? 2)) sobol_a = true.
Proof. vm_compute. reflexivity. Qed.
Lemma table_in i' : (i' < 1110)%nat -> In (nth i' sobol_a 0) sobol_a.
Proof. intros H. apply nth_In. now rewrite table_len. Qed.
Lemma table_facts i' : (i' < 1110)%nat ->
  let p := nth i' sobol_a 0 in 0 < N.log2 p < 32 /\ p <> 2 /\ primitive p.
Proof.
  intros H p. pose proof (table_in i' H) as Hin. fold p in Hin.
  pose proof table_degrees as T. rewrite forallb_forall in T. specialize (T p Hin).
  rewrite !andb_true_iff, !N.ltb_lt, negb_true_iff, N.eqb_neq in T. destruct T as [[T1 T2] T3].
  split; [lia|]. split; auto. pose proof all_primitive as A. rewrite forallb_forall in A. now apply primitive_b_ok, A.
Qed.

Lemma degree_bounds i : (i < 1111)%nat -> 0 < degree i < 32.
Proof.
  intros Hi. destruct i as [|i']; [unfold degree; cbn; lia|]. apply (table_facts i'). lia.
Qed.
Lemma poly_nz i : (i < 1111)%nat -> poly i <> 0.
Proof. intros Hi E. pose proof (degree_bounds i Hi) as H. unfold degree in H. rewrite E in H. cbn in H. lia. Qed.
Lemma deg_degree i : deg (poly i) = N.to_nat (degree i). Proof. reflexivity. Qed.

Lemma poly_inj i j : (i < 1111)%nat -> (j < 1111)%nat -> poly i = poly j -> i = j.
Proof.
  intros Hi Hj E. destruct i as [|i], j as [|j]; auto; cbn [poly] in E.
  - destruct (table_facts j) as (_ & H & _); [lia|]. congruence.
  - destruct (table_facts i) as (_ & H & _); [lia|]. congruence.
  - f_equal. apply (proj1 (NoDup_nth sobol_a 0) polynomials_distinct); auto; rewrite table_len; lia.
Qed.

Lemma poly_coprime i j : (i < 1111)%nat -> (j < 1111)%nat -> poly i <> poly j -> coprime (poly i) (poly j).
Proof.
  assert (forall i j, (i < 1111)%nat -> (j < 1111)%nat -> (0 < i)%nat -> degree j <= degree i -> poly i <> poly j ->
    coprime (poly i) (poly j)) as Hw.
  { intros a b Ha Hb H0 Hle Hne x Hka Hkb. destruct a as [|a']; [lia|].
    destruct (table_facts a') as (Hd & _ & Hp); [lia|].
    apply (prim_coprime (poly (S a')) Hp) with (q := poly b); auto.
    - rewrite deg_degree. unfold degree. cbn [poly]. lia.
    - now apply poly_nz.
    - rewrite !deg_degree. lia. }
  intros Hi Hj Hne.
  assert (forall a b, coprime a b -> coprime b a) as Hsym by (intros a b H x H1 H2; now apply H).
  pose proof (degree_bounds i Hi). pose proof (degree_bounds j Hj).
  destruct i as [|i']; [destruct j as [|j']; [congruence|]|].
  - apply Hsym, Hw; auto; try lia. change (degree 0) with 1. lia.
  - destruct (N.le_ge_cases (degree j) (degree (S i'))); [apply Hw; auto; lia|].
    destruct j as [|j']; [change (degree 0) with 1 in *; apply Hw; auto; try lia; change (degree 0) with 1; lia|].
    apply Hsym, Hw; auto; lia.
Qed.

(** * direction numbers continued past the thirty-second *)
Definition step_of (p : N) (d : nat) (M : nat -> N) (j : nat) : N :=
  N.lxor (M (j - d)%nat)
    (xor_list (map (fun k => if N.testbit p (N.of_nat k) then N.shiftl (M (j - d + k)%nat) (N.of_nat (d - k)) else 0) (seq 0 d))).

Lemma step_of_ext p d M M' j : (0 < d <= j)%nat -> (forall k, (k < j)%nat -> M k = M' k) -> step_of p d M j = step_of p d M' j.
Proof.
  intros Hd H. unfold step_of. f_equal; [apply H; lia|]. apply xor_list_ext, map_ext_in. intros k Hk. apply in_seq in Hk.
  now rewrite H by lia.
Qed.

Fixpoint grow (p : N) (d : nat) (l : list N) (n : nat) : list N :=
  match n with O => l | S n' => let l' := grow p d l n' in l' ++ [step_of p d (m_at l') (length l')] end.
Definition mext (i : nat) (m : list N) (c : nat) : N :=
  match i with O => 1 | S _ => m_at (grow (poly i) (deg (poly i)) m (S c)) c end.

Lemma grow_length p d l n : length (grow p d l n) = (length l + n)%nat.
Proof. induction n as [|n IH]; cbn; [lia|]. rewrite app_length, IH. cbn. lia. Qed.
Lemma grow_prefix p d l n k c : (c < length l + n)%nat -> m_at (grow p d l (n + k)) c = m_at (grow p d l n) c.
Proof.
  intros Hc. induction k as [|k IH]; [now rewrite Nat.add_0_r|]. rewrite Nat.add_succ_r. cbn [grow].
  rewrite <- IH. unfold m_at. rewrite app_nth1; auto. rewrite grow_length. lia.
Qed.

Lemma mext_low i m c : (i < 1111)%nat -> is_directions i m -> (c < 32)%nat -> mext i m c = m_at m c.
Proof.
  intros Hi [Hl H] Hc. destruct i as [|i']; cbn [mext]; [now rewrite H|].
  apply (grow_prefix _ _ m 0 (S c)). lia.
Qed.

Lemma mext_grow i' m j n : length m = 32%nat -> (j < 32 + n)%nat ->
  m_at (grow (poly (S i')) (deg (poly (S i'))) m n) j = mext (S i') m j.
Proof.
  intros Hl Hj. cbn [mext]. destruct (Nat.le_gt_cases n (S j)).
  - replace (S j) with (n + (S j - n))%nat at 1 by lia. symmetry. apply grow_prefix. lia.
  - replace n with (S j + (n - S j))%nat by lia. apply grow_prefix. lia.
Qed.

(** the recurrence holds throughout *)
Lemma mext_step i m j : (i < 1111)%nat -> is_directions i m -> (deg (poly i) <= j)%nat ->
  mext i m j = step_of (poly i) (deg (poly i)) (mext i m) j.
Proof.
  intros Hi Hm Hj. pose proof (degree_bounds i Hi) as Hd. pose proof Hm as [Hl H].
  assert (0 < deg (poly i) < 32)%nat as Hd' by (rewrite deg_degree; lia).
  destruct i as [|i'].
  - unfold step_of. cbn. reflexivity.
  - cbv zeta in H. change (N.to_nat (N.log2 (nth i' sobol_a 0))) with (deg (poly (S i'))) in H.
    change (nth i' sobol_a 0) with (poly (S i')) in H. destruct H as [_ H].
    destruct (Nat.lt_ge_cases j 32) as [Hlt|Hge].
    + rewrite mext_low by auto. rewrite (H j) by lia. symmetry. transitivity (step_of (poly (S i')) (deg (poly (S i'))) (m_at m) j).
      * apply step_of_ext; [lia|]. intros k Hk. apply mext_low; auto. lia.
      * reflexivity.
    + rewrite <- (mext_grow i' m j (S (j - 32))) by lia. cbn [grow].
      set (g := grow _ _ m (j - 32)). assert (length g = j) as Hg by (unfold g; rewrite grow_length; lia).
      unfold m_at at 1. rewrite app_nth2 by lia. rewrite Hg, Nat.sub_diag. cbn [nth].
      apply step_of_ext; [lia|]. intros k Hk. apply mext_grow; auto. lia.
Qed.

Lemma mext_lt i m c : (i < 1111)%nat -> is_directions i m -> valid_directions m -> mext i m c < 2 ^ N.of_nat (c + 1).
Proof.
  intros Hi Hm [_ Hv]. pose proof (degree_bounds i Hi) as Hd.
  assert (0 < deg (poly i) < 32)%nat as Hd' by (rewrite deg_degree; lia).
  induction c as [c IH] using lt_wf_ind. destruct (Nat.lt_ge_cases c 32) as [Hlt|Hge].
  - rewrite mext_low by auto. now apply Hv.
  - rewrite mext_step by (auto; lia). set (d := deg (poly i)) in *. unfold step_of. apply lxor_lt.
    + eapply N.lt_le_trans; [apply IH; lia|]. apply pow2_le. lia.
    + assert (forall l, (forall x, In x l -> x < 2 ^ N.of_nat (c + 1)) -> xor_list l < 2 ^ N.of_nat (c + 1)) as Hx.
      { induction l as [|x l IHl]; cbn; intros H; [apply N.neq_0_lt_0, N.pow_nonzero; lia|]. apply lxor_lt; auto. }
      apply Hx. intros x Hin. apply in_map_iff in Hin. destruct Hin as (k & <- & Hk). apply in_seq in Hk.
      destruct (N.testbit _ _); [|apply N.neq_0_lt_0, N.pow_nonzero; lia].
      eapply N.lt_le_trans; [apply shiftl_lt, IH; lia|]. apply pow2_le. lia.
Qed.

(** * rows of the generator matrices *)
Definition row (M : nat -> N) (b c : nat) : bool := (b <=? c)%nat && N.testbit (M c) (N.of_nat (c - b)).

Lemma row_op p M b c : p <> 0 -> (0 < deg p < 64)%nat ->
  (forall j, (deg p <= j)%nat -> M j = step_of p (deg p) M j) -> (forall j, M j < 2 ^ N.of_nat (j + 1)) ->
  op p (row M b) c = if (deg p <=? b)%nat then row M (b - deg p) c else false.
Proof.
  intros Hp Hd Hs Hb. set (d := deg p) in *.
  assert (op p (row M b) c = xorb (xsum (map (fun k => N.testbit p (N.of_nat k) && row M b (c + k)%nat) (seq 0 d))) (row M b (c + d)%nat)) as E.
  { unfold op. replace 64%nat with (d + (1 + (63 - d)))%nat by lia. rewrite seq_app, map_app, xsum_app, seq_app, map_app, xsum_app.
    cbn [seq map]. rewrite xsum_cons. change (xsum []) with false. rewrite xorb_false_r. change (0 + d)%nat with d.
    assert (N.testbit p (N.of_nat d) = true) as -> by (unfold d, deg; now rewrite N2Nat.id, N.bit_log2).
    rewrite andb_true_l.
    rewrite (xsum_zero _ (seq (d + 1) (63 - d))); [now rewrite xorb_false_r|].
    intros k Hk. apply in_seq in Hk. rewrite N.bits_above_log2; [reflexivity|]. unfold d, deg in *. lia. }
  rewrite E. destruct (Nat.le_gt_cases b (c + d)) as [Hle|Hgt].
  2: { rewrite xsum_zero.
       - unfold row at 1. rewrite (proj2 (Nat.leb_gt b (c + d))) by lia. destruct (d <=? b)%nat; auto. unfold row.
         rewrite (proj2 (Nat.leb_gt _ _)); [reflexivity|lia].
       - intros k Hk. apply in_seq in Hk. unfold row. rewrite (proj2 (Nat.leb_gt b (c + k))) by lia. apply andb_false_r. }
  unfold row at 2. rewrite (proj2 (Nat.leb_le b (c + d))) by lia. rewrite andb_true_l.
  rewrite Hs by lia. unfold step_of. rewrite N.lxor_spec. replace (c + d - d)%nat with c by lia.
  assert (N.testbit (xor_list (map (fun k => if N.testbit p (N.of_nat k) then N.shiftl (M (c + k)%nat) (N.of_nat (d - k)) else 0) (seq 0 d)))
    (N.of_nat (c + d - b)) = xsum (map (fun k => N.testbit p (N.of_nat k) && row M b (c + k)%nat) (seq 0 d))) as ->.
  { assert (forall k, In k (seq 0 d) -> (k < d)%nat) as Hk by (intros k H; apply in_seq in H; lia). revert Hk.
    generalize (seq 0 d). induction l as [|k l IH]; intros Hk; [apply N.bits_0|]. cbn [map xor_list]. rewrite N.lxor_spec, xsum_cons.
    rewrite IH by (intros; apply Hk; now right). f_equal. specialize (Hk k (or_introl eq_refl)).
    destruct (N.testbit p (N.of_nat k)); [|apply N.bits_0]. rewrite andb_true_l. unfold row.
    destruct (Nat.leb_spec b (c + k)).
    - rewrite N.shiftl_spec_high' by lia. rewrite andb_true_l. f_equal. lia.
    - rewrite N.shiftl_spec_low by lia. reflexivity. }
  set (S := xsum _). rewrite (xorb_comm (N.testbit _ _)), <- xorb_assoc, xorb_nilpotent, xorb_false_l.
  destruct (Nat.leb_spec d b).
  - unfold row. rewrite (proj2 (Nat.leb_le _ _)) by lia. rewrite andb_true_l. f_equal. lia.
  - apply (proj1 (lt_pow2_bits _ _) (Hb c)). lia.
Qed.

Lemma row_killed p M : p <> 0 -> (0 < deg p < 64)%nat ->
  (forall j, (deg p <= j)%nat -> M j = step_of p (deg p) M j) -> (forall j, M j < 2 ^ N.of_nat (j + 1)) ->
  forall e b, (b < deg p * e)%nat -> null (oppow p e (row M b)).
Proof.
  intros Hp Hd Hs Hb e. induction e as [|e IH]; intros b Hlt; [lia|]. cbn [oppow].
  destruct (Nat.leb_spec (deg p) b) as [Hle|Hgt].
  - intros c. transitivity (oppow p e (row M (b - deg p)) c); [|apply IH; nia].
    apply oppow_peq. intros c'. rewrite row_op by auto. now rewrite (proj2 (Nat.leb_le _ _)) by lia.
  - apply oppow_null. intros c. rewrite row_op by auto. now rewrite (proj2 (Nat.leb_gt _ _)) by lia.
Qed.

(** combinations of rows *)
Definition comb (M : nat -> N) (s : nat) (cs : list bool) (c : nat) : bool :=
  dot cs (map (fun b => row M b c) (seq s (length cs))).

Lemma comb_killed p M e s cs : (forall b, (b < s + length cs)%nat -> null (oppow p e (row M b))) -> null (oppow p e (comb M s cs)).
Proof.
  revert s. induction cs as [|a cs IH]; intros s H; [apply oppow_null; intros c; reflexivity|].
  intros c. transitivity (oppow p e (fun c => xorb (a && row M s c) (comb M (S s) cs c)) c); [reflexivity|].
  rewrite oppow_add. rewrite IH by (intros b Hb; apply H; cbn; lia). rewrite xorb_false_r.
  destruct a; [apply (H s); cbn; lia|]. apply oppow_null. intros c'. reflexivity.
Qed.

Lemma comb_null M s cs : (forall b, (b < s + length cs)%nat -> N.odd (M b) = true) -> null (comb M s cs) ->
  forall a, In a cs -> a = false.
Proof.
  revert s. induction cs as [|a cs IH]; intros s Ho Hn x Hx; [destruct Hx|].
  assert (forall c, comb M s (a :: cs) c = xorb (a && row M s c) (comb M (S s) cs c)) as E by reflexivity.
  assert (a = false) as ->.
  { specialize (Hn s). rewrite E in Hn.
    assert (row M s s = true) as Hr.
    { unfold row. rewrite Nat.leb_refl, Nat.sub_diag. change (N.of_nat 0) with 0. rewrite N.bit0_odd. rewrite Ho by (cbn; lia). reflexivity. }
    assert (comb M (S s) cs s = false) as Hc.
    { unfold comb. clear -s. assert (forall s', (s < s')%nat -> dot cs (map (fun b => row M b s) (seq s' (length cs))) = false) as H; [|apply H; lia].
      induction cs as [|a cs IH]; intros s' Hs; auto. cbn [length seq map dot]. rewrite IH by lia. unfold row.
      rewrite (proj2 (Nat.leb_gt s' s)) by lia. now rewrite andb_false_l, andb_false_r. }
    rewrite Hr, Hc in Hn. now destruct a. }
  destruct Hx as [<-|Hx]; auto. apply (IH (S s)); auto; [intros b Hb; apply Ho; cbn; lia|].
  intros c. specialize (Hn c). rewrite E in Hn. now rewrite andb_false_l, xorb_false_l in Hn.
Qed.

(** * the conditions a box puts on a point *)
Definition phi (m : list N) (b : nat) (r : N) : bool := N.testbit (coord m r) (N.of_nat (31 - b)).
Definition conds (cols : list (list N)) (bx : box) : list (N -> bool) :=
  flat_map (fun '(i, k, _) => map (phi (nth i cols [])) (seq 0 (N.to_nat k))) bx.
Definition targets (bx : box) : list bool :=
  flat_map (fun '(_, k, v) => map (fun b => N.testbit v (k - 1 - N.of_nat b)) (seq 0 (N.to_nat k))) bx.

Lemma phi_additive m b : additive (phi m b).
Proof. intros x y. unfold phi. now rewrite coord_lxor, N.lxor_spec. Qed.
Lemma conds_additive cols bx : Forall additive (conds cols bx).
Proof.
  apply Forall_forall. intros f Hf. unfold conds in Hf. apply in_flat_map in Hf. destruct Hf as ([[i k] v] & _ & Hf).
  apply in_map_iff in Hf. destruct Hf as (b & <- & _). apply phi_additive.
Qed.
Lemma conds_length cols bx : length (conds cols bx) = N.to_nat (bits bx).
Proof.
  induction bx as [|[[i k] v] bx IH]; auto. unfold conds in *. cbn [flat_map bits fold_right]. fold (bits bx).
  rewrite app_length, IH, map_length, seq_length. lia.
Qed.
Lemma targets_length bx : length (targets bx) = N.to_nat (bits bx).
Proof.
  induction bx as [|[[i k] v] bx IH]; auto. unfold targets in *. cbn [flat_map bits fold_right]. fold (bits bx).
  rewrite app_length, IH, map_length, seq_length. lia.
Qed.

Lemma phi_pow m b c r : (b < 32)%nat -> (c < 32)%nat -> gray r = 2 ^ N.of_nat c -> phi m b r = row (m_at m) b c.
Proof.
  intros Hb Hc Hg. unfold phi, row. rewrite coord_lin, Hg, lin_pow2 by auto.
  destruct (Nat.leb_spec b c).
  - rewrite N.shiftl_spec_high' by lia. rewrite andb_true_l. f_equal. lia.
  - rewrite N.shiftl_spec_low by lia. reflexivity.
Qed.

Lemma dot_app cs u w : dot cs (u ++ w) = xorb (dot (firstn (length u) cs) u) (dot (skipn (length u) cs) w).
Proof.
  revert cs. induction u as [|a u IH]; intros cs; [cbn [length firstn skipn app dot]; now rewrite xorb_false_l|].
  destruct cs as [|c cs]; [reflexivity|]. cbn [app dot length firstn skipn]. rewrite IH. now rewrite xorb_assoc.
Qed.

Definition exponent (i : nat) (k : N) : nat := N.to_nat ((k + degree i - 1) / degree i).
Fixpoint terms (cols : list (list N)) (bx : box) (cs : list bool) : list term :=
  match bx with
  | [] => []
  | (i, k, _) :: bx' =>
      (poly i, exponent i k, comb (mext i (nth i cols [])) 0 (firstn (N.to_nat k) cs)) :: terms cols bx' (skipn (N.to_nat k) cs)
  end.

Lemma ceil_ge k d : 0 < d -> k <= d * ((k + d - 1) / d).
Proof. intros Hd. pose proof (N.div_mod (k + d - 1) d ltac:(lia)). pose proof (N.mod_lt (k + d - 1) d ltac:(lia)). lia. Qed.
Lemma ceil_le k d : 0 < d -> d * ((k + d - 1) / d) <= k + (d - 1).
Proof. intros Hd. pose proof (N.mul_div_le (k + d - 1) d ltac:(lia)). lia. Qed.

Section Net.
Variable dim : N.
Variable cols : list (list N).
Hypothesis Hdim : 1 <= dim <= 1111.
Hypothesis Htab : is_table (N.to_nat dim) cols.
Hypothesis Hval : Forall valid_directions cols.

Let col i := nth i cols [].
Lemma col_dir i : (i < N.to_nat dim)%nat -> is_directions i (col i). Proof. apply Htab. Qed.
Lemma col_val i : (i < N.to_nat dim)%nat -> valid_directions (col i).
Proof. intros Hi. apply nth_valid; auto. destruct Htab as [-> _]. exact Hi. Qed.

Definition good (bx : box) : Prop := forall i k v, In (i, k, v) bx -> (i < N.to_nat dim)%nat /\ k <= 32 /\ v < 2 ^ k.

Lemma sumseq_terms bx cs c r : good bx -> length cs = N.to_nat (bits bx) -> (c < 32)%nat -> gray r = 2 ^ N.of_nat c ->
  sumseq (terms cols bx cs) c = dot cs (vals (conds cols bx) r).
Proof.
  intros Hg Hl Hc Hr. revert cs Hl. induction bx as [|[[i k] v] bx IH]; intros cs Hl; [now destruct cs|].
  unfold vals, conds in *. cbn [flat_map terms]. rewrite map_app, dot_app, !map_length, seq_length.
  unfold sumseq in *. cbn [map]. rewrite xsum_cons. cbn [bits fold_right] in Hl. fold (bits bx) in Hl.
  destruct (Hg i k v (or_introl eq_refl)) as (Hi & Hk & _).
  rewrite IH; [|intros a b w Hin; apply (Hg a b w); now right|rewrite skipn_length; lia]. f_equal.
  unfold tseq. cbn [snd]. unfold comb. rewrite firstn_length, Nat.min_l by lia. f_equal.
  rewrite map_map. apply map_ext_in. intros b Hb. apply in_seq in Hb.
  rewrite (phi_pow _ b c r) by (auto; lia). unfold row. fold (col i). rewrite (mext_low i (col i) c) by (auto using col_dir; lia). reflexivity.
Qed.

Lemma terms_in bx cs t : good bx -> length cs = N.to_nat (bits bx) -> In t (terms cols bx cs) ->
  exists i k cs', (i < N.to_nat dim)%nat /\ k <= 32 /\ length cs' = N.to_nat k /\ t = (poly i, exponent i k, comb (mext i (col i)) 0 cs') /\
    In i (map (fun '(i, _, _) => i) bx).
Proof.
  revert cs. induction bx as [|[[i k] v] bx IH]; intros cs Hg Hl; [easy|]. cbn [bits fold_right] in Hl. fold (bits bx) in Hl.
  destruct (Hg i k v (or_introl eq_refl)) as (Hi & Hk & _). intros [<-|Hin].
  - exists i, k, (firstn (N.to_nat k) cs). repeat split; auto; [rewrite firstn_length; lia|]. now left.
  - destruct (IH (skipn (N.to_nat k) cs)) as (i' & k' & cs' & H); auto.
    + intros a b w Ha. apply (Hg a b w). now right.
    + rewrite skipn_length. lia.
    + exists i', k', cs'. repeat split; try apply H. right. apply H.
Qed.

Lemma term_killed i k cs : (i < N.to_nat dim)%nat -> length cs = N.to_nat k ->
  null (oppow (poly i) (exponent i k) (comb (mext i (col i)) 0 cs)).
Proof.
  intros Hi Hl. assert (i < 1111)%nat as Hi' by lia. pose proof (degree_bounds i Hi') as Hd. apply comb_killed. intros b Hb.
  apply row_killed.
  - now apply poly_nz.
  - rewrite deg_degree. lia.
  - intros j Hj. apply mext_step; auto using col_dir.
  - intros j. apply mext_lt; auto using col_dir, col_val.
  - pose proof (ceil_ge k (degree i) ltac:(lia)). rewrite deg_degree. unfold exponent. rewrite <- N2Nat.inj_mul. lia.
Qed.

Lemma terms_total bx cs : total (map fst (terms cols bx cs)) = N.to_nat (span bx).
Proof.
  revert cs. induction bx as [|[[i k] v] bx IH]; intros cs; auto. cbn [terms map fst]. cbn [total fold_right span].
  change (fold_right _ 0%nat (map fst (terms cols bx (skipn (N.to_nat k) cs)))) with (total (map fst (terms cols bx (skipn (N.to_nat k) cs)))).
  rewrite IH. fold (span bx). rewrite deg_degree. unfold exponent. lia.
Qed.

Lemma terms_polys bx cs : map tpoly (terms cols bx cs) = map poly (map (fun '(i, _, _) => i) bx).
Proof. revert cs. induction bx as [|[[i k] v] bx IH]; intros cs; auto. cbn [terms map]. now rewrite IH. Qed.

Lemma conds_independent m bx : NoDup (map (fun '(i, _, _) => i) bx) -> good bx -> span bx <= m -> m <= 32 ->
  independent m (conds cols bx).
Proof.
  intros Hnd Hg Hs Hm cs Hl Hz. rewrite conds_length in Hl.
  assert (forall t, In t (terms cols bx cs) -> null (oppow (tpoly t) (snd (fst t)) (tseq t))) as Hk.
  { intros t Ht. destruct (terms_in _ _ _ Hg Hl Ht) as (i & k & cs' & Hi & _ & Hl' & -> & _). now apply term_killed. }
  assert (null (sumseq (terms cols bx cs))) as Hnull.
  { apply (opl_ker_null (map fst (terms cols bx cs))).
    - apply Forall_forall. intros pe Hin. apply in_map_iff in Hin. destruct Hin as (t & <- & Ht).
      destruct (terms_in _ _ _ Hg Hl Ht) as (i & k & cs' & Hi & _ & _ & -> & _). cbn [fst].
      assert (i < 1111)%nat as Hi' by lia. pose proof (degree_bounds i Hi'). split; [now apply poly_nz|]. rewrite deg_degree. lia.
    - apply opl_sumseq; auto. intros t Ht. now apply in_map.
    - rewrite terms_total. intros c Hc. rewrite (sumseq_terms bx cs c (2 ^ (N.of_nat c + 1) - 1)) by (auto using gray_ones; lia).
      apply Hz. pose proof (pow2_le (N.of_nat c + 1) m ltac:(lia)). pose proof (N.pow_nonzero 2 (N.of_nat c + 1) ltac:(lia)). lia. }
  pose proof (terms_null (terms cols bx cs)) as Hall.
  assert (forall t, In t (terms cols bx cs) -> null (tseq t)) as Hn.
  { apply Hall; auto.
    - rewrite terms_polys. apply NoDup_map_inj; auto. intros a b Ha Hb. apply in_map_iff in Ha. apply in_map_iff in Hb.
      destruct Ha as ([[a' ka] va] & <- & Ha), Hb as ([[b' kb] vb] & <- & Hb). apply Hg in Ha. apply Hg in Hb. apply poly_inj; lia.
    - intros t t' Ht Ht'. destruct (terms_in _ _ _ Hg Hl Ht) as (i & k & c1 & Hi & _ & _ & -> & _).
      destruct (terms_in _ _ _ Hg Hl Ht') as (i' & k' & c2 & Hi' & _ & _ & -> & _). apply poly_coprime; lia. }
  clear -Hn Hl Hg Hdim Htab Hval col. revert cs Hl Hn. induction bx as [|[[i k] v] bx IH]; intros cs Hl Hn a Ha.
  - destruct cs; [destruct Ha|discriminate].
  - cbn [bits fold_right] in Hl. fold (bits bx) in Hl. destruct (Hg i k v (or_introl eq_refl)) as (Hi & Hk & _).
    rewrite <- (firstn_skipn (N.to_nat k) cs) in Ha. apply in_app_or in Ha. destruct Ha as [Ha|Ha].
    + refine (comb_null (mext i (col i)) 0 (firstn (N.to_nat k) cs) _ (Hn _ (or_introl eq_refl)) a Ha).
      intros b Hb. rewrite firstn_length in Hb. rewrite mext_low by (auto using col_dir; lia).
      destruct (col_val i Hi) as [_ Hv]. apply Hv. lia.
    + apply (IH ltac:(intros x y z Hin; apply (Hg x y z); now right) (skipn (N.to_nat k) cs)); auto.
      * rewrite skipn_length. lia.
      * intros t Ht. apply Hn. now right.
Qed.

(** meeting the conditions is lying in the box *)
Lemma interval_shift k v x : v * 2 ^ (32 - k) <= x < (v + 1) * 2 ^ (32 - k) <-> N.shiftr x (32 - k) = v.
Proof.
  pose proof (N.pow_nonzero 2 (32 - k) ltac:(lia)) as Hz. rewrite N.shiftr_div_pow2.
  generalize dependent (2 ^ (32 - k)). intros w Hz. rewrite N.mul_add_distr_r, N.mul_1_l. split.
  - intros [H1 H2]. symmetry. apply N.div_unique with (r := x - v * w); [lia|]. rewrite (N.mul_comm w). lia.
  - intros E. pose proof (N.div_mod x _ Hz) as H1. pose proof (N.mod_lt x _ Hz) as H2. rewrite E in H1.
    rewrite (N.mul_comm v). generalize dependent (x mod w). intros r H1 H2. lia.
Qed.

Lemma bits_shift m k v n : valid_directions m -> k <= 32 -> v < 2 ^ k ->
  (map (fun b => phi m b n) (seq 0 (N.to_nat k)) = map (fun b => N.testbit v (k - 1 - N.of_nat b)) (seq 0 (N.to_nat k)) <->
   N.shiftr (coord m n) (32 - k) = v).
Proof.
  intros Hm Hk Hv. split.
  - intros E. apply N.bits_inj. intros j. rewrite N.shiftr_spec by lia.
    destruct (N.lt_ge_cases j k) as [Hj|Hj].
    + assert (In (N.to_nat (k - 1 - j)) (seq 0 (N.to_nat k))) as Hin by (apply in_seq; lia).
      pose proof (ext_in_map E _ Hin) as H. cbv beta in H. unfold phi in H.
      replace (N.of_nat (31 - N.to_nat (k - 1 - j))) with (j + (32 - k)) in H by lia.
      replace (k - 1 - N.of_nat (N.to_nat (k - 1 - j))) with j in H by lia. exact H.
    + rewrite (proj1 (lt_pow2_bits _ _) Hv j Hj). apply (proj1 (lt_pow2_bits _ _) (coord_lt m n Hm)). lia.
  - intros <-. apply map_ext_in. intros b Hb. apply in_seq in Hb. unfold phi. rewrite N.shiftr_spec by lia. f_equal. lia.
Qed.

Lemma conds_box bx n : good bx -> (vals (conds cols bx) n = targets bx <-> in_box (point_of cols n) bx).
Proof.
  intros Hg. destruct Htab as [Hlen _]. induction bx as [|[[i k] v] bx IH].
  - split; [intros _ i k v []|reflexivity].
  - destruct (Hg i k v (or_introl eq_refl)) as (Hi & Hk & Hv).
    assert (good bx) as Hg' by (intros x y z Hin; apply (Hg x y z); now right). specialize (IH Hg').
    pose proof (bits_shift (col i) k v n (col_val i Hi) Hk Hv) as B.
    assert (v * 2 ^ (32 - k) <= nth i (point_of cols n) 0 < (v + 1) * 2 ^ (32 - k) <-> N.shiftr (coord (col i) n) (32 - k) = v) as I.
    { rewrite nth_point_of by lia. apply interval_shift. }
    unfold vals, conds, targets in *. cbn [flat_map]. rewrite map_app, map_map. split.
    + intros E.
      assert (forall (A : Type) (a a' b b' : list A), length a = length a' -> a ++ b = a' ++ b' -> a = a' /\ b = b') as Happ.
      { clear. intros A a. induction a as [|x a IH]; intros [|x' a'] b b' Hl E; try discriminate; auto.
        injection Hl as Hl. injection E as -> E. destruct (IH a' b b' Hl E) as [-> ->]. auto. }
      apply Happ in E; [|now rewrite !map_length]. destruct E as [E1 E2]. apply B in E1. apply IH in E2.
      intros i' k' v' [[= <- <- <-]|Hin]; [now apply I|now apply E2].
    + intros H. f_equal.
      * apply B, I, H. now left.
      * apply IH. intros i' k' v' Hin. apply H. now right.
Qed.

Lemma block_n m t r : r < 2 ^ m -> t * 2 ^ m + r = N.lxor (t * 2 ^ m) r.
Proof.
  intros Hr. apply N.add_nocarry_lxor. apply N.bits_inj. intros j. rewrite N.land_spec, N.bits_0.
  destruct (N.lt_ge_cases j m) as [Hj|Hj].
  - rewrite N.mul_pow2_bits_low by auto. reflexivity.
  - rewrite (proj1 (lt_pow2_bits r m) Hr j Hj). apply andb_false_r.
Qed.

Lemma vxor_involutive u v : length u = length v -> vxor u (vxor u v) = v.
Proof.
  revert v. induction u as [|a u IH]; intros [|b v] H; try discriminate; auto. injection H as H. cbn [vxor]. rewrite IH by auto.
  f_equal. now destruct a, b.
Qed.

Lemma net_count m t bx : NoDup (map (fun '(i, _, _) => i) bx) -> good bx -> independent m (conds cols bx) -> m <= 32 ->
  (t + 1) * 2 ^ m <= 2 ^ 32 -> block_count dim m t bx (2 ^ (m - bits bx)) /\ bits bx <= m.
Proof.
  intros Hnd Hg Hind Hm Ht.
  set (fs := conds cols bx) in *. set (T := t * 2 ^ m). set (tg := vxor (vals fs T) (targets bx)).
  assert (length (vals fs T) = length (targets bx)) as HlT by (rewrite vals_length; unfold fs; now rewrite conds_length, targets_length).
  assert (length tg = length fs) as Htg by (unfold tg; rewrite vxor_length by auto; apply vals_length).
  pose proof (conds_additive cols bx) as Hadd. fold fs in Hadd.
  pose proof (fibre_count m fs Hadd Hind tg Htg) as Hcount. unfold fs in Hcount at 2. rewrite conds_length, N2Nat.id in Hcount.
  assert ((t + 1) * 2 ^ m = T + 2 ^ m) as Hd1 by (unfold T; now rewrite N.mul_add_distr_r, N.mul_1_l).
  assert (bits bx <= m) as Hbm.
  { destruct (N.le_gt_cases (bits bx) m) as [|Hgt]; auto. exfalso.
    pose proof (N.pow_lt_mono_r 2 m (bits bx) ltac:(lia) Hgt) as Hlt. pose proof (N.pow_nonzero 2 m ltac:(lia)).
    destruct (N.of_nat (length (fibre m fs tg))); nia. }
  split; auto.
  exists (map (fun r => T + r) (fibre m fs tg)). split; [|split].
  - apply NoDup_map_inj; [apply NoDup_fibre|]. intros; lia.
  - rewrite map_length. replace (2 ^ m) with (2 ^ (m - bits bx) * 2 ^ bits bx) in Hcount
      by (rewrite <- N.pow_add_r; f_equal; lia).
    apply N.mul_cancel_r in Hcount; auto. apply N.pow_nonzero. lia.
  - assert (forall n, n < 2 ^ 32 -> nth_draw dim n = Ok (point_of cols n)) as Hdraw.
    { intros n Hn. destruct (nth_draw_ok dim n Hdim) as (cols' & E & Ht' & _); [unfold limit; lia|].
      rewrite E. f_equal. f_equal. apply (table_unique (N.to_nat dim)); auto; lia. }
    assert (forall r, r < 2 ^ m -> (vals fs r = tg <-> in_box (point_of cols (T + r)) bx)) as Hr.
    { intros r Hr. rewrite <- conds_box by auto. fold fs. unfold T. rewrite block_n by auto. fold T. rewrite vals_lxor by auto.
      unfold tg. split.
      - intros ->. apply vxor_involutive. exact HlT.
      - intros <-. rewrite vxor_involutive; auto. now rewrite !vals_length. }
    intros n. rewrite in_map_iff, Hd1. split.
    + intros (r & <- & Hin). apply in_fibre in Hin. destruct Hin as [H1 H2]. split; [fold T; lia|].
      exists (point_of cols (T + r)). split; [apply Hdraw; lia|]. now apply Hr.
    + fold T. intros [Hn (p & Ep & Hp)]. rewrite Hdraw in Ep by lia. injection Ep as <-. exists (n - T). split; [lia|].
      apply in_fibre. split; [lia|]. apply Hr; [lia|]. replace (T + (n - T)) with n by lia. exact Hp.
Qed.
End Net.

Lemma net_claim dim m t b : 1 <= dim <= 1111 -> is_box dim b -> span b <= m -> m <= 32 -> (t + 1) * 2 ^ m <= 2 ^ 32 ->
  block_count dim m t b (2 ^ (m - bits b)).
Proof.
  intros Hd [Hnd Hg] Hs Hm Ht. destruct (init_m_ok dim Hd) as (cols & _ & Htab & Hval).
  apply (net_count dim cols); auto. now apply (conds_independent dim cols).
Qed.

Lemma span_quality dim b : 1 <= dim <= 1111 -> is_box dim b -> span b <= bits b + quality (map (fun '(i, _, _) => i) b).
Proof.
  intros Hd [_ Hg]. induction b as [|[[i k] v] b IH]; [cbn; lia|]. cbn [span bits quality map fold_right].
  fold (span b). fold (bits b). fold (quality (map (fun '(i, _, _) => i) b)).
  destruct (Hg i k v (or_introl eq_refl)) as (Hi & _ & _). pose proof (degree_bounds i ltac:(lia)).
  pose proof (ceil_le k (degree i) ltac:(lia)).
  assert (span b <= bits b + quality (map (fun '(i, _, _) => i) b)) by (apply IH; intros x y z Hin; apply (Hg x y z); now right). lia.
Qed.

Lemma quality_claim dim m t b : 1 <= dim <= 1111 -> is_box dim b -> bits b + quality (map (fun '(i, _, _) => i) b) <= m -> m <= 32 ->
  (t + 1) * 2 ^ m <= 2 ^ 32 -> block_count dim m t b (2 ^ (m - bits b)).
Proof.
  intros Hd Hb Hq Hm Ht. apply net_claim; auto. pose proof (span_quality dim b Hd Hb). lia.
Qed.
