(** Property C61: which individuals qis samples.

    [py_qis L fuel ilist mlist skips] is the Python function; the relations [selects], [fills], [individual] and
    [sampled] are in QuantSpec.v and do not mention the model. *)
From Verif Require Import Base Spec NDArray Float64 Bind SobolSpec Sobol SobolClaims Micro Stat Qis SynthSpec QisExamples QuantSpec QuantProofs.
Open Scope Z_scope.

(** C61: for populations up to 2^21, the result counts the individuals selected one after the other by consecutive
    Sobol points: each coordinate picks the value of its dimension from the distribution of what the earlier
    individuals left of the marginal, given the values already picked.  If qis converges nothing left is negative. *)
Theorem C61_individuals : forall L fuel ilist mlist skips res, in_range ilist mlist ->
  (forall c, In c (cons_of ilist mlist) -> NoDup (c_dims c)) ->
  py_qis L fuel ilist mlist skips = Ok res -> qr_pop res <= 2 ^ 21 ->
  let cs := cons_of ilist mlist in let sizes := shape (qr_pop_array res) in
  exists points people, Z.of_nat (length people) = qr_pop res /\
    (forall t, (t < length people)%nat ->
       nth_draw (N.of_nat (length sizes)) (skipped (Z.to_N (u32 skips)) + N.of_nat t + 1) = Ok (points t)) /\
    sampled cs sizes points people /\
    (forall i, index_in sizes i -> entry 0 (qr_pop_array res) i = occurrences i people) /\
    (qr_conv res = true -> forall t c k, In c cs -> index_in (c_sizes c) k -> 0 <= left_of (firstn t people) c k).
Proof. exact people_claim. Qed.
Print Assumptions C61_individuals.
Example C61_ex : in_range exB_i exB_m /\ (forall c, In c (cons_of exB_i exB_m) -> NoDup (c_dims c)) /\
  (exists r, py_qis L0 40 exB_i exB_m 0 = Ok r /\ qr_pop r = 10) /\
  (* the first individual: point 2 is (3/4, 1/4, 3/4).  Dimension 1 is first: its weights are 4 and 6 of 10, and 1/4
     selects 0; of the weights 1 and 3 dimension 0 then has, 3/4 selects 1; of 2 and 2 for dimension 2, 3/4 selects 1. *)
  nth_draw 3 2 = Ok [3221225472; 1073741824; 3221225472]%N /\
  individual [2; 2; 2] (left_of []) [3221225472; 1073741824; 3221225472]%N (cons_of exB_i exB_m) [-1; -1; -1] [1; 0; 1].
Proof.
  split; [exact exB_range|]. split.
  { intros c [<-|[<-|[]]]; vm_compute; repeat constructor; simpl; lia. }
  split.
  { assert (match py_qis L0 40 exB_i exB_m 0 with Ok r => qr_pop r =? 10 | _ => false end = true) as H by (vm_compute; reflexivity).
    destruct (py_qis L0 40 exB_i exB_m 0) as [r| | |]; try discriminate. exists r. split; auto. now apply Z.eqb_eq. }
  split; [vm_compute; reflexivity|].
  assert (forall w n u k, (0 <=? k) && (k <? n) && (Z.of_N u * sumZ (map w (zrange n)) <? 2 ^ 32 * sumZ (map w (zrange (k + 1)))) &&
    forallb (fun j => 2 ^ 32 * sumZ (map w (zrange (j + 1))) <=? Z.of_N u * sumZ (map w (zrange n))) (zrange k) = true -> selects w n u k) as B.
  { intros w n u k H. rewrite !andb_true_iff, Z.leb_le, !Z.ltb_lt, forallb_forall in H. destruct H as [[[H1 H2] H3] H4].
    split; auto. split; auto. intros j Hj. apply Z.leb_le. apply H4. unfold zrange. apply in_map_iff. exists (Z.to_nat j).
    split; [lia|]. apply in_seq. lia. }
  eapply ind_cons with (main' := [1; 0; -1]).
  - change (missing _ _) with [1; 0]. eapply fills_cons with (k := 0); [apply B; vm_compute; reflexivity|].
    eapply fills_cons with (k := 1); [apply B; vm_compute; reflexivity|]. apply fills_nil.
  - eapply ind_cons with (main' := [1; 0; 1]); [|apply ind_nil].
    change (missing _ _) with [2]. eapply fills_cons with (k := 1); [apply B; vm_compute; reflexivity|]. apply fills_nil.
Qed.

(** the relation leaves no choice: the points determine the individuals *)
Theorem C61_determined : forall cs sizes points people people',
  sampled cs sizes points people -> sampled cs sizes points people' -> length people = length people' -> people = people'.
Proof. exact sampled_unique. Qed.
Print Assumptions C61_determined.

(** with non-negative weights, a value is selected exactly when u / 2^32 lies in its share of the total *)
Theorem C61_quantile : forall w n u, (forall v, 0 <= v < n -> 0 <= w v) -> 0 < sumZ (map w (zrange n)) -> (u < 2 ^ 32)%N ->
  (exists k, selects w n u k) /\
  (forall k, selects w n u k <->
     0 <= k < n /\ 2 ^ 32 * sumZ (map w (zrange k)) <= Z.of_N u * sumZ (map w (zrange n)) < 2 ^ 32 * sumZ (map w (zrange (k + 1)))).
Proof. exact quantile_claim. Qed.
Print Assumptions C61_quantile.

(** the bound matters: with a total just above 2^21 the product of fraction and total is rounded, and the value
    selected is not the quantile *)
Theorem C61_large_refuted : exists w n u k k', (forall v, 0 <= v < n -> 0 <= w v) /\
  2 ^ 21 < sumZ (map w (zrange n)) < 2 ^ 21 + 1000 /\ (u < 2 ^ 32)%N /\
  pick (map w (zrange n)) (unit_of u) = Ok k /\ selects w n u k' /\ k <> k'.
Proof. exact rounding_claim. Qed.
Print Assumptions C61_large_refuted.
