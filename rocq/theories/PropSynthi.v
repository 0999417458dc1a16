(** Property C66: which individuals qisi samples.

    [py_qisi L fuel seed ilist mlist skips] is the Python function; the relations [selectsD], [selected], [refit] and
    [synthesised] are in SynthiSpec.v and do not mention the model. *)
From Verif Require Import Base Spec NDArray Float64 Bind SobolSpec Sobol SobolClaims Micro Stat Qis SynthSpec QisExamples IpfExamples Qisi QisiClaims
  QisiExamples QuantSpec SynthiSpec Synthi.
Open Scope Z_scope.

(** C66: the expectation returned is the seed fitted to the marginals.  The result counts the individuals selected one
    after the other by the Sobol points 1, 2, ...: the coordinates select, from the last dimension to the first, by the
    marginal weights of the current table; the table starts as the expectation, is lowered by one at each state selected,
    and is fitted again to what is left of the marginals when that makes it negative.  (The skips play no part: C11.) *)
Theorem C66_individuals : forall L fuel seed ilist mlist skips res, qisi_range ilist mlist seed -> qisi_good fuel ilist mlist seed ->
  py_qisi L fuel seed ilist mlist skips = Ok res ->
  let cs := cons_of ilist mlist in let sizes := shape seed in let s := entry d_zero seed in
  exists points people g, Z.of_nat (length people) = qr_pop res /\
    (forall t, (t < length people)%nat -> nth_draw (N.of_nat (length sizes)) (N.of_nat t + 1) = Ok (points t)) /\
    refit cs sizes s (left_of []) (entry d_zero (qr_expectation res)) /\ synthesised cs sizes s points people g /\
    (forall i, index_in sizes i -> entry 0 (qr_pop_array res) i = occurrences i people).
Proof. exact synthi_claim. Qed.
Print Assumptions C66_individuals.
Example C66_ex : qisi_range exJ_i exJ_m exJ_s /\ qisi_good 40 exJ_i exJ_m exJ_s /\
  (exists r, py_qisi L0 40 exJ_s exJ_i exJ_m 0 = Ok r /\ qr_pop r = 9) /\
  (* point 2 is (3/4, 1/4): from the table 3 2 / 2 2 its second coordinate selects 0, as the columns have 5 and 4 of 9, and
     the first coordinate then selects 1, as the cells of that column have 3 and 2 of 5 *)
  nth_draw 2 2 = Ok [3221225472; 1073741824]%N /\
  selected [2; 2] (entry d_zero (NDA [2; 2] (dz [3; 2; 2; 2]))) [3221225472; 1073741824]%N [1; 0].
Proof.
  split; [exact exJ_range|]. split; [exact exJ_good|]. split.
  { assert (match py_qisi L0 40 exJ_s exJ_i exJ_m 0 with Ok r => qr_pop r =? 9 | _ => false end = true) as H by (vm_compute; reflexivity).
    destruct (py_qisi L0 40 exJ_s exJ_i exJ_m 0) as [r| | |]; try discriminate. exists r. split; auto. now apply Z.eqb_eq. }
  split; [vm_compute; reflexivity|].
  assert (forall w n u k, (0 <=? k) && (k <? n) &&
    (let cum j := fold_left d_add (map w (zrange j)) d_zero in
     let x := d_mul (d_mul (d_ofZ (Z.of_N u)) (d_lit 1 (-32))) (cum n) in
     d_ltb x (cum (k + 1)) && forallb (fun j => negb (d_ltb x (cum (j + 1)))) (zrange k)) = true -> selectsD w n u k) as B.
  { intros w n u k H. cbv zeta in H. rewrite !andb_true_iff, Z.leb_le, Z.ltb_lt, forallb_forall in H. destruct H as [[H1 H2] [H3 H4]].
    split; auto. split; auto. intros j Hj. apply negb_true_iff. apply H4. unfold zrange. apply in_map_iff. exists (Z.to_nat j).
    split; [lia|]. apply in_seq. lia. }
  split; [reflexivity|]. intros k Hk. destruct k as [|[|k]]; [| |simpl in Hk; lia]; apply B; vm_compute; reflexivity.
Qed.

(** the relation leaves no choice: the points determine the individuals and the table *)
Theorem C66_determined : forall cs sizes seed points people g, synthesised cs sizes seed points people g ->
  forall people' g', synthesised cs sizes seed points people' g' -> length people = length people' ->
  people = people' /\ forall i, index_in sizes i -> g i = g' i.
Proof. exact synthesised_unique. Qed.
Print Assumptions C66_determined.
