(** Structural zeros of qisi and of integerise: C62.

    [d_eqb x d_zero] holds for both zeros; [d_ltb x d_zero = false] admits NaN.  [qisi_good] only excludes index lists
    that repeat a dimension or name all of them (C14), and asks for enough steps. *)
From Verif Require Import Base Spec NDArray Float64 Bind Micro Stat Qis Qisi SynthSpec QisClaims QisExamples IpfSpec IpfExamples QisiClaims QisiExamples
  QisiZeros Integerise IntegeriseSpec IntegeriseNd IntegeriseExamples IntegeriseZeros.
Open Scope Z_scope.

(** C62: whatever the marginals, and whether the fit converges or not, qisi puts nobody in a state that is zero in the
    seed or whose cell of some marginal is zero *)
Theorem C62_qisi : forall L fuel seed ilist mlist skips res, qisi_range ilist mlist seed -> qisi_good fuel ilist mlist seed ->
  (forall i, index_in (shape seed) i -> d_ltb (entry d_zero seed i) d_zero = false) ->
  py_qisi L fuel seed ilist mlist skips = Ok res ->
  forall i, index_in (shape seed) i ->
  (d_eqb (entry d_zero seed i) d_zero = true \/ exists c, In c (cons_of ilist mlist) /\ c_at c (proj (c_dims c) i) = 0) ->
  entry 0 (qr_pop_array res) i = 0.
Proof. exact qisi_zero_claim. Qed.
Print Assumptions C62_qisi.

(** a zero of the seed, and a zero of a marginal; C10_ex has one that does not converge *)
Definition ex_zs : ndarray double := NDA [2; 2] (dz [0; 2; 3; 1]).
Definition ex_zm : list (ndarray Z) := [NDA [2] [3; 6]; NDA [2] [4; 5]].
Definition ex_z0 : list (ndarray Z) := [NDA [2] [0; 9]; NDA [2] [4; 5]].
Example C62_seed_ex : qisi_range exJ_i ex_zm ex_zs /\ qisi_good 40 exJ_i ex_zm ex_zs /\
  forallb (fun x => negb (d_ltb x d_zero)) (flat ex_zs) = true /\ cells (py_qisi L0 40 ex_zs exJ_i ex_zm 0) = Some (true, [0; 3; 4; 2]).
Proof.
  split; [apply qisi_range_by; [apply (in_range_by _ _ [2; 2])| |]; vm_compute; reflexivity|]. split; [apply qisi_good_by; vm_compute; reflexivity|].
  split; vm_compute; reflexivity.
Qed.
Example C62_marginal_ex : qisi_range exJ_i ex_z0 exJ_s /\ qisi_good 40 exJ_i ex_z0 exJ_s /\
  cells (py_qisi L0 40 exJ_s exJ_i ex_z0 0) = Some (true, [0; 0; 4; 5]).
Proof.
  split; [apply qisi_range_by; [apply (in_range_by _ _ [2; 2])| |]; vm_compute; reflexivity|]. split; [apply qisi_good_by; vm_compute; reflexivity|].
  vm_compute. reflexivity.
Qed.

(** C62: integerise keeps the zeros of an array with two or more dimensions *)
Theorem C62_integerise : forall L fuel a res conv rmse, nd_range a -> prodZ (shape a) < Z.of_nat fuel ->
  py_integerise L fuel a = Ok (res, conv, rmse) ->
  forall i, index_in (shape a) i -> d_eqb (entry d_zero a i) d_zero = true -> entry 0 res i = 0.
Proof. exact nd_zero_claim. Qed.
Print Assumptions C62_integerise.
Definition ex_zi : ndarray double := NDA [2; 3] (map (fun k => d_div (d_ofZ k) (d_ofZ 10)) [0; 12; 8; 20; 8; 2]).
Example C62_integerise_ex : nd_range ex_zi /\ int_view (py_integerise L0 40 ex_zi) = Some ([0; 1; 1; 2; 1; 0], true).
Proof. split; [apply nd_range_by; vm_compute; reflexivity|]. vm_compute. reflexivity. Qed.
