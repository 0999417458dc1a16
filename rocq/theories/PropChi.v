(** Property C85: the chi-squared statistic qis and qisi report is accurate.

    [accurate], [pearsonR] and [moderate] are in ChiSpec.v, [within] in IpfRoundSpec.v. *)
From Flocq Require Import IEEE754.BinarySingleNaN.
From Verif Require Import Base Spec NDArray Float64 Bind Micro Stat StatSpec Qis SynthSpec QisClaims QisExamples Ipf Qisi QisiClaims IpfExamples QisiExamples
  ChiSpec ChiProofs.
Open Scope Z_scope.

(** C85: the statistic of qis is Pearson's statistic of the arrays returned, computed without rounding, to within N + 4
    relative errors of 2^-52, and it is zero exactly if each count is its expected value *)
Theorem C85_qis : forall L fuel ilist mlist skips res, in_range ilist mlist -> py_qis L fuel ilist mlist skips = Ok res ->
  let n := flat (qr_pop_array res) in let e := flat (qr_expectation res) in
  Z.of_nat (length n) <= 2 ^ 50 -> (forall x, In x e -> moderate x) -> accurate (length n) (qr_chisq res) n e.
Proof. exact chi_qis_claim. Qed.
Print Assumptions C85_qis.

(** in particular with up to ten marginals without zeros *)
Theorem C85_positive : forall L fuel ilist mlist skips res, in_range ilist mlist -> py_qis L fuel ilist mlist skips = Ok res ->
  (length mlist <= 10)%nat -> (forall c k, In c (cons_of ilist mlist) -> index_in (c_sizes c) k -> 0 < c_at c k) ->
  let n := flat (qr_pop_array res) in let e := flat (qr_expectation res) in
  Z.of_nat (length n) <= 2 ^ 50 -> accurate (length n) (qr_chisq res) n e.
Proof. exact chi_positive_claim. Qed.
Print Assumptions C85_positive.
Example C85_ex : in_range exB_i exB_m /\
  (match py_qis L0 40 exB_i exB_m 0 with
   | Ok r => (Z.of_nat (length (flat (qr_pop_array r))) <=? 2 ^ 50) && forallb moderateb (flat (qr_expectation r)) && d_ltb d_zero (qr_chisq r)
   | _ => false end) = true /\ (length exB_m <= 10)%nat /\
  forallb (fun c => forallb (fun k => 0 <? c_at c k) (all_indices (c_sizes c))) (cons_of exB_i exB_m) = true.
Proof. split; [exact exB_range|]. split; [vm_compute; reflexivity|]. split; [vm_compute; lia|]. vm_compute. reflexivity. Qed.

(** C85 for qisi *)
Theorem C85_qisi : forall L fuel seed ilist mlist skips res, qisi_range ilist mlist seed -> py_qisi L fuel seed ilist mlist skips = Ok res ->
  let n := flat (qr_pop_array res) in let e := flat (qr_expectation res) in
  Z.of_nat (length n) <= 2 ^ 50 -> (forall x, In x e -> moderate x) -> accurate (length n) (qr_chisq res) n e.
Proof. exact chi_qisi_claim. Qed.
Print Assumptions C85_qisi.
Example C85_qisi_ex : qisi_range exJ_i exJ_m exJ_s /\
  (match py_qisi L0 40 exJ_s exJ_i exJ_m 0 with
   | Ok r => (Z.of_nat (length (flat (qr_pop_array r))) <=? 2 ^ 50) && forallb moderateb (flat (qr_expectation r)) && d_ltb d_zero (qr_chisq r)
   | _ => false end) = true.
Proof. split; [exact exJ_range|]. vm_compute. reflexivity. Qed.

(** C85 is false for every call of qisi with a structural zero, in the seed or in a marginal: the statistic is NaN and the
    p-value one, whatever the population *)
Theorem C85_zero_refuted : forall L fuel seed ilist mlist skips res, qisi_range ilist mlist seed -> qisi_good fuel ilist mlist seed ->
  (forall i, index_in (shape seed) i -> d_ltb (entry d_zero seed i) d_zero = false) ->
  py_qisi L fuel seed ilist mlist skips = Ok res ->
  (exists i, index_in (shape seed) i /\
    (d_eqb (entry d_zero seed i) d_zero = true \/ exists c, In c (cons_of ilist mlist) /\ c_at c (proj (c_dims c) i) = 0)) ->
  is_nan (qr_chisq res) = true /\ qr_pvalue res = d_one.
Proof. exact chi_zero_claim. Qed.
Print Assumptions C85_zero_refuted.
Definition exO_s : ndarray double := NDA [2; 2] (dz [0; 2; 3; 1]).
Definition exO_m : list (ndarray Z) := [NDA [2] [3; 6]; NDA [2] [4; 5]].
Example C85_zero_ex : qisi_range exJ_i exO_m exO_s /\ qisi_good 40 exJ_i exO_m exO_s /\
  forallb (fun x => negb (d_ltb x d_zero)) (flat exO_s) = true /\ cells (py_qisi L0 40 exO_s exJ_i exO_m 0) = Some (true, [0; 3; 4; 2]) /\
  index_in (shape exO_s) [0; 0] /\ d_eqb (entry d_zero exO_s [0; 0]) d_zero = true.
Proof.
  split; [apply qisi_range_by; [apply (in_range_by _ _ [2; 2])| |]; vm_compute; reflexivity|]. split; [apply qisi_good_by; vm_compute; reflexivity|].
  split; [vm_compute; reflexivity|]. split; [vm_compute; reflexivity|]. split; [repeat constructor; lia|]. vm_compute. reflexivity.
Qed.
