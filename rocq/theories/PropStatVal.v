(** Property C65: the statistics qis and qisi report belong to the arrays they return.

    [pearson], [degrees] and [running_product] are in StatSpec.v; [pvalue L] is the model of pValue with the mathematical
    library [L]. *)
From Verif Require Import Base Spec NDArray Float64 Bind Micro Stat StatSpec Qis SynthSpec QisClaims QisExamples Ipf Qisi QisiClaims QisiExamples
  StatFlat.
Open Scope Z_scope.

(** C65: chiSq is Pearson's statistic of the returned population against the returned expectation, pValue is computed from
    it with the product of (size - 1) as degrees of freedom, and degeneracy from the returned population *)
Theorem C65_qis : forall L fuel ilist mlist skips res, in_range ilist mlist -> py_qis L fuel ilist mlist skips = Ok res ->
  let n := qr_pop_array res in
  qr_chisq res = pearson (flat n) (flat (qr_expectation res)) /\
  qr_pvalue res = fst (pvalue L (degrees (shape n)) (qr_chisq res)) /\
  (prodZ (shape n) <= 2 ^ 53 -> qr_degeneracy res = running_product L (flat n)).
Proof. exact stats_qis_claim. Qed.
Print Assumptions C65_qis.

Theorem C65_qisi : forall L fuel seed ilist mlist skips res, qisi_range ilist mlist seed -> py_qisi L fuel seed ilist mlist skips = Ok res ->
  let n := qr_pop_array res in
  qr_chisq res = pearson (flat n) (flat (qr_expectation res)) /\
  qr_pvalue res = fst (pvalue L (degrees (shape n)) (qr_chisq res)) /\
  (prodZ (shape n) <= 2 ^ 53 -> qr_degeneracy res = running_product L (flat n)).
Proof. exact stats_qisi_claim. Qed.
Print Assumptions C65_qisi.

(** a call with a positive statistic, and the statistic of 4 and 8 individuals where 6 of each are expected: 4/6 + 4/6 *)
Example C65_ex : in_range exB_i exB_m /\
  (match py_qis L0 40 exB_i exB_m 0 with Ok r => d_ltb d_zero (qr_chisq r) && (degrees (shape (qr_pop_array r)) =? 1) | _ => false end) = true /\
  d_eqb (pearson [4; 8] [d_ofZ 6; d_ofZ 6]) (d_add (d_div (d_ofZ 4) (d_ofZ 6)) (d_div (d_ofZ 4) (d_ofZ 6))) = true /\ degrees [3; 4; 2] = 6.
Proof. split; [exact exB_range|]. vm_compute. auto. Qed.
