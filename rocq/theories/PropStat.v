(** Properties C42-C44: the statistics reported by qis and qisi. *)
From Coq Require Import Reals Lra.
From Flocq Require Import IEEE754.BinarySingleNaN.
From Verif Require Import Base Spec NDArray Float64 Bind Sobol Micro Stat StatSpec Qis SynthSpec QisClaims QisExamples Qisi QisiClaims QisiExamples
  StatClaims.
Open Scope Z_scope.

(** C42 is false: whenever the statistic is enormous the p-value reported is one, as for a perfect fit *)
Theorem C42_refuted : forall L fuel ilist mlist skips res, in_range ilist mlist -> py_qis L fuel ilist mlist skips = Ok res -> sane L ->
  let d := degrees (shape (qr_pop_array res)) in 1 <= d < 2 ^ 32 -> is_finite (qr_chisq res) = true ->
  (2000 * IZR d + 1000 <= B2R (qr_chisq res))%R -> qr_pvalue res = d_one.
Proof. exact pvalue_claim. Qed.
Print Assumptions C42_refuted.

Theorem C42_qisi_refuted : forall L fuel seed ilist mlist skips res, qisi_range ilist mlist seed ->
  py_qisi L fuel seed ilist mlist skips = Ok res -> sane L ->
  let d := degrees (shape (qr_pop_array res)) in 1 <= d < 2 ^ 32 ->
  (is_finite (qr_chisq res) = true /\ (2000 * IZR d + 1000 <= B2R (qr_chisq res))%R) \/ is_nan (qr_chisq res) = true -> qr_pvalue res = d_one.
Proof. exact pvalue_qisi_claim. Qed.
Print Assumptions C42_qisi_refuted.

(** there is such a library, and a call with one degree of freedom and a statistic above 3000 ... *)
Definition exH_i : list (ndarray Z) := [NDA [2] [0; 1]; NDA [2] [1; 2]].
Definition exH_m : list (ndarray Z) := [NDA [2; 2] [800; 1; 800; 1]; NDA [2; 2] [800; 800; 1; 1]].
Definition chi_above (b : Z) (x : outcome qis_result) : bool :=
  match x with Ok r => is_finite (qr_chisq r) && d_ltb (d_ofZ b) (qr_chisq r) && (degrees (shape (qr_pop_array r)) =? 1) | _ => false end.
Example C42_ex : sane L1 /\ in_range exH_i exH_m /\ chi_above 3000 (py_qis L0 40 exH_i exH_m 0) = true.
Proof.
  split; [exact L1_sane|]. split; [apply (in_range_by _ _ [2; 2; 2]); vm_compute; reflexivity|]. vm_compute. reflexivity.
Qed.
(** ... while a statistic of 2 with two degrees of freedom has p-value 0.3679: with exp(-1) = 6627126856707896 * 2^-54 *)
Example C42_moderate_ex : forall L, l_log L d_one = d_zero -> l_lgamma L d_one = d_zero -> l_log L d_1em37 = d_ofZ (-86) ->
  l_exp L (d_ofZ (-1)) = d_lit 6627126856707896 (-54) ->
  let p := fst (pvalue L 2 (d_ofZ 2)) in d_ltb (d_lit 3678 0) (d_mul p (d_ofZ 10000)) = true /\ d_ltb (d_mul p (d_ofZ 10000)) (d_ofZ 3679) = true.
Proof.
  intros L H1 H2 H3 H4. unfold pvalue, gamain.
  assert (d_div (d_ofZ 2) (d_ofZ 2) = d_one) as -> by (apply B2SF_inj; vm_compute; reflexivity).
  assert (d_mul (d_ofZ (u32 2)) d_half = d_one) as -> by (apply B2SF_inj; vm_compute; reflexivity).
  rewrite H1, H2, H3. assert (d_sub (d_sub (d_mul d_one d_zero) d_one) d_zero = d_ofZ (-1)) as -> by (apply B2SF_inj; vm_compute; reflexivity).
  rewrite H4. vm_compute. split; reflexivity.
Qed.

(** C43 is false: a converged population with a zero marginal entry has chi-squared NaN (and p-value one) *)
Theorem C43_refuted : forall L fuel ilist mlist skips res, in_range ilist mlist -> py_qis L fuel ilist mlist skips = Ok res -> qr_conv res = true ->
  (exists c i, In c (cons_of ilist mlist) /\ index_in (shape (qr_pop_array res)) i /\ c_at c (proj (c_dims c) i) = 0) ->
  is_nan (qr_chisq res) = true /\ qr_pvalue res = d_one.
Proof. exact chi_nan_claim. Qed.
Print Assumptions C43_refuted.
Definition exZ_m : list (ndarray Z) := [NDA [3] [3; 0; 3]; NDA [2] [4; 2]].
Example C43_refuted_ex : in_range exA_i exZ_m /\ cells (py_qis L0 40 exA_i exZ_m 0) = Some (true, [2; 1; 0; 0; 2; 1]) /\
  (exists c, In c (cons_of exA_i exZ_m) /\ c_at c (proj (c_dims c) [1; 0]) = 0).
Proof.
  split; [apply (in_range_by _ _ [3; 2]); vm_compute; reflexivity|]. split; [vm_compute; reflexivity|].
  eexists. split; [left; reflexivity|]. vm_compute. reflexivity.
Qed.

(** the part of C43 that holds: marginals without zero entries (at most 28 of them) *)
Theorem C43_positive_marginals : forall L fuel ilist mlist skips res, in_range ilist mlist -> py_qis L fuel ilist mlist skips = Ok res ->
  (length mlist <= 28)%nat -> (forall c k, In c (cons_of ilist mlist) -> index_in (c_sizes c) k -> 0 < c_at c k) ->
  is_nan (qr_chisq res) = false /\ d_leb d_zero (qr_chisq res) = true.
Proof. exact chi_number_claim. Qed.
Print Assumptions C43_positive_marginals.
Example C43_positive_ex : in_range exH_i exH_m /\ (forall c k, In c (cons_of exH_i exH_m) -> index_in (c_sizes c) k -> 0 < c_at c k) /\
  chi_above 3000 (py_qis L0 40 exH_i exH_m 0) = true.
Proof.
  split; [apply (in_range_by _ _ [2; 2; 2]); vm_compute; reflexivity|]. split; [|exact (proj2 (proj2 C42_ex))].
  intros c k Hc Hk. assert (forallb (fun c => forallb (fun k => 0 <? c_at c k) (all_indices (c_sizes c))) (cons_of exH_i exH_m) = true) as H by (vm_compute; reflexivity).
  rewrite forallb_forall in H. specialize (H c Hc). rewrite forallb_forall in H. apply Z.ltb_lt, H. now apply SpecFacts.in_all_indices.
Qed.

(** C44 is false: for the marginals [2,2] and [2,2] the population is one individual in each of the four cells, which
    can be arranged in 24 ways; 1.5 is reported *)
Theorem C44_refuted : forall L, tgamma_at L 3 -> exists ilist mlist res, in_range ilist mlist /\ py_qis L 40 ilist mlist 0 = Ok res /\
  flat (qr_pop_array res) = [1; 1; 1; 1] /\ multinomial (flat (qr_pop_array res)) = 24%R /\ B2R (qr_degeneracy res) = (3 / 2)%R.
Proof. exact degeneracy_claim. Qed.
Print Assumptions C44_refuted.
Example C44_ex : exists L, tgamma_at L 3.
Proof. exists {| l_lgamma := fun x => x; l_log := fun x => x; l_exp := fun x => x; l_tgamma := fun _ => d_ofZ 2 |}. split; [reflexivity|]. change (factZ (3 - 1)) with 2. apply (FloatProofs.d_ofZ_exact 2). vm_compute. discriminate. Qed.
