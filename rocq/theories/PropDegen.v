(** Property C44: the degeneracy that qis reports.

    [multinomial] is in StatSpec.v, [cell_formula], [tgamma_near] and [product_normal] in DegSpec.v, [within] in
    IpfRoundSpec.v: [within k x y] says that x and y agree up to k relative errors of 2^-52. *)
From Coq Require Import Reals.
From Flocq Require Import Core.Core IEEE754.BinarySingleNaN.
From Verif Require Import Base Spec NDArray Float64 Bind Micro Stat StatSpec Qis SynthSpec QisExamples StatClaims IpfRoundSpec DegSpec DegProofs.
Open Scope Z_scope.

(** what is reported instead of S!/prod(a_k!): N!/prod((a_k+1)!), with N the number of cells *)
Theorem C44_value : forall L fuel ilist mlist skips res k, in_range ilist mlist -> py_qis L fuel ilist mlist skips = Ok res ->
  let a := flat (qr_pop_array res) in
  Z.of_nat (length a) <= 2 ^ 53 -> (forall x, In x a -> tgamma_near L k x) -> product_normal L a ->
  within (length a * (k + 2)) (B2R (qr_degeneracy res)) (cell_formula a).
Proof. exact deg_value_all. Qed.
Print Assumptions C44_value.

(** C44 is false in every call with at least as many individuals as cells: less than the multinomial count is reported,
    by a factor of at least 2/3 of the population plus one *)
Theorem C44_small_refuted : forall L fuel ilist mlist skips res k, in_range ilist mlist -> py_qis L fuel ilist mlist skips = Ok res ->
  let a := flat (qr_pop_array res) in
  (forall x, In x a -> tgamma_near L k x) -> product_normal L a -> Z.of_nat (length a * (k + 2)) <= 2 ^ 50 ->
  0 < Z.of_nat (length a) <= qr_pop res ->
  (B2R (qr_degeneracy res) < multinomial a)%R /\ (B2R (qr_degeneracy res) * IZR (1 + qr_pop res) <= 3 / 2 * multinomial a)%R.
Proof. exact deg_small_all. Qed.
Print Assumptions C44_small_refuted.
(** one individual in each of four cells *)
Example C44_small_ex : in_range exG_i exG_m /\ pop_cells (py_qis L2 40 exG_i exG_m 0) = Some (NDA [2; 2] [1; 1; 1; 1]) /\
  (forall x, In x [1; 1; 1; 1] -> tgamma_near L2 0 x) /\ product_normal L2 [1; 1; 1; 1] /\ sumZ [1; 1; 1; 1] = 4 /\
  cell_formula [1; 1; 1; 1] = (24 / 16)%R /\ multinomial [1; 1; 1; 1] = (24 / 1)%R.
Proof.
  split; [apply (in_range_by _ _ [2; 2]); vm_compute; reflexivity|]. split; [vm_compute; reflexivity|].
  split; [intros x [<-|[<-|[<-|[<-|[]]]]]; apply near_L2|]. split; [exact normal_L2|]. repeat split.
Qed.

(** as soon as one cell holds so many individuals that tgamma overflows, zero or NaN is reported: never the count, which
    is at least one *)
Theorem C44_overflow_refuted : forall L fuel ilist mlist skips res x, in_range ilist mlist -> py_qis L fuel ilist mlist skips = Ok res ->
  let a := flat (qr_pop_array res) in
  Z.of_nat (length a) <= 2 ^ 53 -> In x a -> is_finite (l_tgamma L (d_ofZ (x + 2))) = false ->
  (is_nan (qr_degeneracy res) = true \/ d_eqb (qr_degeneracy res) d_zero = true) /\ (1 <= multinomial a)%R.
Proof. exact deg_overflow_all. Qed.
Print Assumptions C44_overflow_refuted.
(** two hundred individuals in each of four cells *)
Example C44_overflow_ex : in_range exG_i exO_m /\ pop_cells (py_qis Linf 40 exG_i exO_m 0) = Some (NDA [2; 2] [200; 200; 200; 200]) /\
  is_finite (l_tgamma Linf (d_ofZ (200 + 2))) = false.
Proof. split; [apply (in_range_by _ _ [2; 2]); vm_compute; reflexivity|]. split; vm_compute; reflexivity. Qed.
