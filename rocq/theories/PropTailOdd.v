(** Property C67, odd degrees of freedom: the p-value is the upper tail of the chi-squared distribution. *)
From Coq Require Import Reals Lra Lia ZArith.
From Flocq Require Import Core.Raux IEEE754.BinarySingleNaN.
From Verif Require Import Base Spec NDArray Float64 ArrayOps Stat GammaGen TailSpec TailOddSpec Tail TailOddVal TailExist.
Open Scope R_scope.

(** without rounding, for an odd number of degrees of freedom up to 19999, the p-value is the upper tail to within 7e-8 times x
    times the density, unless that product is below 1e-37: then it is one, and flagged as inaccurate *)
Theorem C67_tail_odd_dof : forall lg j gam Q X, (Z.of_nat j <= 9999)%Z -> chi_tail (2 * j + 1) gam Q ->
  lg (INR (2 * j + 1) / 2) = ln gam -> 0 <= X ->
  (0 < X -> X * chi_density (2 * j + 1) gam X < B2R d_1em37 -> pvalue_gen (real lg) (Z.of_nat (2 * j + 1)) X = (1, false)) /\
  (X = 0 \/ B2R d_1em37 <= X * chi_density (2 * j + 1) gam X ->
     exists v, pvalue_gen (real lg) (Z.of_nat (2 * j + 1)) X = (v, true) /\ Rabs (v - Q X) <= 7 * B2R d_1em8 * (X * chi_density (2 * j + 1) gam X)).
Proof. exact odd_claim. Qed.
Print Assumptions C67_tail_odd_dof.

(** the distribution so described exists for every odd number of degrees of freedom ... *)
Theorem C67_chi_exists : forall j, exists gam Q, chi_tail (2 * j + 1) gam Q.
Proof. exact chi_odd_exists. Qed.
Print Assumptions C67_chi_exists.

(** ... and the description determines it *)
Theorem C67_chi_unique : forall d g1 Q1 g2 Q2, chi_tail d g1 Q1 -> chi_tail d g2 Q2 -> g1 = g2 /\ forall X, 0 <= X -> Q1 X = Q2 X.
Proof. exact chi_unique. Qed.
Print Assumptions C67_chi_unique.

(** for an even number it describes the tail of the theorems for even degrees of freedom *)
Theorem C67_chi_even : forall m, (1 <= m)%nat -> chi_tail (2 * m) (INR (fact (Nat.pred m))) (tail_mass m).
Proof. exact chi_even. Qed.
Print Assumptions C67_chi_even.

(** one degree of freedom, a case of each branch: statistics 1 (series) and 4 (continued fraction) *)
Example C67_odd_ex : exists gam Q, chi_tail 1 gam Q /\ forall X, X = 1 \/ X = 4 ->
  exists v, pvalue_gen (real (fun _ => ln gam)) 1 X = (v, true) /\ Rabs (v - Q X) <= 7 * B2R d_1em8 * (X * chi_density 1 gam X).
Proof.
  destruct (C67_chi_exists 0) as (gam & Q & HQ). exists gam, Q. split; [exact HQ|]. intros X HX.
  apply (C67_tail_odd_dof (fun _ => ln gam) 0 gam Q X ltac:(lia) HQ eq_refl ltac:(lra)). right.
  apply Rle_trans with (/ 1000); [|apply (weight_one gam Q X HQ); lra].
  assert (B2SF d_1em37 = SpecFloat.S754_finite false 4789048565205903 (-175)) as E by (vm_compute; reflexivity).
  destruct d_1em37; try discriminate E. cbn in E. injection E as -> -> ->. unfold B2R, Defs.F2R. cbn [Defs.Fnum Defs.Fexp SpecFloat.cond_Zopp].
  change (bpow Zaux.radix2 (-175)) with (/ IZR (2 ^ 175)). lra.
Qed.
