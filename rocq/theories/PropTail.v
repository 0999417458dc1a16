(** Property C67: the p-value is the upper tail of the chi-squared distribution. *)
From Coq Require Import Reals Lra Lia ZArith.
From Flocq Require Import Core.Raux IEEE754.BinarySingleNaN.
From Verif Require Import Base Spec NDArray Float64 ArrayOps Stat GammaGen TailSpec Tail.
Open Scope R_scope.

(** the code's p-value in doubles is the generic one with the operations of doubles ... *)
Theorem C67_doubles : forall L dof x, pvalue_gen (dbl L) dof x = pvalue L dof x.
Proof. exact pvalue_dbl. Qed.
Print Assumptions C67_doubles.

(** ... and with those of the reals, for an even number of degrees of freedom up to 20000, it is the upper tail to within
    1e-8 times x times the density, unless that product is below 1e-37: then it is one, and flagged as inaccurate *)
Theorem C67_tail_even_dof : forall lg m X, (1 <= Z.of_nat m <= 10000)%Z -> lg (INR m) = ln (INR (fact (Nat.pred m))) -> 0 <= X ->
  (0 < X -> X * density m X < B2R d_1em37 -> pvalue_gen (real lg) (2 * Z.of_nat m) X = (1, false)) /\
  (X = 0 \/ B2R d_1em37 <= X * density m X ->
     exists p, pvalue_gen (real lg) (2 * Z.of_nat m) X = (p, true) /\ Rabs (p - tail_mass m X) <= B2R d_1em8 * (X * density m X)).
Proof. exact tail_claim. Qed.
Print Assumptions C67_tail_even_dof.

(** the factor is at most the half of the degrees of freedom *)
Theorem C67_factor : forall m X, (1 <= Z.of_nat m <= 10000)%Z -> 0 <= X -> X * density m X <= INR m.
Proof. exact tail_bound. Qed.
Print Assumptions C67_factor.

(** [tail_mass] is the function that is one at zero and whose derivative is minus the density *)
Theorem C67_tail_start : forall m, (1 <= m)%nat -> tail_mass m 0 = 1.
Proof. exact tail_zero. Qed.
Print Assumptions C67_tail_start.
Theorem C67_tail_derivative : forall m X, (1 <= m)%nat -> derivable_pt_lim (tail_mass m) X (- density m X).
Proof. exact tail_deriv. Qed.
Print Assumptions C67_tail_derivative.

(** a logarithm of the gamma function that is right at every positive integer, the value of the tolerance, and a case of
    each branch: four degrees of freedom, statistics 2 (series) and 6 (continued fraction) *)
Definition lgR (r : R) : R := ln (INR (fact (Nat.pred (Z.to_nat (Zfloor r))))).
Example C67_lg_ex : forall m, lgR (INR m) = ln (INR (fact (Nat.pred m))).
Proof. intros. unfold lgR. rewrite (INR_IZR_INZ m), Zfloor_IZR, Nat2Z.id. reflexivity. Qed.
Example C67_acu_ex : Rabs (B2R d_1em8 - / 10 ^ 8) <= / 10 ^ 24.
Proof.
  rewrite acu_val. replace (10 ^ 8) with (IZR (10 ^ 8)) by (rewrite (pow_IZR 10 8); reflexivity).
  replace (10 ^ 24) with (IZR (10 ^ 24)) by (rewrite (pow_IZR 10 24); reflexivity).
  apply Rabs_le. split; lra.
Qed.
Example C67_ex : exists p q, pvalue_gen (real lgR) 4 2 = (p, true) /\ pvalue_gen (real lgR) 4 6 = (q, true) /\
  Rabs (p - exp (- (1)) * 2) <= B2R d_1em8 * (2 * density 2 2) /\ Rabs (q - exp (- (3)) * 4) <= B2R d_1em8 * (6 * density 2 6).
Proof.
  assert (forall X, 2 <= X <= 6 -> B2R d_1em37 <= X * density 2 X) as H.
  { intros X HX. assert (B2R d_1em37 <= / 1000) as U.
    { assert (B2SF d_1em37 = SpecFloat.S754_finite false 4789048565205903 (-175)) as E by (vm_compute; reflexivity).
      destruct d_1em37; try discriminate E. cbn in E. injection E as -> -> ->. unfold B2R, Defs.F2R. cbn [Defs.Fnum Defs.Fexp SpecFloat.cond_Zopp].
      change (bpow Zaux.radix2 (-175)) with (/ IZR (2 ^ 175)). lra. }
    assert (exp (- (3)) <= exp (- (X / 2))) as E by (destruct (Req_dec X 6) as [->|]; [right; f_equal; field|left; apply exp_increasing; lra]).
    assert (/ 27 <= exp (- (3))) as E3.
    { pose proof exp_le_3 as E1. pose proof (exp_pos 1) as P. rewrite exp_Ropp. apply Rinv_le_contravar; [apply exp_pos|].
      replace 3 with (1 + (1 + 1)) at 1 by lra. rewrite !exp_plus. nra. }
    set (e := exp (- (X / 2))) in *.
    assert (X * density 2 X = X * X * e / 4) as -> by (unfold density; fold e; cbn; field). assert (2 * 2 <= X * X) by nra. nra. }
  destruct (proj2 (C67_tail_even_dof lgR 2 2 ltac:(lia) (C67_lg_ex 2) ltac:(lra)) (or_intror (H 2 ltac:(lra)))) as (p & Ep & Bp).
  destruct (proj2 (C67_tail_even_dof lgR 2 6 ltac:(lia) (C67_lg_ex 2) ltac:(lra)) (or_intror (H 6 ltac:(lra)))) as (q & Eq & Bq).
  exists p, q. split; [exact Ep|]. split; [exact Eq|].
  replace (exp (- (1)) * 2) with (tail_mass 2 2) by (unfold tail_mass, exp_upto; cbn; replace (2 / 2) with 1 by field; field).
  replace (exp (- (3)) * 4) with (tail_mass 2 6) by (unfold tail_mass, exp_upto; cbn; replace (6 / 2) with 3 by field; field).
  split; assumption.
Qed.
