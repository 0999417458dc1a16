(** Properties C69 and C70: the normal distribution and correlated pairs of variates. *)
From Coq Require Import Reals.
From Flocq Require Import Core.Raux Core.Zaux IEEE754.BinarySingleNaN.
From Verif Require Import Base Spec NDArray Float64 Normal NormSpec NormalProofs.
Open Scope R_scope.

(** C69: cumNorm maps every number into [0,1], preserves the order, and maps NaN to NaN *)
Theorem C69_cumulative : forall L, erf_sane (n_erf L) ->
  (forall x, is_nan x = false -> is_finite (cum_norm L x) = true /\ 0 <= B2R (cum_norm L x) <= 1) /\
  (forall x y, d_leb x y = true -> B2R (cum_norm L x) <= B2R (cum_norm L y)) /\
  (forall x, is_nan x = true -> is_nan (cum_norm L x) = true).
Proof. exact cum_claim. Qed.
Print Assumptions C69_cumulative.

(** invCumNorm raises exactly for the arguments outside [0,1] by 2^-52 below or 2^-50 above, and returns otherwise *)
Theorem C69_rejects : forall L x,
  (outside x <-> inv_cum_norm L x = Throw (RuntimeError "Inverse cumulative normal: x must be in [0,1]")) /\
  (~ outside x -> exists z, inv_cum_norm L x = Ok z).
Proof. exact inv_claim. Qed.
Print Assumptions C69_rejects.

(** C69, "the value is a number", is false at 0 and 1 and wherever the code recovers from a small excess: the largest
    double chosen there overflows in the step of Halley's method, and the value is NaN *)
Theorem C69_recovery_refuted : forall L x, exp_sane (n_exp L) -> borderline x ->
  exists z, inv_cum_norm L x = Ok z /\ is_nan z = true.
Proof. exact recover_claim. Qed.
Print Assumptions C69_recovery_refuted.

(** C70: the constructor of Cholesky raises exactly for |rho| > 1; otherwise its two numbers have squares that add up to
    one to within 2^-51 *)
Theorem C70_factor : forall rho,
  (chol_new rho = Throw (RuntimeError "correlation is not in [-1,1]") <->
     (exists s, rho = B754_infinity s) \/ is_finite rho = true /\ 1 < Rabs (B2R rho)) /\
  (is_finite rho = true -> Rabs (B2R rho) <= 1 -> exists m1, chol_new rho = Ok (rho, m1) /\ is_finite m1 = true /\
     0 <= B2R m1 <= 1 /\ Rabs (B2R rho * B2R rho + B2R m1 * B2R m1 - 1) <= bpow radix2 (-51)).
Proof. exact chol_new_claim. Qed.
Print Assumptions C70_factor.

(** operator() returns two 32-bit numbers, 2^32 times the cumulative probabilities rounded down, if both probabilities are
    below one; in all other cases a conversion is undefined *)
Theorem C70_pair : forall L m u0 u1, erf_sane (n_erf L) -> (0 <= u0 < 2 ^ 32)%Z -> (0 <= u1 < 2 ^ 32)%Z ->
  exists n0 n1, inv_cum_norm L (d_mul (d_ofZ u0) chol_scale) = Ok n0 /\ inv_cum_norm L (d_mul (d_ofZ u1) chol_scale) = Ok n1 /\
    let c0 := cum_norm L n0 in let c1 := cum_norm L (d_add (d_mul n0 (fst m)) (d_mul n1 (snd m))) in
    if d_ltb c0 d_one && d_ltb c1 d_one
    then exists a b, chol_call L m [u0; u1] = Ok (a, b) /\ a = Zfloor (B2R c0 * bpow radix2 32) /\
           b = Zfloor (B2R c1 * bpow radix2 32) /\ (0 <= a < 2 ^ 32)%Z /\ (0 <= b < 2 ^ 32)%Z
    else chol_call L m [u0; u1] = UB "double to uint32_t out of range".
Proof. exact chol_claim. Qed.
Print Assumptions C70_pair.

(** C70, "every pair of variates is mapped to a pair", is false: a variate of zero always leads to the conversion of NaN *)
Theorem C70_zero_refuted : forall L m u0 u1, erf_sane (n_erf L) -> exp_sane (n_exp L) ->
  (0 <= u0 < 2 ^ 32)%Z -> (0 <= u1 < 2 ^ 32)%Z -> u0 = 0%Z \/ u1 = 0%Z ->
  chol_call L m [u0; u1] = UB "double to uint32_t out of range".
Proof. exact chol_zero. Qed.
Print Assumptions C70_zero_refuted.

(** [toy] is a library that meets the assumptions *)
Example C69_ex : erf_sane (n_erf toy) /\ exp_sane (n_exp toy) /\ borderline d_zero /\ borderline d_one /\
  outside (B754_infinity true) /\ outside (d_ofZ 2).
Proof. exact toy_sane. Qed.
(** both branches of C70_pair occur *)
Example C70_ex : chol_call toy (d_one, d_zero) [2 ^ 31; 2 ^ 31]%Z = Ok (2 ^ 31, 2 ^ 31)%Z /\
  chol_call toy (d_one, d_zero) [0; 2 ^ 31]%Z = UB "double to uint32_t out of range".
Proof. split; vm_compute; reflexivity. Qed.
