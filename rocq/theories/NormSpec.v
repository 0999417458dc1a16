(** What the theorems about the normal distribution assume of the mathematical library (of erf and exp; nothing is assumed
    of log and atan), and when an argument is a probability up to the tolerance of the code. *)
From Coq Require Import Reals ZArith.
From Flocq Require Import Core.Raux Core.Zaux IEEE754.BinarySingleNaN.
From Verif Require Import Base Float64.

(** erf maps numbers into [-1,1], NaN to NaN, and is non-decreasing *)
Definition erf_sane (erf : double -> double) : Prop :=
  (forall x, is_nan x = true -> is_nan (erf x) = true) /\
  (forall x, is_nan x = false -> d_leb (d_ofZ (-1)) (erf x) = true /\ d_leb (erf x) d_one = true) /\
  (forall x y, d_leb x y = true -> d_leb (erf x) (erf y) = true).
(** exp of infinity is infinity *)
Definition exp_sane (exp : double -> double) : Prop := exp (B754_infinity false) = B754_infinity false.

(** outside [0,1] by at least 2^-52 below or 2^-50 above *)
Definition outside (x : double) : Prop :=
  (exists s, x = B754_infinity s) \/
  is_finite x = true /\ (B2R x <= - bpow radix2 (-52) \/ 1 + bpow radix2 (-50) <= B2R x)%R.
(** 0 or 1, or on the wrong side of it by less than that *)
Definition borderline (x : double) : Prop :=
  is_finite x = true /\ (- bpow radix2 (-52) < B2R x <= 0 \/ 1 <= B2R x < 1 + bpow radix2 (-50))%R.
