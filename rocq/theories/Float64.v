(** C++ [double]: IEEE-754 binary64 as formalised by Flocq, round to nearest even.
    One Flocq operation per C++ operation (no FMA contraction, no extended precision).
    NaN payloads and signs are not modelled (BinarySingleNaN). *)
From Coq Require Import ZArith.
From Flocq Require Import Core.Core IEEE754.BinarySingleNaN.
From Verif Require Import Base.
Open Scope Z_scope.

Definition double : Type := binary_float 53 1024.

Definition Hprec : FLX.Prec_gt_0 53 := eq_refl.
Definition Hemax : Prec_lt_emax 53 1024 := eq_refl.
#[global] Existing Instance Hprec.
#[global] Existing Instance Hemax.

Definition d_add (x y : double) : double := Bplus mode_NE x y.
Definition d_sub (x y : double) : double := Bminus mode_NE x y.
Definition d_mul (x y : double) : double := Bmult mode_NE x y.
Definition d_div (x y : double) : double := Bdiv mode_NE x y.
Definition d_sqrt (x : double) : double := Bsqrt mode_NE x.
Definition d_abs (x : double) : double := Babs x.
Definition d_opp (x : double) : double := Bopp x.
(** C++ [<], [<=], [==] on doubles: false when an operand is NaN (so [!=] is the negation of [==]) *)
Definition d_ltb (x y : double) : bool := Bltb x y.
Definition d_leb (x y : double) : bool := Bleb x y.
Definition d_eqb (x y : double) : bool := Beqb x y.

(** conversion of an integer to double (rounded to nearest even) *)
Definition d_ofZ (z : Z) : double := binary_normalize 53 1024 Hprec Hemax mode_NE z 0 false.
(** the double nearest to m * 2^e *)
Definition d_lit (m e : Z) : double := binary_normalize 53 1024 Hprec Hemax mode_NE m e false.

Definition d_zero : double := B754_zero false.
Definition d_one : double := d_ofZ 1.
Definition d_half : double := d_lit 1 (-1).
Definition d_nan : double := B754_nan.
(** std::numeric_limits<double>::max() *)
Definition d_max : double := d_lit (2 ^ 53 - 1) 971.

Definition d_isfinite (x : double) : bool := is_finite x.
Definition d_isnan (x : double) : bool := is_nan x.

(** conversion double -> signed integer of [w] bits: truncation, undefined behaviour when NaN or out of range *)
Definition d_to_i64 (x : double) : outcome Z :=
  if is_finite x && in_i64 (Btrunc x) then Ok (Btrunc x) else UB "double to int64 out of range".
Definition d_to_i32 (x : double) : outcome Z :=
  if is_finite x && in_i32 (Btrunc x) then Ok (Btrunc x) else UB "double to int out of range".

(** std::round: to nearest, halfway cases away from zero *)
Definition d_round (x : double) : double := Bnearbyint mode_NA x.
