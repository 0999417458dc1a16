(** Model of the normal distribution in src/StatFuncs.cpp: cumNorm, invCumNorm, tail_value and the class Cholesky.  They
    have no caller outside the unit tests. *)
From Flocq Require Import IEEE754.BinarySingleNaN.
From Verif Require Import Base Spec NDArray Float64.
Open Scope Z_scope.

(** The mathematical library functions used; the theorems quantify over them.  sqrt is correctly rounded (IEEE 754). *)
Record nlib : Type := { n_erf : double -> double; n_log : double -> double; n_exp : double -> double; n_atan : double -> double }.

(** the decimal literal m / 10^k: |m| < 2^53 and k <= 22, so both integers are exact and the quotient is the nearest
    double *)
Definition dec (m k : Z) : double := d_div (d_ofZ m) (d_ofZ (10 ^ k)).
(** std::numeric_limits<double>::epsilon() *)
Definition d_eps : double := d_lit 1 (-52).

(** src/StatFuncs.cpp:209-210 *)
Definition sqrt_2 : double := d_sqrt (d_ofZ 2).
Definition rsqrt_2 : double := d_div d_one sqrt_2.

(** src/StatFuncs.cpp:214-237: the coefficients a1_..a6_, b1_..b5_ with the final 1.0, c1_..c6_, d1_..d4_ with the final 1.0 *)
Definition coef_a : list double :=
  [dec (-3969683028665376) 14; dec 2209460984245205 13; dec (-2759285104469687) 13; dec 1383577518672690 13;
   dec (-3066479806614716) 14; dec 2506628277459239 15].
Definition coef_b : list double :=
  [dec (-5447609879822406) 14; dec 1615858368580409 13; dec (-1556989798598866) 13; dec 6680131188771972 14;
   dec (-1328068155288572) 14; d_one].
Definition coef_c : list double :=
  [dec (-7784894002430293) 18; dec (-3223964580411365) 16; dec (-2400758277161838) 15; dec (-2549732539343734) 15;
   dec 4374664141464968 15; dec 2938163982698783 15].
Definition coef_d : list double :=
  [dec 7784695709041462 18; dec 3224671290700398 16; dec 2445134137142996 15; dec 3754408661907416 15; d_one].
(** src/StatFuncs.cpp:240-241 *)
Definition x_low : double := dec 2425 5.
Definition x_high : double := d_sub d_one x_low.

(** (((c1*z + c2)*z + c3)*z + ...) as written in src/StatFuncs.cpp:268-269, 275-276, 299-300 *)
Definition horner (cs : list double) (z : double) : double :=
  match cs with [] => d_zero | c :: cs' => fold_left (fun acc c => d_add (d_mul acc z) c) cs' c end.

(** conversion double -> uint32_t: truncation, undefined behaviour when NaN or out of range *)
Definition d_to_u32 (x : double) : outcome Z :=
  if is_finite x && (0 <=? Btrunc x) && (Btrunc x <? 2 ^ 32) then Ok (Btrunc x) else UB "double to uint32_t out of range".

Section Normal.
Context (L : nlib).

(** src/StatFuncs.cpp:211 *)
Definition sqrt_pi : double := d_sqrt (d_mul (n_atan L d_one) (d_ofZ 4)).

(** src/StatFuncs.cpp:244-280 tail_value *)
Definition tail_value (x : double) : outcome double :=
  if d_leb x d_zero || d_leb d_one x then
    if d_ltb (d_abs (d_sub x d_one)) (d_mul (d_ofZ 4) d_eps) then Ok d_max
    else if d_ltb (d_abs x) d_eps then Ok (d_opp d_max)
    else Throw (RuntimeError "Inverse cumulative normal: x must be in [0,1]")
  else if d_ltb x x_low then
    let z := d_sqrt (d_mul (d_ofZ (-2)) (n_log L x)) in
    Ok (d_div (horner coef_c z) (horner coef_d z))
  else
    let z := d_sqrt (d_mul (d_ofZ (-2)) (n_log L (d_sub d_one x))) in
    Ok (d_div (d_opp (horner coef_c z)) (horner coef_d z)).

(** src/StatFuncs.cpp:285-288 cumNorm *)
Definition cum_norm (x : double) : double := d_mul d_half (d_add (n_erf L (d_mul x rsqrt_2)) d_one).

(** src/StatFuncs.cpp:307-310: the step of Halley's method *)
Definition halley (x z : double) : double :=
  let r := d_mul (d_mul (d_mul (d_sub (cum_norm z) x) sqrt_2) sqrt_pi) (n_exp L (d_mul (d_mul d_half z) z)) in
  d_sub z (d_div r (d_add d_one (d_mul (d_mul d_half z) r))).

(** src/StatFuncs.cpp:291-313 invCumNorm *)
Definition inv_cum_norm (x : double) : outcome double :=
  let* z :=
    if d_ltb x x_low || d_ltb x_high x then tail_value x
    else
      let z := d_sub x d_half in
      let r := d_mul z z in
      Ok (d_div (d_mul (horner coef_a r) z) (horner coef_b r)) in
  Ok (halley x z).

(** src/StatFuncs.cpp:315-321 the constructor of Cholesky; the pair is m_data *)
Definition chol_new (rho : double) : outcome (double * double) :=
  if d_ltb d_one (d_abs rho) then Throw (RuntimeError "correlation is not in [-1,1]")
  else Ok (rho, d_sqrt (d_sub d_one (d_mul rho rho))).

(** src/StatFuncs.cpp:325 *)
Definition chol_scale : double := d_div d_half (d_ofZ (2 ^ 31)).

(** src/StatFuncs.cpp:323-332 Cholesky::operator(); the entries of the vector are below 2^32 *)
Definition chol_call (m : double * double) (u : list Z) : outcome (Z * Z) :=
  let* u0 := vec_get u 0 in
  let* n0 := inv_cum_norm (d_mul (d_ofZ u0) chol_scale) in
  let* u1 := vec_get u 1 in
  let* n1 := inv_cum_norm (d_mul (d_ofZ u1) chol_scale) in
  let* a := d_to_u32 (d_div (cum_norm n0) chol_scale) in
  let* b := d_to_u32 (d_div (cum_norm (d_add (d_mul n0 (fst m)) (d_mul n1 (snd m)))) chol_scale) in
  Ok (a, b).

End Normal.
