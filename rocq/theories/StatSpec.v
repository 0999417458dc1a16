(** Specification vocabulary for the reported statistics. *)
From Coq Require Import Reals.
From Flocq Require Import Core.Core IEEE754.BinarySingleNaN.
From Verif Require Import Base Spec Float64 Stat.
Open Scope R_scope.

(** What is asked of the mathematical library: log is within one of the natural logarithm on positive finite
    arguments, and lgamma is between -1 and 2^40 on [1/2, 2^31] (its minimum is about -0.12 and lgamma(2^31) is
    about 2^35.3). *)
Definition sane (L : libm) : Prop :=
  (forall x, is_finite x = true -> 0 < B2R x ->
     is_finite (l_log L x) = true /\ Rabs (B2R (l_log L x) - ln (B2R x)) <= 1) /\
  (forall x, is_finite x = true -> / 2 <= B2R x <= IZR (2 ^ 31) ->
     is_finite (l_lgamma L x) = true /\ -1 <= B2R (l_lgamma L x) <= IZR (2 ^ 40)).

(** tgamma is right on the integer [n] : (n-1)! *)
Definition factZ (n : Z) : Z := Z.of_nat (fact (Z.to_nat n)).
Definition tgamma_at (L : libm) (n : Z) : Prop :=
  is_finite (l_tgamma L (d_ofZ n)) = true /\ B2R (l_tgamma L (d_ofZ n)) = IZR (factZ (n - 1)).

(** S! / prod(a_k!) for the list of the counts a *)
Definition multinomial (a : list Z) : R := IZR (factZ (sumZ a)) / IZR (prodZ (map factZ a)).

Open Scope Z_scope.
(** degrees of freedom of an array with these sizes *)
Definition degrees (sizes : list Z) : Z := prodZ (map (fun n => n - 1) sizes).

(** Pearson's statistic of observed counts against expected values: cell by cell (n - e)^2 / e, added from the left *)
Definition pearson (n : list Z) (e : list double) : double :=
  fold_left d_add (map (fun '(n, e) => d_div (d_mul (d_sub (d_ofZ n) e) (d_sub (d_ofZ n) e)) e) (combine n e)) d_zero.

(** what degeneracy computes for N cells with the counts [n]: the product of (N - k) / tgamma(n_k + 2) over k = 0 .. N-1 *)
Definition running_product (L : libm) (n : list Z) : double :=
  let cells := Z.of_nat (length n) in
  fold_left d_mul (map (fun '(k, x) => d_div (d_ofZ (cells - k)) (l_tgamma L (d_ofZ (x + 2)))) (combine (zrange cells) n)) d_one.
