(** The upper tail of the chi-squared distribution with an even number 2m of degrees of freedom, in the reals.
    [tail_mass m] is 1 at 0 and its derivative is minus the density [x^(m-1) e^(-x/2) / (2^m (m-1)!)]
    (proved in PropTail.v), which determines it. *)
From Coq Require Import Reals.
Open Scope R_scope.

(** 1 + y + y^2/2! + ... + y^n/n! *)
Definition exp_upto (n : nat) (y : R) : R := sum_f_R0 (fun j => y ^ j / INR (fact j)) n.

(** the probability that a chi-squared variable with 2m degrees of freedom (m at least 1) exceeds x *)
Definition tail_mass (m : nat) (x : R) : R := exp (- (x / 2)) * exp_upto (pred m) (x / 2).

(** its density at x *)
Definition density (m : nat) (x : R) : R := x ^ pred m * exp (- (x / 2)) / (2 ^ m * INR (fact (pred m))).
