(** The chi-squared distribution with any number [d] of degrees of freedom, in the reals, without the gamma function:
    [gam] stands for the value of gamma at d/2, which is the constant that makes the total mass one. *)
From Coq Require Import Reals.
Open Scope R_scope.

(** x^(d/2-1) e^(-x/2) / (2^(d/2) gam), for a positive x *)
Definition chi_density (d : nat) (gam x : R) : R :=
  Rpower x (INR d / 2 - 1) * exp (- (x / 2)) / (Rpower 2 (INR d / 2) * gam).

(** [Q] is the upper tail: minus the density is its derivative, it is continuous at 0 where it is 1, and its limit at infinity is 0.
    No more than one pair (gam, Q restricted to the nonnegative numbers) satisfies this, and one does (PropTailOdd.v). *)
Definition chi_tail (d : nat) (gam : R) (Q : R -> R) : Prop :=
  0 < gam /\ Q 0 = 1 /\
  (forall e, 0 < e -> exists b, 0 < b /\ forall x, 0 < x < b -> Rabs (Q x - 1) < e) /\
  (forall e, 0 < e -> exists b, forall x, b < x -> Rabs (Q x) < e) /\
  (forall x, 0 < x -> derivable_pt_lim Q x (- chi_density d gam x)).
