(** Vocabulary for the product form of the ipf result in doubles (C17 with rounding). *)
From Coq Require Import Reals.
From Flocq Require Import Core.Core IEEE754.BinarySingleNaN.
From Verif Require Import Base Spec Float64 ArrayOps SynthSpec IpfSpec IpfFitSpec.
Open Scope R_scope.

(** a finite double of at least 2^-1021 *)
Definition normal (x : double) : Prop := is_finite x = true /\ bpow radix2 (-1021) <= B2R x.

(** the cell keeps a normal value through all scalings of the first [n] rounds *)
Definition stays_normal (sizes : list Z) (cs : list (gcon double)) (f : list Z -> double) (n : nat) (i : list Z) : Prop :=
  forall m pre post, (m < n)%nat -> cs = pre ++ post ->
    normal (fold_left (fun g c => fit1 sizes c g) pre (fitted sizes cs f m) i).

(** product of one factor per marginal, each depending only on the cell of that marginal *)
Fixpoint factorsR (cs : list (gcon double)) (xs : list (list Z -> R)) (i : list Z) : R :=
  match cs, xs with c :: cs', x :: xs' => x (proj (g_dims c) i) * factorsR cs' xs' i | _, _ => 1 end.

(** x is y up to k relative errors of 2^-52 *)
Definition within (k : nat) (x y : R) : Prop := y <= x * (1 + bpow radix2 (-52)) ^ k /\ x <= y * (1 + bpow radix2 (-52)) ^ k.
