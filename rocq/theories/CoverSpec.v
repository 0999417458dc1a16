(** Specification: a fitted table that asks for a whole individual more than a marginal has left. *)
From Coq Require Import Reals.
From Flocq Require Import IEEE754.BinarySingleNaN.
From Verif Require Import Base Spec Float64 RealSpec SynthSpec IpfSpec IpfFitSpec.
Open Scope Z_scope.

(** [g] has a cell that is negative, infinite or not a number, or its sum over some cell of a marginal is what is left there plus
    one, or more *)
Definition overshoots (cs : list con) (sizes : list Z) (rest : con -> list Z -> Z) (g : list Z -> double) : Prop :=
  (exists i, index_in sizes i /\ (is_finite (g i) = false \/ (B2R (g i) < 0)%R)) \/
  (exists c k, In c cs /\ index_in (c_sizes c) k /\ (IZR (rest c k) + 1 <= marginR sizes (c_dims c) k (fun i => B2R (g i)))%R).

(** the fit to [rest] gives up: none of 1000 rounds meets the tolerance, and [g] is the last of them *)
Definition gives_up (cs : list con) (sizes : list Z) (seed : list Z -> double) (rest : con -> list Z -> Z) (g : list Z -> double) : Prop :=
  let ds := map (fun c => GC (c_dims c) (c_sizes c) (fun k => d_ofZ (rest c k))) cs in
  (forall n, (1 <= n <= 1000)%nat -> ~ fits_all sizes ds (fitted sizes ds seed n)) /\
  forall i, index_in sizes i -> g i = fitted sizes ds seed 1000 i.
