(** Vocabulary for the reported degeneracy. *)
From Coq Require Import Reals.
From Flocq Require Import Core.Core IEEE754.BinarySingleNaN.
From Verif Require Import Base Spec Float64 Stat StatSpec IpfRoundSpec.
Open Scope Z_scope.

(** N! / prod((a_k + 1)!) for the list of the N counts a *)
Definition cell_formula (a : list Z) : R := (IZR (factZ (Z.of_nat (length a))) / IZR (prodZ (map (fun x => factZ (x + 1)) a)))%R.

(** tgamma is right on n + 2 up to k relative errors of 2^-52: (n + 1)! *)
Definition tgamma_near (L : libm) (k : nat) (n : Z) : Prop :=
  is_finite (l_tgamma L (d_ofZ (n + 2))) = true /\ within k (B2R (l_tgamma L (d_ofZ (n + 2)))) (IZR (factZ (n + 1))).

(** the factors of [running_product] (StatSpec.v) *)
Definition cell_factors (L : libm) (n : list Z) : list double :=
  let cells := Z.of_nat (length n) in
  map (fun '(k, x) => d_div (d_ofZ (cells - k)) (l_tgamma L (d_ofZ (x + 2)))) (combine (zrange cells) n).

(** no factor and no product of the first factors overflows or is below 2^-1021 *)
Definition product_normal (L : libm) (n : list Z) : Prop :=
  Forall normal (cell_factors L n) /\
  forall pre post, cell_factors L n = pre ++ post -> normal (fold_left d_mul pre d_one).
