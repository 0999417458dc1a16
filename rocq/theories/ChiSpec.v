(** Vocabulary for the accuracy of the reported chi-squared statistic. *)
From Coq Require Import Reals.
From Flocq Require Import Core.Core IEEE754.BinarySingleNaN.
From Verif Require Import Base Spec Float64 RealSpec IpfRoundSpec.
Open Scope R_scope.

(** Pearson's statistic of the counts [n] against the expected values [e], without rounding *)
Definition pearsonR (n : list Z) (e : list double) : R :=
  sumR (map (fun '(n, e) => (IZR n - B2R e) ^ 2 / B2R e) (combine n e)).

(** a finite double between 2^-400 and 2^400 *)
Definition moderate (e : double) : Prop := is_finite e = true /\ bpow radix2 (-400) <= B2R e <= bpow radix2 400.

(** [chi] is Pearson's statistic of the N counts [n] up to N + 4 relative errors of 2^-52, and is zero exactly if each count
    is the expected value *)
Definition accurate (N : nat) (chi : double) (n : list Z) (e : list double) : Prop :=
  is_finite chi = true /\ 0 <= B2R chi /\ within (N + 4) (B2R chi) (pearsonR n e) /\ (B2R chi = 0 <-> map IZR n = map B2R e).
