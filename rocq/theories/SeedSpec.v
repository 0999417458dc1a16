(** Multiples of a seed. *)
From Coq Require Import Reals QArith Qcanon.
From Flocq Require Import Core.Core IEEE754.BinarySingleNaN.
From Verif Require Import Base Spec Float64.
Open Scope Z_scope.

(** numpy's a * 2.0**k *)
Definition times (k : Z) (a : ndarray double) : ndarray double := NDA (shape a) (map (fun x => d_mul x (d_lit 1 k)) (flat a)).

(** zero, or a positive number between 2^-200 and 2^200 *)
Definition moderate (x : double) : Prop :=
  x = d_zero \/ is_finite x = true /\ (bpow radix2 (-200) <= B2R x <= bpow radix2 200)%R.

(** the array multiplied by a rational *)
Definition timesQ (q : Qc) (a : ndarray Qc) : ndarray Qc := NDA (shape a) (map (Qcmult q) (flat a)).
