(** Specification vocabulary for C86: how many of the first points lie in a box with a corner at the origin. *)
From Verif Require Import Base SobolTable SobolSpec SobolClaims NetSpec.

(** A corner box asks of some coordinates that they lie below a threshold: (i, x) stands for coordinate i < x / 2^32. *)
Definition corner : Type := list (nat * N).
Definition is_corner (dim : N) (c : corner) : Prop :=
  NoDup (map fst c) /\ Forall (fun '(i, x) => (i < N.to_nat dim)%nat /\ (x <= 2 ^ 32)%N) c.

(** how many of points 1 .. n of the sequence lie in the box *)
Definition hits (dim : N) (n : nat) (c : corner) : Z :=
  Z.of_nat (length (filter (fun j => match nth_draw dim (N.of_nat j) with
                                     | Ok p => forallb (fun '(i, x) => (nth i p 0 <? x)%N) c
                                     | _ => false
                                     end) (seq 1 n))).

(** 2^32 to the number of constrained coordinates, and the volume of the box as a multiple of its inverse *)
Definition unit_of (c : corner) : Z := ((2 ^ 32) ^ Z.of_nat (length c))%Z.
Definition volume (c : corner) : Z := fold_right (fun '(_, x) v => (Z.of_N x * v)%Z) 1%Z c.
(** sum of the degrees of the polynomials of the coordinates *)
Definition degrees (c : corner) : Z := fold_right (fun '(i, _) s => (Z.of_N (degree i) + s)%Z) 0%Z c.

(** the number of hits differs from n times the volume by at most [e] *)
Definition off_by (dim : N) (n : nat) (c : corner) (e : Z) : Prop :=
  (Z.abs (hits dim n c * unit_of c - Z.of_nat n * volume c) <= e * unit_of c)%Z.
