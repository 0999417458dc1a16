(** Specification vocabulary for C72: boxes of the unit cube and even distribution of a block of points over them. *)
From Verif Require Import Base SobolTable SobolSpec SobolClaims.
Open Scope N_scope.

(** polynomial and degree belonging to a coordinate; coordinate 0 counts as the polynomial z *)
Definition poly (i : nat) : N := match i with O => 2 | S i' => nth i' sobol_a 0 end.
Definition degree (i : nat) : N := N.log2 (poly i).

(** A box constrains some coordinates: (i, k, v) asks that coordinate i, read as a fraction of 2^32, lies in
    [v / 2^k, (v + 1) / 2^k). *)
Definition box : Type := list (nat * N * N).
Definition in_box (p : list N) (b : box) : Prop :=
  forall i k v, In (i, k, v) b -> v * 2 ^ (32 - k) <= nth i p 0 < (v + 1) * 2 ^ (32 - k).
Definition is_box (dim : N) (b : box) : Prop :=
  NoDup (map (fun '(i, _, _) => i) b) /\
  forall i k v, In (i, k, v) b -> (i < N.to_nat dim)%nat /\ k <= 32 /\ v < 2 ^ k.

(** log2 of one over the volume of the box *)
Definition bits (b : box) : N := fold_right (fun '(_, k, _) s => k + s) 0 b.
(** the same with every side rounded up to a multiple of the degree of its coordinate *)
Definition span (b : box) : N := fold_right (fun '(i, k, _) s => degree i * ((k + degree i - 1) / degree i) + s) 0 b.

(** quality parameter of a set of coordinates: sum of the degrees less one *)
Definition quality (is : list nat) : N := fold_right (fun i s => degree i - 1 + s) 0 is.

(** exactly [count] of the 2^m points numbered t * 2^m .. (t + 1) * 2^m - 1 lie in the box *)
Definition block_count (dim m t : N) (b : box) (count : N) : Prop :=
  exists L : list N, NoDup L /\ N.of_nat (length L) = count /\
    forall n, In n L <-> t * 2 ^ m <= n < (t + 1) * 2 ^ m /\ exists p, nth_draw dim n = Ok p /\ in_box p b.

(** every one of the first d coordinates is confined to a half of the unit interval *)
Definition halves (d : nat) (b : box) : Prop := map (fun '(i, k, _) => (i, k)) b = map (fun i => (i, 1)) (seq 0 d).
(** the first quarter of the interval in each of seven coordinates *)
Definition quarters7 : box := map (fun i => (i, 2, 0)) (seq 0 7).
