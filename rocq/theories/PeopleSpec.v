(** Specification vocabulary for a table of individuals: one column for each dimension, one row for each person. *)
From Verif Require Import Base Spec.
Open Scope Z_scope.

(** the categories of person [p], from the first dimension to the last *)
Definition person (cols : list (list Z)) (p : nat) : list Z := map (fun col => nth p col 0) cols.

(** how many of the first [n] people have the categories [k] in the dimensions [dims] *)
Definition head_count (cols : list (list Z)) (n : Z) (dims k : list Z) : Z :=
  Z.of_nat (length (filter (fun p => idx_eqb (proj dims (person cols p)) k) (seq 0 (Z.to_nat n)))).
