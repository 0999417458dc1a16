(** Property C32: every outcome of flatten. *)
From Coq Require Import Sorted.
From Verif Require Import Base Spec NDArray Bind FlatTotal.
Open Scope Z_scope.

(** p is the sum of the entries as size_t, w the number of rows written.  flatten raises std::length_error if p is 2^61 or
    more, writes past the end of its columns if w is larger than p, and otherwise returns the rows, in order, followed by
    zeros *)
Theorem C32_outcomes : forall (a : ndarray Z), wf_array a -> prodZ (shape a) < 2 ^ 60 -> Forall (fun n => n <= 2 ^ 31) (shape a) ->
  let p := total (shape a) (entry 0 a) mod 2 ^ 64 in
  let w := total (shape a) (fun i => Z.max 0 (entry 0 a i)) in
  (2 ^ 61 <= p -> flatten a = Throw LengthError) /\
  (p < 2 ^ 61 -> p < w -> flatten a = UB "vector index out of range") /\
  (p < 2 ^ 61 -> w <= p -> exists rows,
     flatten a = Ok (map (fun j => map (fun r => nth j r 0) rows ++ repeat 0 (Z.to_nat (p - w))) (seq 0 (length (shape a)))) /\
     Z.of_nat (length rows) = w /\ Forall (index_in (shape a)) rows /\
     (forall i, index_in (shape a) i -> Z.of_nat (count_occ (list_eq_dec Z.eq_dec) rows i) = Z.max 0 (entry 0 a i)) /\
     StronglySorted lex_le rows).
Proof. exact flatten_outcome_claim. Qed.
Print Assumptions C32_outcomes.
(** the three outcomes; the last array has entries that cancel modulo 2^64 *)
Example C32_outcomes_ex : flatten (NDA [3] [2; -5; 1]) = Throw LengthError /\
  flatten (NDA [3] [2; -1; 1]) = UB "vector index out of range" /\
  flatten (NDA [4] [2; - 2 ^ 63; 1; - 2 ^ 63]) = Ok [[0; 0; 2]].
Proof. vm_compute. auto. Qed.

(** so with one negative entry it is undefined behaviour exactly if the sum is not negative *)
Theorem C32_negative_refuted : forall (a : ndarray Z) i, wf_array a -> prodZ (shape a) < 2 ^ 60 -> Forall (fun n => n <= 2 ^ 31) (shape a) ->
  index_in (shape a) i -> entry 0 a i < 0 -> - 2 ^ 63 <= total (shape a) (entry 0 a) < 2 ^ 61 ->
  flatten a = if total (shape a) (entry 0 a) <? 0 then Throw LengthError else UB "vector index out of range".
Proof. exact flatten_negative_claim. Qed.
Print Assumptions C32_negative_refuted.
Example C32_negative_ex : wf_array (NDA [2; 2] [3; 0; -1; 4]) /\ entry 0 (NDA [2; 2] [3; 0; -1; 4]) [1; 0] = -1 /\
  total [2; 2] (entry 0 (NDA [2; 2] [3; 0; -1; 4])) = 6.
Proof. repeat split; [discriminate|repeat constructor]. Qed.
