(** Specification of the individuals qis samples: each coordinate of a Sobol point selects the value of one dimension
    from the distribution of what is left of a marginal, given the values already selected. *)
From Verif Require Import Base Spec SynthSpec.
Open Scope Z_scope.

(** value [k] is the first of 0..n-1 whose cumulative weight exceeds the fraction u / 2^32 of the total weight *)
Definition selects (w : Z -> Z) (n : Z) (u : N) (k : Z) : Prop :=
  let cum j := sumZ (map w (zrange j)) in
  0 <= k < n /\ Z.of_N u * cum n < 2 ^ 32 * cum (k + 1) /\
  forall j, 0 <= j < k -> 2 ^ 32 * cum (j + 1) <= Z.of_N u * cum n.

(** the cell [x] of an array over the dimensions [dims] does not contradict the (non-negative) values in [main] *)
Definition compatible (dims main x : list Z) : bool :=
  forallb (fun '(d, v) => (nth (Z.to_nat d) main 0 <? 0) || (v =? nth (Z.to_nat d) main 0)) (combine dims x).

(** what is left, [rest], of the marginal of [c], summed over the cells not contradicting [main] *)
Definition weight (c : con) (rest : list Z -> Z) (main : list Z) : Z :=
  sum_where (c_sizes c) (compatible (c_dims c) main) rest.

(** the dimensions of [c] without a value, last first *)
Definition missing (c : con) (main : list Z) : list Z :=
  rev (filter (fun d => nth (Z.to_nat d) main 0 <? 0) (c_dims c)).

(** giving values to the dimensions [ds] one by one *)
Inductive fills (c : con) (sizes : list Z) (rest : list Z -> Z) (p : list N) : list Z -> list Z -> list Z -> Prop :=
| fills_nil main : fills c sizes rest p [] main main
| fills_cons d ds main k main' :
    selects (fun v => weight c rest (upd main (Z.to_nat d) v)) (nth (Z.to_nat d) sizes 0) (nth (Z.to_nat d) p 0%N) k ->
    fills c sizes rest p ds (upd main (Z.to_nat d) k) main' -> fills c sizes rest p (d :: ds) main main'.

(** one individual: constraint after constraint *)
Inductive individual (sizes : list Z) (rest : con -> list Z -> Z) (p : list N) : list con -> list Z -> list Z -> Prop :=
| ind_nil main : individual sizes rest p [] main main
| ind_cons c cs main main' main'' : fills c sizes (rest c) p (missing c main) main main' ->
    individual sizes rest p cs main' main'' -> individual sizes rest p (c :: cs) main main''.

(** how many members of a population have the values [k] in the dimensions [dims] *)
Definition tally (dims k : list Z) (people : list (list Z)) : Z :=
  Z.of_nat (length (filter (fun x => idx_eqb (proj dims x) k) people)).

(** what a population leaves of a marginal *)
Definition left_of (people : list (list Z)) (c : con) (k : list Z) : Z := c_at c k - tally (c_dims c) k people.

(** how often a state occurs in a population *)
Definition occurrences (i : list Z) (people : list (list Z)) : Z := Z.of_nat (length (filter (idx_eqb i) people)).

(** [people] are sampled one after the other, the t-th with the point [points t] from what the ones before it left *)
Definition sampled (cs : list con) (sizes : list Z) (points : nat -> list N) (people : list (list Z)) : Prop :=
  forall t x, nth_error people t = Some x ->
    individual sizes (left_of (firstn t people)) (points t) cs (repeat (-1) (length sizes)) x.
