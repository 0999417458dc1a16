(** Specification vocabulary for C87: calls of qis that ask for the same thing in other words. *)
From Coq Require Import Permutation.
From Verif Require Import Base Spec SynthSpec.
Open Scope Z_scope.

(** the same marginal of a table of the given sizes, with its dimensions perhaps listed in another order *)
Definition same_counts (sizes : list Z) (c c' : con) : Prop :=
  Permutation (c_dims c) (c_dims c') /\
  forall i, index_in sizes i -> c_at c' (proj (c_dims c') i) = c_at c (proj (c_dims c) i).

(** [adds_to sizes seen cs cs']: after marginals over the dimensions [seen], the list [cs'] is [cs] up to
    - marginals of [cs] with at most one dimension not seen before, written in another orientation,
    - additional marginals all of whose dimensions were seen before *)
Inductive adds_to (sizes : list Z) : list Z -> list con -> list con -> Prop :=
| add_nil seen : adds_to sizes seen [] []
| add_same seen c cs cs' : adds_to sizes (c_dims c ++ seen) cs cs' -> adds_to sizes seen (c :: cs) (c :: cs')
| add_turned seen c c' cs cs' : same_counts sizes c c' -> NoDup (c_dims c) ->
    (forall d d', In d (c_dims c) -> In d' (c_dims c) -> ~ In d seen -> ~ In d' seen -> d = d') ->
    adds_to sizes (c_dims c ++ seen) cs cs' -> adds_to sizes seen (c :: cs) (c' :: cs')
| add_idle seen c' cs cs' : incl (c_dims c') seen -> adds_to sizes seen cs cs' -> adds_to sizes seen cs (c' :: cs').
