(** Constraints listed so that each meets its predecessors inside one of them, and agreement of constraints on what they share. *)
From Verif Require Import Base Spec SynthSpec.
Open Scope Z_scope.

(** no index list repeats a dimension, and the dimensions each constraint shares with those listed before it all belong to
    a single one of these *)
Definition decomposable (cs : list con) : Prop :=
  (forall c, In c cs -> NoDup (c_dims c)) /\
  (forall pre c post, cs = pre ++ c :: post -> pre <> [] ->
     exists p, In p pre /\ forall d, In d (c_dims c) -> (exists c', In c' pre /\ In d (c_dims c')) -> In d (c_dims p)).

(** two constraints give the same numbers for every choice of dimensions ([js], [js'] are axes) that both have *)
Definition agree_on_shared (cs : list con) : Prop :=
  forall c c' js js' v, In c cs -> In c' cs ->
    Forall (fun j => 0 <= j < Z.of_nat (length (c_dims c))) js -> Forall (fun j => 0 <= j < Z.of_nat (length (c_dims c'))) js' ->
    proj js (c_dims c) = proj js' (c_dims c') ->
    margin (c_sizes c) js v (c_at c) = margin (c_sizes c') js' v (c_at c').

(** some integer table (negative entries allowed) has all the marginals *)
Definition feasible (cs : list con) : Prop := exists sizes r, implied cs sizes /\ forall c, In c cs -> meets sizes r c.
