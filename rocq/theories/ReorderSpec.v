(** Specification vocabulary for C88: lists of marginals in another order. *)
From Verif Require Import Base Spec SynthSpec.

(** two neighbours of the list are exchanged; every dimension they share occurs in a marginal before both *)
Definition exchanged (cs cs' : list con) : Prop :=
  exists pre c c' post, cs = pre ++ c :: c' :: post /\ cs' = pre ++ c' :: c :: post /\
    forall d, In d (c_dims c) -> In d (c_dims c') -> exists b, In b pre /\ In d (c_dims b).

(** any number of such exchanges *)
Inductive reordered : list con -> list con -> Prop :=
| re_refl cs : reordered cs cs
| re_step cs cs' cs'' : exchanged cs cs' -> reordered cs' cs'' -> reordered cs cs''.

(** no two marginals of the list share a dimension *)
Definition no_sharing (cs : list con) : Prop :=
  ForallOrdPairs (fun c c' => forall d, In d (c_dims c) -> In d (c_dims c') -> False) cs.
