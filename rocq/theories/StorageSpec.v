(** What C40 asks of arrays and of their users. *)
From Verif Require Import Base Spec NDArray Storage.
Open Scope Z_scope.

(** a shape that can be allocated *)
Definition good_shape (sizes : list Z) : Prop := sizes <> [] /\ positive sizes /\ prodZ sizes < 2 ^ 60.

Definition array (w : world) (i : nat) (o : obj) : Prop := nth_error (w_objs w) i = Some (Some o).
(** a live block of at least n elements *)
Definition usable (w : world) (p : option nat) (n : Z) : Prop :=
  exists b x, p = Some b /\ nth_error (w_heap w) b = Some x /\ b_live x = true /\ n <= b_size x.

(** the use of arrays that C40 is about.  An array is used only while it exists and not after it was moved from (its
    sizes are then empty); one that does not own its block is used only while the block lives; the caller deletes only
    blocks it has allocated or released; shapes are positive; and no resize runs out of memory (a constructor may). *)
Definition legal (c : op) (w : world) : Prop :=
  match c with
  | Default => True
  | Make sizes fail => sizes <> [] /\ positive sizes /\ prodZ sizes < 2 ^ 63
  | Extern sizes b => good_shape sizes /\ usable w (Some b) (prodZ sizes)
  | Move i => exists o, array w i o
  | Resize i sizes fail => good_shape sizes /\ fail = false /\ exists o, array w i o
  | Copy i j fail => fail = false /\ exists o o', array w i o /\ array w j o' /\ o_sizes o <> [] /\ o_ptr o <> o_ptr o' /\
      (o_owned o = true \/ usable w (o_ptr o) (o_storage o))
  | Release i => exists o, array w i o
  | Access i idx => exists o, array w i o /\ o_sizes o <> [] /\ index_in (o_sizes o) idx /\ (o_owned o = true \/ usable w (o_ptr o) (o_storage o))
  | Fill i => exists o, array w i o /\ (o_owned o = true \/ usable w (o_ptr o) (o_storage o))
  | Destroy i => exists o, array w i o
  | CallerNew n fail => 0 <= n
  | CallerDelete b => exists x, nth_error (w_heap w) b = Some x /\ b_live x = true /\ b_caller x = true
  end.
Fixpoint legal_history (ops : list op) (w : world) : Prop :=
  match ops with
  | [] => True
  | c :: ops' => legal c w /\ legal_history ops' (fst (step c w))
  end.

(** every array that owns its memory has a live block that is large enough and that it shares with no other owner *)
Definition sound (w : world) : Prop := forall i o, array w i o -> o_owned o = true ->
  (o_sizes o = [] \/ (good_shape (o_sizes o) /\ usable w (o_ptr o) (prodZ (o_sizes o)))) /\
  forall j o', array w j o' -> o_owned o' = true -> o_ptr o' = o_ptr o -> o_ptr o <> None -> i = j.
(** nothing is lost: a live block is the caller's or that of some array *)
Definition no_leak (w : world) : Prop := forall b x, nth_error (w_heap w) b = Some x -> b_live x = true -> b_caller x = false ->
  exists i o, array w i o /\ o_owned o = true /\ o_ptr o = Some b.
Definition all_destroyed (w : world) : Prop := forall i o, ~ array w i o.
