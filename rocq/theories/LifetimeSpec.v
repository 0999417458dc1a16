(** What C18 and C39 say about the memory of a call. *)
From Verif Require Import Base Spec NDArray Bind Lifetime.
Open Scope Z_scope.

Section Memory.
Context {T : Type}.
Implicit Types (h : mem T) (arg : pyarg T).

(** the value of an argument: the elements of its buffer *)
Definition values_of (l : list (option T)) : list T := flat_map (fun c => match c with Some v => [v] | None => [] end) l.
Definition value h arg : ndarray T :=
  match arg with
  | Converted a => a
  | Same b => match nth_error h b with Some x => NDA (bk_shape x) (values_of (bk_cells x)) | None => NDA [] [] end
  end.
(** the caller holds a reference to the arrays it passes, and they are initialised *)
Definition held h arg : Prop :=
  match arg with
  | Converted _ => True
  | Same b => exists x, nth_error h b = Some x /\ 0 < bk_refs x /\ Forall (fun c => c <> None) (bk_cells x)
  end.
Definition freed (x : block T) : Prop := bk_refs x = 0.
(** the array is used as it is, without conversion *)
Definition shared arg : Prop := match arg with Same _ => True | Converted _ => False end.
(** the call ends, with a result or an exception *)
Definition completes {A} (o : outcome A) : Prop := match o with Ok _ | Throw _ => True | _ => False end.
(** every block of the caller is as before, contents and references, and whatever was allocated is freed *)
Definition unchanged h (h' : mem T) : Prop := exists ext, h' = h ++ ext /\ Forall freed ext.
End Memory.
