(** Outcomes of C++ code, machine integers and checked vectors.
    No file of /repo is modelled here; these are the C++ language notions the other files use. *)
From Coq Require Export String List ZArith NArith Lia Bool.
Export ListNotations.
Open Scope Z_scope.
#[global] Arguments Z.pow : simpl never.
#[global] Arguments Z.mul : simpl never.
#[global] Arguments Z.add : simpl never.
#[global] Arguments Z.sub : simpl never.
#[global] Arguments Z.of_nat : simpl never.

(** C++ exception classes that the code base throws, plus the two Python-side ones thrown explicitly
    through pybind11. *)
Inductive exn : Type :=
| RuntimeError (msg : string)      (* std::runtime_error *)
| RangeError (msg : string)        (* std::range_error, derives from std::runtime_error *)
| OutOfRange (msg : string)        (* std::out_of_range, derives from std::logic_error *)
| LengthError                      (* std::length_error, derives from std::logic_error *)
| BadAlloc                         (* std::bad_alloc / std::bad_array_new_length *)
| PyValueError (msg : string)      (* py::value_error *)
| PyStopIteration.                 (* py::stop_iteration *)

(** Result of running a piece of C++: a value, an exception, undefined behaviour, or no result within the
    loop bound given to the model. *)
Inductive outcome (A : Type) : Type :=
| Ok (a : A)
| Throw (e : exn)
| UB (why : string)
| Diverge.
Arguments Ok {A} a.
Arguments Throw {A} e.
Arguments UB {A} why.
Arguments Diverge {A}.

Definition bind {A B} (x : outcome A) (f : A -> outcome B) : outcome B :=
  match x with
  | Ok a => f a
  | Throw e => Throw e
  | UB w => UB w
  | Diverge => Diverge
  end.

Declare Scope outcome_scope.
Notation "'let*' x := e 'in' k" := (bind e (fun x => k))
  (at level 200, x name, e at level 100, k at level 200, right associativity) : outcome_scope.
Notation "'let*' ' p := e 'in' k" := (bind e (fun x => match x with p => k end))
  (at level 200, p pattern, e at level 100, k at level 200, right associativity) : outcome_scope.
Open Scope outcome_scope.

(** Sequential loop over a list of loop-variable values, threading the state. *)
Fixpoint foldM {A S} (f : A -> S -> outcome S) (l : list A) (s : S) : outcome S :=
  match l with
  | [] => Ok s
  | a :: l' => let* s' := f a s in foldM f l' s'
  end.

Fixpoint mapM {A B} (f : A -> outcome B) (l : list A) : outcome (list B) :=
  match l with
  | [] => Ok []
  | a :: l' => let* b := f a in let* bs := mapM f l' in Ok (b :: bs)
  end.

(** Machine integers. *)
Definition in_i64 (z : Z) : bool := (- 2 ^ 63 <=? z) && (z <? 2 ^ 63).
Definition in_i32 (z : Z) : bool := (- 2 ^ 31 <=? z) && (z <? 2 ^ 31).
Definition u64 (z : Z) : Z := z mod 2 ^ 64.
Definition u32 (z : Z) : Z := z mod 2 ^ 32.
(** signed 64-bit operations: overflow is undefined behaviour *)
Definition i64 (z : Z) : outcome Z := if in_i64 z then Ok z else UB "signed 64-bit overflow".
Definition i32 (z : Z) : outcome Z := if in_i32 z then Ok z else UB "signed 32-bit overflow".
Definition i64_add (x y : Z) : outcome Z := i64 (x + y).

(** std::vector element access: out of range is undefined behaviour. *)
Definition vec_get {A} (l : list A) (i : Z) : outcome A :=
  if 0 <=? i then
    match nth_error l (Z.to_nat i) with
    | Some a => Ok a
    | None => UB "vector index out of range"
    end
  else UB "vector index out of range".

Fixpoint upd {A} (l : list A) (n : nat) (a : A) : list A :=
  match l, n with
  | [], _ => []
  | _ :: l', O => a :: l'
  | x :: l', S n' => x :: upd l' n' a
  end.

Definition vec_set {A} (l : list A) (i : Z) (a : A) : outcome (list A) :=
  if (0 <=? i) && (i <? Z.of_nat (length l)) then Ok (upd l (Z.to_nat i) a)
  else UB "vector index out of range".

Definition is_ok {A} (x : outcome A) : bool := match x with Ok _ => true | _ => false end.
Definition not_UB {A} (x : outcome A) : Prop := forall w, x <> UB w.
(** the call ends: with a value or an exception, without undefined behaviour *)
Definition ends {A} (x : outcome A) : Prop := exists y, x = Ok y \/ exists e, x = Throw e.
