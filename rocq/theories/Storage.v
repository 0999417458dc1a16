(** Ownership of the blocks behind src/NDArray.h: constructors, move, resize, copy, release and destructor as operations
    on a heap.  The elements themselves are those of NDArray.v and are left out here.
    Simplifications: an address is not used again after it is freed; copying the vectors m_sizes and m_offsets does not
    fail; whether an allocation fails is part of the operation ([fail]). *)
From Verif Require Import Base NDArray.
Open Scope Z_scope.

(** a block of elements.  [b_caller]: the caller has to delete it, having allocated it or taken it over by release();
    this is bookkeeping for the properties, no operation depends on it. *)
Record blk : Type := BLK { b_size : Z; b_live : bool; b_caller : bool }.

(** src/NDArray.h:250-255 the members of an array; the null pointer is [None] *)
Record obj : Type := OBJ {
  o_dim : nat; o_sizes : list Z; o_offs : list Z; o_storage : Z; o_ptr : option nat; o_owned : bool
}.

(** [None] is an array that has been destroyed *)
Record world : Type := W { w_heap : list blk; w_objs : list (option obj) }.

(** new T[size], as in NDArray.allocate *)
Definition new_block (caller fail : bool) (n : Z) (h : list blk) : outcome (list blk * nat) :=
  if fail || (2 ^ 60 <=? n) then Throw BadAlloc else Ok (h ++ [BLK n true caller], length h).

(** src/NDArray.h:243-246 deallocate: delete [] p; no effect on the null pointer *)
Definition delete_block (p : option nat) (h : list blk) : outcome (list blk) :=
  match p with
  | None => Ok h
  | Some b =>
      match nth_error h b with
      | None => UB "delete of a wild pointer"
      | Some x => if b_live x then Ok (upd h b (BLK (b_size x) false (b_caller x))) else UB "double free"
      end
  end.

(** using the elements [lo, hi) behind a pointer *)
Definition touch (h : list blk) (p : option nat) (lo hi : Z) : outcome unit :=
  if hi <=? lo then Ok tt
  else match p with
       | None => UB "null pointer dereferenced"
       | Some b =>
           match nth_error h b with
           | None => UB "wild pointer dereferenced"
           | Some x =>
               if negb (b_live x) then UB "use after free"
               else if (0 <=? lo) && (hi <=? b_size x) then Ok tt else UB "access out of bounds"
           end
       end.

(** what an operation leaves: also after an exception the heap and the array are in some state *)
Definition bind_w {A B S} (x : outcome A) (s : S) (f : A -> S * outcome B) : S * outcome B :=
  match x with
  | Ok a => f a
  | Throw e => (s, Throw e)
  | UB w => (s, UB w)
  | Diverge => (s, Diverge)
  end.

(** src/NDArray.h:112-140 resize.  The members are assigned as the code goes: the block is deleted before the new one
    is allocated, after m_sizes and m_storageSize have been set. *)
Definition resize_obj (fail : bool) (o : obj) (sizes : list Z) (h : list blk) : (list blk * obj) * outcome unit :=
  if o_owned o then
    bind_w (storage_size sizes) (h, o) (fun st =>
      let o1 := OBJ (length sizes) sizes (o_offs o) st (o_ptr o) true in
      let after (h : list blk) (p : option nat) :=
        bind_w (compute_offs st sizes) (h, OBJ (length sizes) sizes (o_offs o) st p true) (fun os =>
          ((h, OBJ (length sizes) sizes os st p true), Ok tt)) in
      if o_storage o <? st then
        bind_w (delete_block (o_ptr o) h) (h, o1) (fun h1 =>
          bind_w (new_block false fail st h1) (h1, o1) (fun '(h2, b) => after h2 (Some b)))
      else after h (o_ptr o))
  else ((h, o), Throw (RuntimeError "resizing not permitted when memory is not owned")).

(** src/NDArray.h:29-31 *)
Definition default_obj : obj := OBJ 0 [] [] 0 None true.

(** src/NDArray.h:216-225 offset: the loop runs to m_dim *)
Definition offset_obj (o : obj) (idx : list Z) : outcome Z :=
  if Nat.ltb (length (o_offs o)) (o_dim o) then UB "m_offsets shorter than m_dim" else offset_from 0 (firstn (o_dim o) (o_offs o)) idx.

Inductive op : Type :=
| Default                                          (* NDArray() *)
| Make (sizes : list Z) (fail : bool)              (* NDArray(sizes) *)
| Extern (sizes : list Z) (b : nat)                (* NDArray(sizes, storage) *)
| Move (i : nat)                                   (* NDArray(NDArray&&) *)
| Resize (i : nat) (sizes : list Z) (fail : bool)
| Copy (i j : nat) (fail : bool)                   (* NDArray::copy(src, dest) *)
| Release (i : nat)
| Access (i : nat) (idx : list Z)                  (* operator[] *)
| Fill (i : nat)                                   (* assign, begin() to end() *)
| Destroy (i : nat)                                (* ~NDArray() *)
| CallerNew (n : Z) (fail : bool)                  (* new T[n] by the caller *)
| CallerDelete (b : nat).                          (* delete [] by the caller *)

Definition with_obj {A} (w : world) (i : nat) (f : obj -> world * outcome A) : world * outcome A :=
  match nth_error (w_objs w) i with
  | Some (Some o) => f o
  | _ => (w, UB "use of an object outside its lifetime")
  end.
Definition put_obj (i : nat) (o : obj) (l : list (option obj)) : list (option obj) := upd l i (Some o).
Definition mark_caller (p : option nat) (h : list blk) : list blk :=
  match p with
  | Some b => match nth_error h b with Some x => upd h b (BLK (b_size x) (b_live x) true) | None => h end
  | None => h
  end.

Definition step (c : op) (w : world) : world * outcome unit :=
  let '(W h l) := w in
  match c with
  | Default => (W h (l ++ [Some default_obj]), Ok tt)
  (* 33-36: an exception leaves no object, and its destructor does not run *)
  | Make sizes fail =>
      match resize_obj fail (OBJ (length sizes) sizes [] 0 None true) sizes h with
      | ((h', o), Ok _) => (W h' (l ++ [Some o]), Ok tt)
      | ((h', _), x) => (W h' l, x)
      end
  (* 39-54 *)
  | Extern sizes b =>
      bind_w (let* st := storage_size sizes in let* os := compute_offs st sizes in Ok (st, os)) w (fun '(st, os) =>
        (W h (l ++ [Some (OBJ (length sizes) sizes os st (Some b) false)]), Ok tt))
  (* 69-78: the source keeps m_dim, m_storageSize and m_data *)
  | Move i => with_obj w i (fun o =>
      (W h (put_obj i (OBJ (o_dim o) [] [] (o_storage o) (o_ptr o) false) l ++ [Some o]), Ok tt))
  | Resize i sizes fail => with_obj w i (fun o =>
      let '((h', o'), x) := resize_obj fail o sizes h in (W h' (put_obj i o' l), x))
  (* 62-66 *)
  | Copy i j fail => with_obj w i (fun src => with_obj w j (fun dest =>
      let '((h', dest'), x) := resize_obj fail dest (o_sizes src) h in
      let w' := W h' (put_obj j dest' l) in
      bind_w x w' (fun _ =>
        let src' := if Nat.eqb i j then dest' else src in
        bind_w (let* _ := touch h' (o_ptr src') 0 (o_storage src') in touch h' (o_ptr dest') 0 (o_storage src')) w' (fun _ =>
          (w', if match o_ptr src', o_ptr dest' with Some b, Some b' => Nat.eqb b b' | _, _ => false end
               then UB "std::copy onto its own range" else Ok tt)))))
  (* 198-201 *)
  | Release i => with_obj w i (fun o =>
      (W (if o_owned o then mark_caller (o_ptr o) h else h)
         (put_obj i (OBJ (o_dim o) (o_sizes o) (o_offs o) (o_storage o) (o_ptr o) false) l), Ok tt))
  (* 147-185 *)
  | Access i idx => with_obj w i (fun o => (w, let* k := offset_obj o idx in touch h (o_ptr o) k (k + 1)))
  (* 142-145, 187-195 *)
  | Fill i => with_obj w i (fun o => (w, touch h (o_ptr o) 0 (o_storage o)))
  (* 80-84 *)
  | Destroy i => with_obj w i (fun o =>
      bind_w (if o_owned o then delete_block (o_ptr o) h else Ok h) w (fun h' => (W h' (upd l i None), Ok tt)))
  | CallerNew n fail => bind_w (new_block true fail n h) w (fun '(h', _) => (W h' l, Ok tt))
  | CallerDelete b => bind_w (delete_block (Some b) h) w (fun h' => (W h' l, Ok tt))
  end.

(** a history; exceptions are caught and the history goes on *)
Fixpoint run (ops : list op) (w : world) : world * outcome unit :=
  match ops with
  | [] => (w, Ok tt)
  | c :: ops' =>
      match step c w with
      | (w', Ok _) | (w', Throw _) => run ops' w'
      | r => r
      end
  end.
Definition start : world := W [] [].
