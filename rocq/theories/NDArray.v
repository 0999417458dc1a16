(** Model of src/NDArray.h (value semantics), src/Index.h, src/Index.cpp.
    Ownership, aliasing and lifetimes of the buffers are modelled separately (Lifetime.v).
    [assert]s are taken as compiled out (both the Python and the R builds define NDEBUG). *)
From Verif Require Import Base.

(** * NDArray *)

(** src/NDArray.h:250-254 the value members of an array.  [nd_data] is the block m_data points to ([] for the
    null pointer); a cell is [None] while uninitialised.  m_dim is [length nd_sizes].
    m_owned is true for every array of this file (see Lifetime.v for the others). *)
Record nd (T : Type) : Type := ND {
  nd_sizes : list Z;
  nd_offs : list Z;
  nd_storage : Z;
  nd_data : list (option T)
}.
Arguments ND {T}.
Arguments nd_sizes {T}.
Arguments nd_offs {T}.
Arguments nd_storage {T}.
Arguments nd_data {T}.

(** conversion size_t -> int64_t, two's complement *)
Definition s64 (z : Z) : Z := if u64 z <? 2 ^ 63 then u64 z else u64 z - 2 ^ 64.

(** src/NDArray.h:120-126 (also 43-49): m_storageSize = sizes[0]; m_storageSize *= sizes[i]; size_t arithmetic *)
Definition storage_size (sizes : list Z) : outcome Z :=
  match sizes with
  | [] => UB "sizes[0] of an empty vector"
  | s :: ss => Ok (fold_left (fun acc n => u64 (acc * u64 n)) ss (u64 s))
  end.

(** src/NDArray.h:205-214 computeOffsets: mult /= m_sizes[i] in size_t, stored as int64_t *)
Fixpoint compute_offs (mult : Z) (sizes : list Z) : outcome (list Z) :=
  match sizes with
  | [] => Ok []
  | n :: ns =>
      if u64 n =? 0 then UB "division by zero in computeOffsets"
      else let m := mult / u64 n in
           let* os := compute_offs m ns in Ok (s64 m :: os)
  end.

(** src/NDArray.h:238-241 allocate: new T[size] for the 8-byte element types used; a request of PTRDIFF_MAX
    bytes or more throws, any smaller one is assumed to succeed *)
Definition allocate {T} (n : Z) : outcome (list (option T)) :=
  if n <? 2 ^ 60 then Ok (repeat None (Z.to_nat n)) else Throw BadAlloc.

(** src/NDArray.h:29-31 the default constructor *)
Definition nd_empty {T} : nd T := ND [] [] 0 [].

(** src/NDArray.h:112-135 resize of an array owning its memory; no reallocation when the block is big enough *)
Definition nd_resize {T} (a : nd T) (sizes : list Z) : outcome (nd T) :=
  let* st := storage_size sizes in
  let* dat := (if nd_storage a <? st then allocate st else Ok (nd_data a)) in
  let* os := compute_offs st sizes in
  Ok (ND sizes os st dat).

(** src/NDArray.h:33-36 *)
Definition nd_new {T} (sizes : list Z) : outcome (nd T) := nd_resize nd_empty sizes.

(** src/NDArray.h:216-236 offset (both overloads; the pointer one is applied to the dereferenced pointers):
    m_offsets[i]*idx[i] is a signed product, the sum is size_t *)
Fixpoint offset_from (acc : Z) (offs idx : list Z) : outcome Z :=
  match offs, idx with
  | [], _ => Ok acc
  | o :: os, i :: is => let* p := i64 (o * i) in offset_from (u64 (acc + p)) os is
  | _ :: _, [] => UB "index vector shorter than the array dimension"
  end.
Definition nd_offset {T} (a : nd T) (idx : list Z) : outcome Z := offset_from 0 (nd_offs a) idx.

(** src/NDArray.h:147-185 operator[] used as an rvalue *)
Definition nd_get {T} (a : nd T) (idx : list Z) : outcome T :=
  let* o := nd_offset a idx in
  match nth_error (nd_data a) (Z.to_nat o) with
  | None => UB "array access out of bounds"
  | Some None => UB "read of uninitialised memory"
  | Some (Some v) => Ok v
  end.

(** src/NDArray.h:147-185 operator[] used as an lvalue *)
Definition nd_set {T} (a : nd T) (idx : list Z) (v : T) : outcome (nd T) :=
  let* o := nd_offset a idx in
  if o <? Z.of_nat (length (nd_data a))
  then Ok (ND (nd_sizes a) (nd_offs a) (nd_storage a) (upd (nd_data a) (Z.to_nat o) (Some v)))
  else UB "array write out of bounds".

(** src/NDArray.h:142-145 assign: std::fill of the first m_storageSize cells *)
Definition nd_assign {T} (a : nd T) (v : T) : outcome (nd T) :=
  if nd_storage a <=? Z.of_nat (length (nd_data a))
  then Ok (ND (nd_sizes a) (nd_offs a) (nd_storage a)
              (repeat (Some v) (Z.to_nat (nd_storage a)) ++ skipn (Z.to_nat (nd_storage a)) (nd_data a)))
  else UB "fill out of bounds".

(** begin()..end() read in order (src/NDArray.h:187-195) *)
Definition nd_values {T} (a : nd T) : outcome (list T) :=
  if nd_storage a <=? Z.of_nat (length (nd_data a))
  then mapM (fun c => match c with Some v => Ok v | None => UB "read of uninitialised memory" end)
            (firstn (Z.to_nat (nd_storage a)) (nd_data a))
  else UB "read out of bounds".

(** src/NDArray.h:62-66 copy: dest.resize, then std::copy of src's cells *)
Definition nd_copy {T} (src dest : nd T) : outcome (nd T) :=
  let* d := nd_resize dest (nd_sizes src) in
  let* vs := nd_values src in
  if Z.of_nat (length vs) <=? Z.of_nat (length (nd_data d))
  then Ok (ND (nd_sizes d) (nd_offs d) (nd_storage d) (map Some vs ++ skipn (length vs) (nd_data d)))
  else UB "copy out of bounds".

(** * Index and its variants *)

(** The carry loop shared by the four operator++ (src/Index.cpp:19-31, 78-90, 106-118, 171-183).
    [ds] lists (position in the index vector, size) in the order the loop visits them; the last one visited is
    the one whose wrap-around sets m_atEnd.  A zero-dimensional index visits nothing and never ends.
    ++m_idx[i] is not checked for overflow: in every call i is below the size of a dimension. *)
Fixpoint carry_loop (ds : list (Z * Z)) (idx : list Z) : outcome (list Z * bool) :=
  match ds with
  | [] => Ok (idx, false)
  | (d, n) :: ds' =>
      let* v := vec_get idx d in
      if negb (v + 1 =? n) then
        let* idx' := vec_set idx d (v + 1) in Ok (idx', false)
      else
        let* idx' := vec_set idx d 0 in
        match ds' with [] => Ok (idx', true) | _ => carry_loop ds' idx' end
  end.

Fixpoint numbered {A} (k : Z) (l : list A) : list (Z * A) :=
  match l with [] => [] | a :: l' => (k, a) :: numbered (k + 1) l' end.

(** src/Index.h:46-50 *)
Record index : Type := IX { ix_idx : list Z; ix_sizes : list Z; ix_end : bool }.

(** src/Index.cpp:10-17; m_storageSize is never read and not modelled *)
Definition index_new (sizes : list Z) : outcome index :=
  match sizes with
  | [] => UB "m_sizes[0] of an empty vector"
  | _ => Ok (IX (repeat 0 (length sizes)) sizes false)
  end.

(** src/Index.cpp:19-31 *)
Definition index_next (ix : index) : outcome index :=
  let* '(i, e) := carry_loop (rev (numbered 0 (ix_sizes ix))) (ix_idx ix) in
  Ok (IX i (ix_sizes ix) (ix_end ix || e)).

(** src/Index.cpp:78-90 TransposedIndex::operator++ *)
Definition tindex_next (ix : index) : outcome index :=
  let* '(i, e) := carry_loop (numbered 0 (ix_sizes ix)) (ix_idx ix) in
  Ok (IX i (ix_sizes ix) (ix_end ix || e)).

(** src/Index.h:85-90 MappedIndex: m_mappedIndex holds pointers into the main Index's vector, so the model keeps
    the positions pointed at ([mi_dims]) and threads the main vector explicitly *)
Record mindex : Type := MI { mi_dims : list Z; mi_sizes : list Z; mi_end : bool }.

(** src/Index.cpp:93-104 (dims cast to size_t by operator[]; a negative or too large one is out of range) *)
Definition mindex_new (ix : index) (dims : list Z) : outcome mindex :=
  let* szs := mapM (vec_get (ix_sizes ix)) dims in
  let* _p := mapM (vec_get (ix_idx ix)) dims in
  Ok (MI dims szs (ix_end ix)).

(** src/Index.cpp:106-118; returns the new main vector too, written through the pointers *)
Definition mindex_next (m : mindex) (main : list Z) : outcome (mindex * list Z) :=
  let* '(i, e) := carry_loop (rev (combine (mi_dims m) (mi_sizes m))) main in
  Ok (MI (mi_dims m) (mi_sizes m) (mi_end m || e), i).

(** dereferencing m_mappedIndex *)
Definition mindex_read (m : mindex) (main : list Z) : outcome (list Z) := mapM (vec_get main) (mi_dims m).

(** src/Index.h:117-122 FixedIndex, with the positions of the free dimensions instead of pointers *)
Record findex : Type := FI { fi_full : list Z; fi_free : list Z; fi_freesizes : list Z; fi_end : bool }.

(** the loop of src/Index.cpp:158-168; [j] counts the free positions found, m_freeSizes has [cap] elements *)
Fixpoint find_free (cap : Z) (pos : Z) (full sizes : list Z) (j : Z) : outcome (list Z * list Z * list Z) :=
  match full, sizes with
  | v :: vs, n :: ns =>
      if v =? -1 then
        if j <? cap then
          let* '(f, fr, fs) := find_free cap (pos + 1) vs ns (j + 1) in
          Ok (0 :: f, pos :: fr, n :: fs)
        else UB "m_freeSizes index out of range"
      else
        let* '(f, fr, fs) := find_free cap (pos + 1) vs ns j in
        Ok (v :: f, fr, fs)
  | _, _ => Ok ([], [], [])
  end.

(** src/Index.cpp:144-169.  m_freeSizes is created with sizes.size()-fixed.size() zeros ([cap]); if fewer free
    positions are found the remaining zeros stay.  fixed.size() > sizes.size() underflows size_t: length_error. *)
Definition findex_new (sizes : list Z) (fixed : list (Z * Z)) : outcome findex :=
  let* ix := index_new sizes in
  let cap := Z.of_nat (length sizes) - Z.of_nat (length fixed) in
  if cap <? 0 then Throw LengthError else
  let* full := foldM (fun '(d, v) full => vec_set full d v) fixed (repeat (-1) (length sizes)) in
  let* '(f, fr, fs) := find_free cap 0 full sizes 0 in
  Ok (FI f fr (fs ++ repeat 0 (Z.to_nat cap - length fs)) false).

(** src/Index.cpp:171-183 loops over m_freeDim positions (= length of m_freeSizes) *)
Definition findex_next (fx : findex) : outcome findex :=
  if Nat.eqb (length (fi_free fx)) (length (fi_freesizes fx)) then
    let* '(i, e) := carry_loop (rev (combine (fi_free fx) (fi_freesizes fx))) (fi_full fx) in
    Ok (FI i (fi_free fx) (fi_freesizes fx) (fi_end fx || e))
  else UB "m_freeIndex index out of range".

(** * Loops *)

(** for (Index i(sizes); !i.end(); ++i) body; [fuel] bounds the number of tests of the loop condition *)
Fixpoint index_loop_from {S} (fuel : nat) (body : list Z -> S -> outcome S) (ix : index) (s : S) : outcome S :=
  match fuel with
  | O => Diverge
  | S f =>
      if ix_end ix then Ok s
      else let* s' := body (ix_idx ix) s in
           let* ix' := index_next ix in
           index_loop_from f body ix' s'
  end.

(** The fuel always suffices when the sizes are positive (IndexProofs.index_loop_spec). *)
Definition loop_fuel (sizes : list Z) : nat :=
  S (Z.to_nat (fold_right (fun n acc => n * acc) 1 sizes)).

Definition index_loop {S} (sizes : list Z) (body : list Z -> S -> outcome S) (s : S) : outcome S :=
  let* ix := index_new sizes in index_loop_from (loop_fuel sizes) body ix s.

(** the same loop over a TransposedIndex *)
Fixpoint tindex_loop_from {S} (fuel : nat) (body : list Z -> S -> outcome S) (ix : index) (s : S) : outcome S :=
  match fuel with
  | O => Diverge
  | S f =>
      if ix_end ix then Ok s
      else let* s' := body (ix_idx ix) s in
           let* ix' := tindex_next ix in
           tindex_loop_from f body ix' s'
  end.
Definition tindex_loop {S} (sizes : list Z) (body : list Z -> S -> outcome S) (s : S) : outcome S :=
  let* ix := index_new sizes in tindex_loop_from (loop_fuel sizes) body ix s.

(** while (!m.end()) { body; ++m; } over a MappedIndex: the body sees the main index vector, which the mapped
    index modifies.  The loop ends with the main vector in the state the last ++ left it. *)
Fixpoint mindex_loop {S} (fuel : nat) (body : list Z -> S -> outcome S) (m : mindex) (main : list Z) (s : S)
  : outcome (list Z * S) :=
  match fuel with
  | O => Diverge
  | S f =>
      if mi_end m then Ok (main, s)
      else let* s' := body main s in
           let* '(m', main') := mindex_next m main in
           mindex_loop f body m' main' s'
  end.

(** for (; !fx.end(); ++fx) body(full index, free values) *)
Fixpoint findex_loop {S} (fuel : nat) (body : list Z -> list Z -> S -> outcome S) (fx : findex) (s : S)
  : outcome S :=
  match fuel with
  | O => Diverge
  | S f =>
      if fi_end fx then Ok s
      else let* fr := mapM (vec_get (fi_full fx)) (fi_free fx) in
           let* s' := body (fi_full fx) fr s in
           let* fx' := findex_next fx in
           findex_loop f body fx' s'
  end.
