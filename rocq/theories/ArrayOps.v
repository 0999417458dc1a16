(** Model of src/NDArrayUtils.h. *)
From Verif Require Import Base NDArray Float64.

(** The arithmetic of the template parameter T, as far as this file needs it. *)
Record NumOps (T : Type) : Type := {
  n_zero : T;
  n_add : T -> T -> outcome T;
  n_sub : T -> T -> outcome T;
  n_mul : T -> T -> outcome T;
  n_ltb : T -> T -> bool;
  n_eqb : T -> T -> bool;
  n_max : T;                       (* std::numeric_limits<T>::max() *)
  n_close : T -> T -> bool         (* the element test of allclose, see below *)
}.
Arguments n_zero {T}. Arguments n_add {T}. Arguments n_sub {T}. Arguments n_mul {T}.
Arguments n_ltb {T}. Arguments n_eqb {T}. Arguments n_max {T}. Arguments n_close {T}.

(** T = int64_t: signed arithmetic with undefined overflow; the generic allclose (src/NDArrayUtils.h:229-233)
    compares with == *)
Definition IntOps : NumOps Z := {|
  n_zero := 0;
  n_add := fun x y => i64 (x + y);
  n_sub := fun x y => i64 (x - y);
  n_mul := fun x y => i64 (x * y);
  n_ltb := Z.ltb;
  n_eqb := Z.eqb;
  n_max := 2 ^ 63 - 1;
  n_close := Z.eqb
|}.

(** the double 1e-8 (src/NDArrayUtils.h:230) *)
Definition d_1em8 : double := d_lit 0x15798ee2308c3a (-79).

(** T = double; allclose is specialised (src/NDArrayUtils.h:235-247): fails when fabs(a-b) > 1e-8 *)
Definition DblOps : NumOps double := {|
  n_zero := d_zero;
  n_add := fun x y => Ok (d_add x y);
  n_sub := fun x y => Ok (d_sub x y);
  n_mul := fun x y => Ok (d_mul x y);
  n_ltb := d_ltb;
  n_eqb := d_eqb;
  n_max := d_max;
  n_close := fun x y => negb (d_ltb d_1em8 (d_abs (d_sub x y)))
|}.

Section Ops.
Context {T : Type} (O : NumOps T).

(** src/NDArrayUtils.h:27-31 sum(vector): std::accumulate from T(0), left to right *)
Definition vec_sum (v : list T) : outcome T := foldM (fun x acc => n_add O acc x) v (n_zero O).

(** src/NDArrayUtils.h:39-43 sum(NDArray) *)
Definition nd_sum (a : nd T) : outcome T := let* v := nd_values a in vec_sum v.

(** src/NDArrayUtils.h:45-54 min: std::min(minVal, a[i]) is a[i] if a[i] < minVal, else minVal *)
Definition nd_min (a : nd T) : outcome T :=
  index_loop (nd_sizes a)
    (fun i mv => let* x := nd_get a i in Ok (if n_ltb O x mv then x else mv)) (n_max O).

(** src/NDArrayUtils.h:56-65 max: the body is that of min *)
Definition nd_maxfn (a : nd T) : outcome T :=
  index_loop (nd_sizes a)
    (fun i mv => let* x := nd_get a i in Ok (if n_ltb O x mv then x else mv)) (n_max O).

(** src/NDArrayUtils.h:90-99 isZero (v[i] != 0) *)
Definition is_zero_vec (v : list T) : bool := forallb (fun x => n_eqb O x (n_zero O)) v.

(** src/NDArrayUtils.h:101-112 marginalProduct *)
Definition marginal_product (one : T) (m : list (list T)) (idx : list Z) : outcome T :=
  foldM (fun '(d, row) p => let* i := vec_get idx d in let* x := vec_get row i in n_mul O p x)
        (numbered 0 m) one.

(** src/NDArrayUtils.h:116-136 reduce to a vector of sums along one dimension.
    The vector has size(orient) zeros; the message text of the exception is abbreviated. *)
Definition reduce1 (a : nd T) (orient : Z) : outcome (list T) :=
  if negb (u64 orient <? Z.of_nat (length (nd_sizes a))) then
    Throw (RuntimeError "reduce dimension greater than array dimension")
  else
    let* n := vec_get (nd_sizes a) orient in
    index_loop (nd_sizes a)
      (fun i sums =>
         let* k := vec_get i orient in
         let* x := nd_get a i in
         let* s := vec_get sums k in
         let* s' := n_add O s x in
         vec_set sums k s')
      (repeat (n_zero O) (Z.to_nat n)).

(** src/NDArrayUtils.h:140-164 reduce to the preserved dimensions *)
Definition reduce (a : nd T) (dims : list Z) : outcome (nd T) :=
  let* szs := mapM (vec_get (nd_sizes a)) dims in
  let* r0 := nd_new szs in
  let* r := nd_assign r0 (n_zero O) in
  let* ix := index_new (nd_sizes a) in
  let* m := mindex_new ix dims in
  index_loop (nd_sizes a)
    (fun i r =>
       let* k := mindex_read m i in
       let* x := nd_get a i in
       let* s := nd_get r k in
       let* s' := n_add O s x in
       nd_set r k s')
    r.

(** src/NDArrayUtils.h:174-201 slice *)
Definition slice (a : nd T) (fixed : list (Z * Z)) : outcome (nd T) :=
  let* _chk := foldM (fun '(d, v) (_ : unit) =>
      if Z.of_nat (length (nd_sizes a)) <=? u64 d then Throw (RuntimeError "dimension out of bounds in slice")
      else let* n := vec_get (nd_sizes a) d in
           if n <=? v then Throw (RuntimeError "index out of bounds in slice") else Ok tt) fixed tt in
  match fixed with
  | [] =>
      let* c := nd_new (nd_sizes a) in
      let* vs := nd_values a in
      if Z.of_nat (length vs) <=? Z.of_nat (length (nd_data c))
      then Ok (ND (nd_sizes c) (nd_offs c) (nd_storage c) (map Some vs ++ skipn (length vs) (nd_data c)))
      else UB "copy out of bounds"
  | _ =>
      let* fx := findex_new (nd_sizes a) fixed in
      let* s := nd_new (fi_freesizes fx) in
      findex_loop (loop_fuel (fi_freesizes fx))
        (fun full fr s => let* x := nd_get a full in nd_set s fr x) fx s
  end.

(** src/NDArrayUtils.h:229-247 allclose; the generic version compares sizes through vector == *)
Definition allclose (a b : list T) : bool :=
  Nat.eqb (length a) (length b) && forallb (fun '(x, y) => n_close O x y) (combine a b).

End Ops.

(** src/NDArrayUtils.h:15-23 diff(x,y,d): d[i] = x[i] - y[i], with x,y converted to the common type of T and U *)
Definition diff {T U} (sub : T -> U -> outcome double) (x : nd T) (y : nd U) (d : nd double)
  : outcome (nd double) :=
  index_loop (nd_sizes x)
    (fun i d => let* a := nd_get x i in let* b := nd_get y i in let* e := sub a b in nd_set d i e) d.

(** src/NDArrayUtils.h:204-227 listify for T = int64_t.  The result has dim columns of pop ints, initially 0.
    [pop] arrives as size_t; vector<int>(pop) throws length_error when 4*pop exceeds PTRDIFF_MAX.
    static_cast<int> of an index is exact because sizes are at most 2^31 in the theorems; offset + index is a
    32-bit signed sum. *)
Definition listify (pop : Z) (t : nd Z) (offset : Z) : outcome (list (list Z)) :=
  if 2 ^ 61 <=? u64 pop then Throw LengthError else
  let list0 := repeat (repeat 0 (Z.to_nat (u64 pop))) (length (nd_sizes t)) in
  let* '(l, _) :=
    index_loop (nd_sizes t)
      (fun i st =>
         let* x := nd_get t i in
         foldM (fun _ '(l, p) =>
                  let* l' := foldM (fun '(j, v) l =>
                                      let* col := vec_get l j in
                                      let* w := i32 (offset + v) in
                                      let* col' := vec_set col p w in
                                      vec_set l j col') (numbered 0 i) l in
                  Ok (l', p + 1))
               (repeat tt (Z.to_nat x)) st)
      (list0, 0) in
  Ok l.
