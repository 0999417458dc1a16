(** Model of the array conversions and of flatten in the Python binding, src/module.cpp.
    A numpy argument is a C-contiguous [ndarray]; other memory layouts are in Strides.v, buffer lifetimes in
    Lifetime.v. *)
From Verif Require Import Base Spec NDArray Float64 ArrayOps.

(** src/module.cpp:73-78 asNDArray: NDArray(sizes, storage) over the numpy buffer (src/NDArray.h:39-54) *)
Definition as_nd {T} (a : ndarray T) : outcome (nd T) :=
  let* st := storage_size (shape a) in
  let* os := compute_offs st (shape a) in
  Ok (ND (shape a) os st (map Some (flat a))).

(** src/module.cpp:61-71 toNDArray: a new array and std::copy of all np.size() elements *)
Definition to_nd {T} (a : ndarray T) : outcome (nd T) :=
  let* t := nd_new (shape a) in
  if Z.of_nat (length (flat a)) <=? Z.of_nat (length (nd_data t))
  then Ok (ND (nd_sizes t) (nd_offs t) (nd_storage t) (map Some (flat a) ++ skipn (length (flat a)) (nd_data t)))
  else UB "copy out of bounds".

(** src/module.cpp:51-59 toVector (the py::array_t<int64_t> of dimension numbers, or a vector of doubles) *)
Definition to_vector {T} (a : ndarray T) : outcome (list T) :=
  if Nat.eqb (length (shape a)) 1 then Ok (flat a)
  else Throw (PyValueError "cannot convert multidimensional array to vector").

(** src/module.cpp:80-86 fromNDArray: a new numpy array with a copy of the data *)
Definition from_nd {T} (a : nd T) : outcome (ndarray T) :=
  let* vs := nd_values a in Ok (NDA (nd_sizes a) vs).

(** src/module.cpp:88-108 flatten; pop is a size_t accumulator.  The copy into Python lists keeps the values. *)
Definition flatten (a : ndarray Z) : outcome (list (list Z)) :=
  let* t := as_nd a in
  let* pop := index_loop (nd_sizes t) (fun i p => let* x := nd_get t i in Ok (u64 (p + x))) 0 in
  listify pop t 0.
