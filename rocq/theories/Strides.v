(** The array conversions of src/module.cpp on numpy arrays of any memory layout: they take the address of the
    first element and the shape, and ignore the strides.  (py::array_t<T> without the c_style flag accepts any
    layout when the dtype already matches.) *)
From Verif Require Import Base Spec NDArray.

(** src/module.cpp:73-78 asNDArray over the memory from the first element on (src/NDArray.h:39-54).  Reading in
    front of the buffer's start is impossible here since offsets are unsigned; reading past its end is UB. *)
Definition as_nd_np {T} (a : nparray T) : outcome (nd T) :=
  let* st := storage_size (np_shape a) in
  let* os := compute_offs st (np_shape a) in
  Ok (ND (np_shape a) os st (map Some (skipn (Z.to_nat (np_base a)) (np_buf a)))).

(** src/module.cpp:61-71 toNDArray: std::copy of the size() elements following the first one *)
Definition to_nd_np {T} (a : nparray T) : outcome (nd T) :=
  let* t := nd_new (np_shape a) in
  let n := Z.to_nat (nd_storage t) in
  let src := firstn n (skipn (Z.to_nat (np_base a)) (np_buf a)) in
  if Nat.eqb (length src) n
  then Ok (ND (nd_sizes t) (nd_offs t) (nd_storage t) (map Some src ++ skipn n (nd_data t)))
  else UB "read past the end of the numpy buffer".
