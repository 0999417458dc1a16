(** Model of the array conversion and of flatten in the R binding, src/rcpp_api.cpp. *)
From Verif Require Import Base Spec NDArray Float64 ArrayOps.

(** [Spec.rarray] is the R argument; [Spec.col_sizes] is src/rcpp_api.cpp:38-48 (and 71-79). *)

(** src/rcpp_api.cpp:35-60 convertArray *)
Definition convert_array {T} (a : rarray T) : outcome (nd T) :=
  let sizes := col_sizes a in
  let* arr0 := nd_new sizes in
  let* '(arr, _) :=
    tindex_loop sizes
      (fun idx '(arr, i) =>
         let* x := vec_get (r_data a) i in
         let* arr' := nd_set arr idx x in
         Ok (arr', i + 1)) (arr0, 0) in
  Ok arr.

(** src/rcpp_api.cpp:482-499 R's flatten without the column names; pop is int64_t, cast to size_t by listify *)
Definition r_flatten (a : rarray Z) : outcome (list (list Z)) :=
  let* t := convert_array a in
  let* pop := nd_sum IntOps t in
  listify pop t 1.
