(** Model of sobolSequence of the R binding, src/rcpp_api.cpp. *)
From Verif Require Import Base Float64 Sobol Qis.
Open Scope Z_scope.

(** src/rcpp_api.cpp:462-463, one row: s() * scale for each of the columns; scale (line 455) is 0.5 / 2^31, the
    constant [qis_scale] *)
Fixpoint r_sobol_row (dim : nat) (s : sobol) : outcome (sobol * list double) :=
  match dim with
  | O => Ok (s, [])
  | S dim' =>
      let* '(s, u) := sobol_call s in
      let* '(s, r) := r_sobol_row dim' s in
      Ok (s, unit_of u :: r)
  end.

(** src/rcpp_api.cpp:461-463; every element of the matrix is assigned once, so the matrix is given by its rows *)
Fixpoint r_sobol_rows (n dim : nat) (s : sobol) : outcome (list (list double)) :=
  match n with
  | O => Ok []
  | S n' =>
      let* '(s, r) := r_sobol_row dim s in
      let* rs := r_sobol_rows n' dim s in
      Ok (r :: rs)
  end.

(** src/rcpp_api.cpp:453-466 sobolSequence.  All three arguments are int.  Rcpp's NumericMatrix(n, dim) computes the
    number of elements in int and R refuses to allocate a negative extent; which R error is raised is not
    distinguished.  dim is then converted to size_t and skip to uint32_t. *)
Definition r_sobol_sequence (fuel : nat) (dim n skip : Z) : outcome (list (list double)) :=
  if n * dim <? 2 ^ 31 then
    if (n <? 0) || (dim <? 0) then Throw (RuntimeError "negative extent")
    else
      let* s := sobol_new fuel (Z.to_N dim) (Z.to_N (u32 skip)) in
      r_sobol_rows (Z.to_nat n) (Z.to_nat dim) s
  else UB "int overflow in the size of the matrix".
