(** Model of qis, qisi, ipf and integerise of the R binding, src/rcpp_api.cpp.
    R vectors are modelled as in RArray.v.  The seed of ipf and qisi and the argument of integerise are given by their
    "dim" attribute and their data; one without the attribute is not modelled.  Elements R converts on the way in
    (numeric index vectors or marginals to integer) are modelled after the conversion. *)
From Verif Require Import Base Spec NDArray Float64 ArrayOps Bind Sobol Micro Stat Qis Ipf Qisi Integerise RArray.
Open Scope Z_scope.

(** lookup[k] = v of a std::map<int64_t,int64_t>, kept as a list in the order of the keys *)
Fixpoint map_put (m : list (Z * Z)) (k v : Z) : list (Z * Z) :=
  match m with
  | [] => [(k, v)]
  | (k', v') :: m' =>
      if k <? k' then (k, v) :: m
      else if k =? k' then (k, v) :: m'
      else (k', v') :: map_put m' k v
  end.

(** src/rcpp_api.cpp:63-90 getDimension; the lists have been found to be of the same length (lines 135, 218, 303).
    iv[j] past the end of an R vector is undefined behaviour. *)
Definition get_dimension {T} (indices : list (list Z)) (marginals : list (rarray T)) : outcome (list Z) :=
  let* lookup :=
    foldM (fun '(iv, mv) lookup =>
             foldM (fun '(j, n) lookup => let* d := vec_get iv j in Ok (map_put lookup d n))
                   (numbered 0 (col_sizes mv)) lookup)
          (combine indices marginals) [] in
  Ok (map snd lookup).

(** src/rcpp_api.cpp:92-107 checkSeed; the number in the message is left out *)
Definition r_check_seed (sdim : list Z) (sdata : list double) (impl : list Z) : outcome unit :=
  let* _ := foldM (fun '(i, n) _ =>
                     let* n' := vec_get impl i in
                     if n =? n' then Ok tt else Throw (RuntimeError "mismatch between seed dimension and marginal"))
                  (numbered 0 sdim) tt in
  if existsb (fun x => d_ltb x d_zero) sdata then Throw (RuntimeError "negative value in seed") else Ok tt.

(** src/rcpp_api.cpp:157-169, 240-252, 327-339: index vectors and marginals, last one first *)
Definition r_args {T} (dim : Z) (indices : list (list Z)) (marginals : list (rarray T)) : outcome (list (list Z) * list (nd T)) :=
  let* l := mapM (fun '(iv, mv) => let* m := convert_array mv in Ok (map (fun d => dim - d) iv, m))
                 (rev (combine indices marginals)) in
  Ok (map fst l, map snd l).

(** conversion int64_t -> int, as gcc and clang define it *)
Definition s32 (z : Z) : Z := if u32 z <? 2 ^ 31 then u32 z else u32 z - 2 ^ 32.

(** std::copy of an array's cells into a new R vector of [n] zeros, e.g. src/rcpp_api.cpp:181, 265, 355, 399 *)
Definition r_copy {A B} (cv : A -> B) (z : B) (n : Z) (a : nd A) : outcome (list B) :=
  let* vs := nd_values a in
  if Z.of_nat (length vs) <=? n then Ok (map cv vs ++ repeat z (Z.to_nat n - length vs)) else UB "copy out of bounds".

(** a std::accumulate with std::multiplies<int64_t> *)
Definition i64_prod (l : list Z) : outcome Z := foldM (fun n p => i64 (p * n)) l 1.

(** the list returned by qis and qisi; qisi's has no degeneracy *)
Record r_result : Type := RR {
  rr_result : rarray Z; rr_expectation : rarray double; rr_conv : bool; rr_pop : Z;
  rr_chisq : double; rr_pvalue : double; rr_degeneracy : option double
}.

(** src/rcpp_api.cpp:216-277 qis *)
Definition r_qis (L : libm) (fuel : nat) (indices : list (list Z)) (marginals : list (rarray Z)) (skips : Z) : outcome r_result :=
  if negb (Nat.eqb (length indices) (length marginals))
  then Throw (RuntimeError "index and marginal lists are different lengths")
  else
    let* rsizes := get_dimension indices marginals in
    let* '(idx, m) := r_args (Z.of_nat (length rsizes)) indices marginals in
    let* q := qis_new fuel idx m skips in
    let* size := i64_prod rsizes in
    let* '(st, (c, p, g)) := qis_solve L q m in
    let* r := r_copy s32 0 size (q_arr st) in
    let* e := r_copy (fun x => x) d_zero size (q_expect q) in
    Ok (RR (RA (Some rsizes) r) (RA (Some rsizes) e) (q_conv st) (ms_pop (q_ms q)) c p (Some g)).

(** src/rcpp_api.cpp:301-369 qisi *)
Definition r_qisi (L : libm) (fuel : nat) (sdim : list Z) (sdata : list double) (indices : list (list Z)) (marginals : list (rarray Z))
    (skips : Z) : outcome r_result :=
  if negb (Nat.eqb (length indices) (length marginals))
  then Throw (RuntimeError "index and marginal lists are different lengths")
  else
    let* impl := get_dimension indices marginals in
    let* _ := r_check_seed sdim sdata impl in
    let* '(idx, m) := r_args (Z.of_nat (length sdim)) indices marginals in
    let* s := as_nd (NDA (rev sdim) sdata) in
    let* q := qisi_new fuel idx m skips in
    let* '(st, ex, (c, p, _)) := qisi_solve L fuel q m s in
    let* r := r_copy s32 0 (prodZ sdim) (i_arr st) in
    let* e := r_copy (fun x => x) d_zero (prodZ sdim) ex in
    Ok (RR (RA (Some sdim) r) (RA (Some sdim) e) (i_conv st) (ms_pop (qi_ms q)) c p None).

(** the list returned by ipf *)
Record r_ipf_result : Type := RI {
  ri_result : rarray double; ri_conv : bool; ri_pop : Z; ri_iters : Z; ri_max : double
}.

(** src/rcpp_api.cpp:133-193 ipf *)
Definition r_ipf (fuel : nat) (sdim : list Z) (sdata : list double) (indices : list (list Z)) (marginals : list (rarray double))
  : outcome r_ipf_result :=
  if negb (Nat.eqb (length indices) (length marginals))
  then Throw (RuntimeError "index and marginal lists are different lengths")
  else
    let* impl := get_dimension indices marginals in
    let* _ := r_check_seed sdim sdata impl in
    let* '(idx, m) := r_args (Z.of_nat (length sdim)) indices marginals in
    let* s := as_nd (NDA (rev sdim) sdata) in
    let* ms := micro_new (T := double) DblMarg idx m in
    let* st := ipf_solve (DblScale (fun m => m)) DblErr fuel ms m s in
    let* r := r_copy (fun x => x) d_zero (prodZ sdim) (is_arr st) in
    Ok (RI (RA (Some sdim) r) (is_conv st) (ms_pop ms) (is_iters st) (is_max st)).

(** src/rcpp_api.cpp:380-407 integerise *)
Definition r_integerise (L : libm) (fuel : nat) (pdim : list Z) (pdata : list double) : outcome (rarray Z * bool * double) :=
  let* p := as_nd (NDA (rev pdim) pdata) in
  let* g := integeriser_new L fuel p in
  let* r := r_copy s32 0 (prodZ pdim) (in_result g) in
  Ok (RA (Some pdim) r, in_conv g, in_rmse g).
