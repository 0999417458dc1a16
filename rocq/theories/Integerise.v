(** Model of src/Integerise.cpp and of its entry points: integerise1d and integerise in src/module.cpp, prob2IntFreq in
    src/rcpp_api.cpp.  Double arithmetic is IEEE binary64 without contraction into fused operations. *)
From Verif Require Import Base Spec NDArray Float64 ArrayOps Bind Micro Stat Qisi.
Open Scope Z_scope.

(** src/Integerise.cpp:14-19 checked_round with the default tolerance 1e-4 (the double nearest to 1e-4); the text of the
    exception is abbreviated.  A NaN passes the test and is then converted. *)
Definition round_tol : double := d_div d_one (d_ofZ 10000).
Definition checked_round (x : double) : outcome Z :=
  if d_ltb round_tol (d_abs (d_sub x (d_round x)))
  then Throw (RuntimeError "value is not an integer (within tolerance)")
  else d_to_i64 (d_round x).

(** std::max_element: the first of the greatest elements by operator<, as an offset from begin() *)
Fixpoint max_from (l : list double) (i best : nat) (m : double) : nat :=
  match l with
  | [] => best
  | x :: l' => if d_ltb m x then max_from l' (S i) i x else max_from l' (S i) best m
  end.
(** dereferencing the result for an empty range is undefined *)
Definition max_element (l : list double) : outcome nat :=
  match l with [] => UB "dereference of end()" | x :: l' => Ok (max_from l' 1 0 x) end.

(** std::accumulate over std::vector<int> with the int 0 *)
Definition sum_i32 (f : list Z) : outcome Z := foldM (fun x s => i32 (s + x)) f 0.

(** src/Integerise.cpp:35-41 the loop adding the missing individuals; [Diverge] when [fuel] tests of its condition do
    not suffice *)
Fixpoint fill_loop (fuel : nat) (pop : Z) (f : list Z) (r : list double) : outcome (list Z * list double) :=
  match fuel with
  | O => Diverge
  | S fuel' =>
      let* s := sum_i32 f in
      if s <? pop then
        let* j := max_element r in
        let* x := vec_get f (Z.of_nat j) in
        let* x' := i32 (x + 1) in
        let* f' := vec_set f (Z.of_nat j) x' in
        let* y := vec_get r (Z.of_nat j) in
        let* r' := vec_set r (Z.of_nat j) (d_sub y d_one) in
        fill_loop fuel' pop f' r'
      else Ok (f, r)
  end.

(** src/Integerise.cpp:43-48 (n is a size_t, converted to double) *)
Definition rmse_of (r : list double) (n : Z) : double :=
  d_sqrt (d_div (fold_left (fun s x => d_add s (d_mul x x)) r d_zero) (d_ofZ n)).

(** src/Integerise.cpp:23-51 integeriseMarginalDistribution *)
Definition integerise_dist (fuel : nat) (p : list double) (pop : Z) : outcome (list Z * double) :=
  let* f := mapM (fun x => d_to_i32 (d_mul x (d_ofZ pop))) p in
  let r := map (fun '(x, k) => d_sub (d_mul x (d_ofZ pop)) (d_ofZ k)) (combine p f) in
  let* '(f, r) := fill_loop fuel pop f r in
  Ok (f, rmse_of r (Z.of_nat (length p))).

(** src/module.cpp:110-130 integerise1d; [pop] is the value of the int argument *)
Definition py_integerise1d (fuel : nat) (frac : ndarray double) (pop : Z) : outcome (list Z * double) :=
  if pop <? 0 then Throw (PyValueError "population cannot be negative")
  else
    let* prob := to_vector frac in
    let sum := fold_left d_add prob d_zero in
    integerise_dist fuel (map (fun p => d_div p sum) prob) pop.

(** src/rcpp_api.cpp:420-441 prob2IntFreq; 1000*epsilon is exact *)
Definition r_prob2IntFreq (fuel : nat) (p : list double) (pop : Z) : outcome (list Z * double) :=
  if pop <? 0 then Throw (RuntimeError "population cannot be negative")
  else if d_ltb (d_mul (d_ofZ 1000) (d_lit 1 (-52))) (d_abs (fold_left d_add p (d_ofZ (-1))))
  then Throw (RuntimeError "probabilities do not sum to unity")
  else integerise_dist fuel p pop.

(** src/Integerise.cpp:80-83: a marginal array filled through begin()+i *)
Definition round_marginal (mf : list double) : outcome (nd Z) :=
  let* t := nd_new [Z.of_nat (length mf)] in
  let* d := foldM (fun '(i, x) d => let* v := checked_round x in vec_set d i (Some v)) (numbered 0 mf) (nd_data t) in
  Ok (ND (nd_sizes t) (nd_offs t) (nd_storage t) d).

(** the members an Integeriser exposes: result, conv, rmse *)
Record integeriser : Type := INT { in_result : nd Z; in_conv : bool; in_rmse : double }.

(** src/Integerise.cpp:53-101 the constructor.  sum(seed) is computed twice with the same result.  The QISI object has
    no skips (src/QISI.h:16); the copies of marginals it holds are those of Micro.v. *)
Definition integeriser_new (L : libm) (fuel : nat) (seed : nd double) : outcome integeriser :=
  let dim := Z.of_nat (length (nd_sizes seed)) in
  let* total := nd_sum DblOps seed in
  let* _ := checked_round total in
  if dim =? 1 then
    let* p := reduce1 DblOps seed 0 in
    let* pop := d_to_i32 total in
    let* '(tmp, rmse) := integerise_dist fuel (map (fun x => d_div x (d_ofZ pop)) p) pop in
    let* t := nd_new [Z.of_nat (length tmp)] in
    let* res := (if Z.of_nat (length tmp) <=? Z.of_nat (length (nd_data t))
                 then Ok (ND (nd_sizes t) (nd_offs t) (nd_storage t)
                             (map Some tmp ++ skipn (length tmp) (nd_data t)))
                 else UB "copy out of bounds") in
    Ok (INT res true rmse)
  else
    let* margs := mapM (fun d => let* mf := reduce1 DblOps seed d in round_marginal mf) (zrange dim) in
    let indices := map (fun d => [d]) (zrange dim) in
    let* q := qisi_new fuel indices margs 0 in
    let* '(st, ex, stats) := qisi_solve L fuel q margs seed in
    let* res := nd_copy (i_arr st) nd_empty in
    let* ss := index_loop (nd_sizes res)
                 (fun i s => let* x := nd_get res i in let* y := nd_get seed i in
                             let e := d_sub (d_ofZ x) y in Ok (d_add s (d_mul e e))) d_zero in
    Ok (INT res (i_conv st) (d_sqrt (d_div ss (d_ofZ (nd_storage res))))).

(** src/module.cpp:164-174 integerise (one argument) *)
Definition py_integerise (L : libm) (fuel : nat) (seed : ndarray double) : outcome (ndarray Z * bool * double) :=
  let* s := as_nd seed in
  let* g := integeriser_new L fuel s in
  let* a := from_nd (in_result g) in
  Ok (a, in_conv g, in_rmse g).
