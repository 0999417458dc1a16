(** Model of src/QISI.cpp, src/QISI.h and of the Python entry point qisi in src/module.cpp. *)
From Verif Require Import Base Spec NDArray Float64 ArrayOps Bind Sobol Micro Stat Qis Ipf.
Open Scope Z_scope.

(** src/QISI.cpp:16-22: the loop of pick *)
Fixpoint dpick_loop (dist : list double) (r : double) (i : Z) (running : double) : outcome Z :=
  match dist with
  | [] => Throw (RuntimeError "pick failed")
  | x :: dist' =>
      let running' := d_add running x in
      if d_ltb r running' then Ok i else dpick_loop dist' r (i + 1) running'
  end.

(** src/QISI.cpp:11-24 pick, here on doubles.  The size_t result is stored in an int64_t index by the callers. *)
Definition dpick (dist : list double) (r : double) : outcome Z :=
  dpick_loop dist (d_mul r (fold_left d_add dist d_zero)) 0 d_zero.

(** src/QISI.cpp:27-61 getIndex.  scale (line 29) is the constant [qis_scale]; [n] bounds the recursion, which lowers
    dim by one each time (the caller passes p.dim()).  The assert of line 53 is compiled out (NDEBUG). *)
Fixpoint get_index (n : nat) (p : nd double) (r : list N) (index : list Z) : outcome (list Z) :=
  let dim := Z.of_nat (length (nd_sizes p)) in
  if 2 <? dim then
    let* m := reduce1 DblOps p (dim - 1) in
    let* u := vec_get r (dim - 1) in
    let* i := dpick m (unit_of u) in
    let* index := vec_set index (dim - 1) i in
    let* sliced := slice p [(dim - 1, i)] in
    match n with O => Diverge | S n' => get_index n' sliced r index end
  else
    let* r1 := reduce1 DblOps p 1 in
    let* u := vec_get r 1 in
    let* i := dpick r1 (unit_of u) in
    let* index := vec_set index 1 i in
    let* sliced := slice p [(1, i)] in
    let* r0 := nd_values sliced in
    let* u := vec_get r 0 in
    let* j := dpick r0 (unit_of u) in
    vec_set index 0 j.

(** src/QISI.cpp:150-156 recomputeIPF: a new IPF<int64_t> is built on the present marginals, so they are validated
    again; the solution is copied over [sol] = m_ipfSolution *)
Definition recompute_ipf (fuel : nat) (indices : list (list Z)) (margs : list (nd Z)) (seed sol : nd double)
  : outcome (nd double) :=
  let* ms := micro_new (T := double) IntMarg indices margs in
  let* st := ipf_solve (DblScale d_ofZ) DblErr fuel ms margs seed in
  nd_copy (is_arr st) sol.

(** what the loop of solve changes: the local sobol_seq and main_index, m_marginals, m_array, m_conv, m_ipfSolution *)
Record istate : Type := QIS { i_sobol : sobol; i_main : list Z; i_margs : list (nd Z); i_arr : nd Z; i_conv : bool; i_sol : nd double }.

(** src/QISI.cpp:106-131: one iteration *)
Definition qisi_step (fuel : nat) (indices : list (list Z)) (seed : nd double) (s : istate) : outcome istate :=
  let* '(sb, seq) := sobol_buf (i_sobol s) in
  let* main := get_index (length (nd_sizes (i_sol s))) (i_sol s) seq (i_main s) in
  let* arr := increment (i_arr s) main in
  let* '(margs, conv) := decrement indices main (i_margs s) (i_conv s) in
  let* x := nd_get (i_sol s) main in
  let* sol := nd_set (i_sol s) main (d_sub x d_one) in
  let* y := nd_get sol main in
  let* sol := (if d_ltb y d_zero then recompute_ipf fuel indices margs seed sol else Ok sol) in
  Ok (QIS sb main margs arr conv sol).

(** QISI objects: the Microsynthesis base and m_sobolSeq *)
Record qisi : Type := QI { qi_ms : micro Z; qi_sob : sobol }.

(** src/QISI.cpp:66-74 *)
Definition qisi_new (fuel : nat) (indices : list (list Z)) (margs : list (nd Z)) (skips : Z) : outcome qisi :=
  let* ms := micro_new IntMarg indices margs in
  let* sb := sobol_new fuel (N.of_nat (length (ms_sizes ms))) 0 in
  let* sb := sobol_do_skip fuel sb (Z.to_N (u32 skips)) in
  Ok (QI ms sb).

(** src/QISI.cpp:77-140 solve with reset = false; the second component is m_expectedStateOccupancy.
    The generator used is the local one of line 105, not m_sobolSeq. *)
Definition qisi_solve (L : libm) (fuel : nat) (q : qisi) (margs : list (nd Z)) (seed : nd double)
  : outcome (istate * nd double * (double * double * double)) :=
  let ms := qi_ms q in
  let* _chk := check_seed (nd_sizes seed) (nd_sizes (ms_array ms)) in
  let* sol := nd_new (nd_sizes (ms_array ms)) in
  let* ex := nd_new (nd_sizes (ms_array ms)) in
  let* sol := recompute_ipf fuel (ms_indices ms) margs seed sol in
  let* ex := nd_copy sol ex in
  let* ix := index_new (nd_sizes (ms_array ms)) in
  let* _maps := make_mappings (ms_indices ms) ix in
  let* arr := nd_assign (ms_array ms) 0 in
  let* sb := sobol_new fuel (N.of_nat (length (ms_sizes ms))) 0 in
  let* st := repeatM (ms_pop ms) (qisi_step fuel (ms_indices ms) seed)
               (QIS sb (ix_idx ix) margs arr true sol) in
  let* c := chisq (i_arr st) ex in
  let* d := dof (nd_sizes (i_arr st)) in
  let p := fst (pvalue L d c) in
  let* g := degeneracy L (i_arr st) in
  Ok (st, ex, (c, p, g)).

(** src/module.cpp:242-273 qisi.  Simplification: the seed is read through asNDArray in the caller's buffer, which is
    taken to keep its values during the call (see Lifetime.v). *)
Definition py_qisi (L : libm) (fuel : nat) (seed : ndarray double) (ilist mlist : list (ndarray Z)) (skips : Z)
  : outcome qis_result :=
  let* '(indices, margs) := py_lists to_nd ilist mlist in
  let* q := qisi_new fuel indices margs skips in
  let* s := as_nd seed in
  let* '(st, ex, (c, p, g)) := qisi_solve L fuel q margs s in
  let* ex := from_nd ex in
  let* arr := from_nd (i_arr st) in
  Ok (QR arr ex (i_conv st) (ms_pop (qi_ms q)) c p g).
