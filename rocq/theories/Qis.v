(** Model of src/QIS.cpp, src/QIS.h (the USE_STATE_SAMPLING code is compiled out and not modelled) and of the
    Python entry point qis in src/module.cpp. *)
From Verif Require Import Base Spec NDArray Float64 ArrayOps Bind Sobol Micro Stat.
Open Scope Z_scope.

(** src/QIS.cpp:55 scale = 0.5 / (1u<<31) *)
Definition qis_scale : double := d_div d_half (d_ofZ (2 ^ 31)).

(** src/QIS.cpp:18-25: the loop of pick *)
Fixpoint pick_loop (dist : list Z) (r : double) (i running : Z) : outcome Z :=
  match dist with
  | [] => Throw (RuntimeError "pick failed")
  | x :: dist' =>
      let* running' := i64 (running + x) in
      if d_ltb r (d_ofZ running') then Ok i else pick_loop dist' r (i + 1) running'
  end.

(** src/QIS.cpp:12-26 pick<int64_t>: the total is accumulated in double, the running sum in int64_t *)
Definition pick (dist : list Z) (r : double) : outcome Z :=
  let tot := fold_left (fun acc x => d_add acc (d_ofZ x)) dist d_zero in
  pick_loop dist (d_mul r tot) 0 0.

(** MappedIndex::operator[] (src/Index.cpp:127-136), reading and writing through the pointer *)
Definition mi_get (dims : list Z) (main : list Z) (d : Z) : outcome Z :=
  let* p := vec_get dims d in vec_get main p.
Definition mi_set (dims : list Z) (main : list Z) (d v : Z) : outcome (list Z) :=
  let* p := vec_get dims d in vec_set main p v.

(** seq[..] * scale *)
Definition unit_of (u : N) : double := d_mul (d_ofZ (Z.of_N u)) qis_scale.

(** src/QIS.cpp:52-88 recursive_sample.  [todo] is the vector dims read from the back; slice_map is a function on
    the dimensions present in it ([map_find], 0 for a missing key as std::map::operator[] would insert). *)
Fixpoint recursive_sample (todo : list (Z * N)) (slice_map : list (Z * Z)) (marginal : nd Z)
    (ix main : list Z) : outcome (list Z) :=
  match todo with
  | [] => UB "back() of an empty vector"
  | [(d, u)] =>
      let* vs := nd_values marginal in
      let* i := pick vs (unit_of u) in
      mi_set ix main d i
  | (d, u) :: todo' =>
      let o := match map_find slice_map d with Some o => o | None => 0 end in
      let* r := reduce1 IntOps marginal o in
      let* i := pick r (unit_of u) in
      let* main' := mi_set ix main d i in
      let* sliced := slice marginal [(o, i)] in
      recursive_sample todo' slice_map sliced ix main'
  end.

(** src/QIS.cpp:104-117: the loop splitting the dimensions; the state is (dims_to_slice, dims_to_sample reversed,
    slice_map, slice_index) *)
Definition split_dims (ix : list Z) (seq : list N) (main : list Z)
  : outcome (list (Z * Z) * list (Z * N) * list (Z * Z)) :=
  let* '(sl, sa, sm, _) :=
    foldM (fun '(d, dim) '(sl, sa, sm, k) =>
             let* v := mi_get ix main d in
             if -1 <? v then Ok (sl ++ [(d, v)], sa, sm, k)
             else let* u := vec_get seq dim in Ok (sl, (d, u) :: sa, (d, k) :: sm, k + 1))
          (numbered 0 ix) ([], [], [], 0) in
  Ok (sl, sa, sm).

(** src/QIS.cpp:91-155 sample; [ix] is both m_indices[m] and the mapped index's positions; returns the main index *)
Definition sample (ix : list Z) (seq : list N) (marginal : nd Z) (main : list Z) : outcome (list Z) :=
  let* '(sl, sa, sm) := split_dims ix seq main in
  match sa with
  | [] => Ok main
  | _ => let* free := slice marginal sl in recursive_sample sa sm free ix main
  end.

(** src/QIS.cpp:291-296: decrement every marginal at its projection of the main index *)
Definition decrement (indices : list (list Z)) (main : list Z) (margs : list (nd Z)) (conv : bool)
  : outcome (list (nd Z) * bool) :=
  foldM (fun '(k, ix) '(margs, conv) =>
           let* a := vec_get margs k in
           let* idx := mapM (vec_get main) ix in
           let* x := nd_get a idx in
           let* x' := i64 (x - 1) in
           let* a' := nd_set a idx x' in
           let* margs' := vec_set margs k a' in
           let* y := nd_get a' idx in
           Ok (margs', if y <? 0 then false else conv))
        (numbered 0 indices) (margs, conv).

(** ++m_array[main_index] (src/QIS.cpp:298) *)
Definition increment (arr : nd Z) (main : list Z) : outcome (nd Z) :=
  let* x := nd_get arr main in
  let* x' := i64 (x + 1) in
  nd_set arr main x'.

(** the part of the object that solve changes: m_sobolSeq, m_marginals, m_array, m_conv *)
Record qstate : Type := QS { q_sobol : sobol; q_margs : list (nd Z); q_arr : nd Z; q_conv : bool }.

(** src/QIS.cpp:270-298: one iteration of the population loop.  The sampled index vector starts at -1 everywhere. *)
Definition qis_step (dim : nat) (indices : list (list Z)) (s : qstate) : outcome qstate :=
  let* '(sb, seq) := sobol_buf (q_sobol s) in
  let* main := foldM (fun '(k, ix) main => let* a := vec_get (q_margs s) k in sample ix seq a main)
                     (numbered 0 indices) (repeat (-1) dim) in
  if existsb (fun v => v <? 0) main then Throw (RuntimeError "sampling error, not all dims have been set")
  else
    let* '(margs, conv) := decrement indices main (q_margs s) (q_conv s) in
    let* arr := increment (q_arr s) main in
    Ok (QS sb margs arr conv).

(** m_population iterations, counted in Z *)
Definition repeatM {S} (n : Z) (f : S -> outcome S) (s : S) : outcome S :=
  foldM (fun _ s => f s) (repeat tt (Z.to_nat n)) s.

(** src/QIS.cpp:329-343 computeStateValues into an array resized to the sizes of m_array *)
Definition compute_state_values (indices : list (list Z)) (margs : list (nd Z)) (sv : nd double) : outcome (nd double) :=
  let* ix := index_new (nd_sizes sv) in
  let* maps := make_mappings indices ix in
  let* sv := nd_assign sv d_one in
  index_loop (nd_sizes sv)
    (fun main sv =>
       foldM (fun '(k, mi) sv =>
                let* a := vec_get margs k in
                let* idx := mindex_read mi main in
                let* m := nd_get a idx in
                let* v := nd_get sv main in
                nd_set sv main (d_mul v (d_ofZ m))) (numbered 0 maps) sv)
    sv.

(** QIS objects: the Microsynthesis base, the generator, m_expectedStateOccupancy (m_stateValues is not read again) *)
Record qis : Type := Q { q_ms : micro Z; q_sob : sobol; q_expect : nd double }.

(** src/QIS.cpp:159-176; Sobol::skip takes a uint32_t *)
Definition qis_new (fuel : nat) (indices : list (list Z)) (margs : list (nd Z)) (skips : Z) : outcome qis :=
  let* ms := micro_new IntMarg indices margs in
  let* sb := sobol_new fuel (N.of_nat (length (ms_sizes ms))) 0 in
  let* sb := sobol_do_skip fuel sb (Z.to_N (u32 skips)) in
  let* sv := nd_new (nd_sizes (ms_array ms)) in
  let* sv := compute_state_values indices margs sv in
  let* ex := nd_copy sv nd_empty in
  let* tot := nd_sum DblOps sv in
  let scale := d_div (d_ofZ (ms_pop ms)) tot in
  let* ex := index_loop (nd_sizes ex)
               (fun i ex => let* v := nd_get ex i in nd_set ex i (d_mul v scale)) ex in
  Ok (Q ms sb ex).

(** src/QIS.cpp:249-320 solve_m, called once with reset = false *)
Definition qis_solve (L : libm) (q : qis) (margs : list (nd Z)) : outcome (qstate * (double * double * double)) :=
  let ms := q_ms q in
  let* arr := nd_assign (ms_array ms) 0 in
  let* ix := index_new (nd_sizes arr) in
  let* _maps := make_mappings (ms_indices ms) ix in
  let* st := repeatM (ms_pop ms) (qis_step (length (ms_sizes ms)) (ms_indices ms))
               (QS (q_sob q) margs arr true) in
  let* c := chisq (q_arr st) (q_expect q) in
  let* d := dof (nd_sizes (q_arr st)) in
  let p := fst (pvalue L d c) in
  let* g := degeneracy L (q_arr st) in
  Ok (st, (c, p, g)).

(** what the Python function returns: the array and the stats dictionary *)
Record qis_result : Type := QR {
  qr_pop_array : ndarray Z; qr_expectation : ndarray double; qr_conv : bool; qr_pop : Z;
  qr_chisq : double; qr_pvalue : double; qr_degeneracy : double
}.

(** src/module.cpp:217-225 (also 181-193 and 251-259): the conversion of the two lists *)
Definition py_lists {M} (cv : ndarray M -> outcome (nd M)) (ilist : list (ndarray Z)) (mlist : list (ndarray M))
  : outcome (list (list Z) * list (nd M)) :=
  if negb (Nat.eqb (length ilist) (length mlist))
  then Throw (PyValueError "index and marginals lists differ in size")
  else
    let* l := mapM (fun '(i, m) => let* iv := to_vector i in let* mv := cv m in Ok (iv, mv)) (combine ilist mlist) in
    Ok (map fst l, map snd l).

(** src/module.cpp:208-240 qis *)
Definition py_qis (L : libm) (fuel : nat) (ilist mlist : list (ndarray Z)) (skips : Z) : outcome qis_result :=
  let* '(indices, margs) := py_lists to_nd ilist mlist in
  let* q := qis_new fuel indices margs skips in
  let* '(st, (c, p, g)) := qis_solve L q margs in
  let* ex := from_nd (q_expect q) in
  let* arr := from_nd (q_arr st) in
  Ok (QR arr ex (q_conv st) (ms_pop (q_ms q)) c p g).
