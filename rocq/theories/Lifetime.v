(** The Python entry points of src/module.cpp with the memory their arrays live in: which buffers are shared with the
    caller, which are copies, and when they are released.  The computation itself is that of Qis.v, Qisi.v, Ipf.v,
    Integerise.v and Bind.v.
    Simplifications: buffers are C-contiguous (Strides.v has the others); int64 and double buffers are in separate
    memories; an address is not used again after it is freed (reading it is undefined anyway); the index lists are
    given by value, since toVector copies them while the array is held. *)
From Verif Require Import Base Spec NDArray Float64 ArrayOps Bind Sobol Micro Stat Qis Ipf Qisi Integerise.
Open Scope Z_scope.

Section Memory.
Context {T : Type}.

(** a buffer: the number of references held (1 for memory owned by an NDArray, 0 once freed), shape and elements *)
Record block : Type := BK { bk_refs : Z; bk_shape : list Z; bk_cells : list (option T) }.
Definition mem : Type := list block.

(** what the caller passes: an array with the wanted dtype, whose buffer is at an address, or something that
    py::array_t converts to such an array *)
Inductive pyarg : Type := Same (b : nat) | Converted (a : ndarray T).

(** Py_INCREF and Py_DECREF of the array owning the buffer *)
Definition add_refs (d : Z) (b : nat) (h : mem) : mem :=
  match nth_error h b with
  | Some x => upd h b (BK (bk_refs x + d) (bk_shape x) (bk_cells x))
  | None => h
  end.
Definition drop (b : nat) (h : mem) : mem := add_refs (-1) b h.

(** cast<py::array_t<T>>() and the argument casters of pybind11: another reference to the same array if the dtype
    matches, a new array otherwise *)
Definition cast (arg : pyarg) (h : mem) : mem * nat :=
  match arg with
  | Same b => (add_refs 1 b h, b)
  | Converted a => (h ++ [BK 1 (shape a) (map Some (flat a))], length h)
  end.

(** the elements of a live buffer; those of a freed one are indeterminate, like uninitialised memory *)
Definition cells_at (h : mem) (b : nat) : list (option T) :=
  match nth_error h b with
  | Some x => if 0 <? bk_refs x then bk_cells x else repeat None (length (bk_cells x))
  | None => []
  end.
Definition shape_at (h : mem) (b : nat) : list Z := match nth_error h b with Some x => bk_shape x | None => [] end.

(** an NDArray object: src/NDArray.h:250-254 with m_data an address *)
Record handle : Type := HN { h_sizes : list Z; h_offs : list Z; h_storage : Z; h_ptr : nat }.
Definition load (h : mem) (a : handle) : nd T := ND (h_sizes a) (h_offs a) (h_storage a) (cells_at h (h_ptr a)).
(** writing the elements of an array that keeps its shape *)
Definition store (a : handle) (v : nd T) (h : mem) : mem :=
  match nth_error h (h_ptr a) with
  | Some x => upd h (h_ptr a) (BK (bk_refs x) (bk_shape x) (nd_data v))
  | None => h
  end.
Definition store_all (hs : list handle) (vs : list (nd T)) (h : mem) : mem :=
  fold_left (fun h p => store (fst p) (snd p) h) (combine hs vs) h.

(** cbegin(np)..cend(np): all elements must be there *)
Definition read_np (h : mem) (b : nat) : outcome (ndarray T) :=
  let* vs := mapM (fun c => match c with Some v => Ok v | None => UB "read of a freed buffer" end) (cells_at h b) in
  Ok (NDA (shape_at h b) vs).

(** src/module.cpp:73-78 asNDArray: no copy *)
Definition as_nd_mem (h : mem) (b : nat) : outcome handle :=
  let* st := storage_size (shape_at h b) in
  let* os := compute_offs st (shape_at h b) in
  Ok (HN (shape_at h b) os st b).

(** src/module.cpp:61-71 toNDArray: a copy in memory owned by the array *)
Definition to_nd_mem (h : mem) (b : nat) : outcome (mem * handle) :=
  let* np := read_np h b in
  let* t := to_nd np in
  Ok (h ++ [BK 1 (nd_sizes t) (nd_data t)], HN (nd_sizes t) (nd_offs t) (nd_storage t) (length h)).

(** the destructors of a vector of arrays owning their memory *)
Definition destroy (hs : list handle) (h : mem) : mem := fold_left (fun h a => drop (h_ptr a) h) hs h.

(** src/module.cpp:217-225, 251-259: the loop over the lists in qis and qisi; on an exception the arrays made so far
    are destroyed *)
Fixpoint copy_args (l : list (ndarray Z * pyarg)) (h : mem) : mem * outcome (list (list Z) * list handle) :=
  match l with
  | [] => (h, Ok ([], []))
  | (i, arg) :: l' =>
      let '(h, b) := cast arg h in
      match (let* iv := to_vector i in let* '(h, a) := to_nd_mem h b in Ok (iv, h, a)) with
      | Ok (iv, h, a) =>
          let h := drop b h in                                   (* ma goes out of scope *)
          match copy_args l' h with
          | (h, Ok (ivs, hs)) => (h, Ok (iv :: ivs, a :: hs))
          | (h, Throw e) => (destroy [a] h, Throw e)
          | (h, UB w) => (h, UB w)
          | (h, Diverge) => (h, Diverge)
          end
      | Throw e => (drop b h, Throw e)
      | UB w => (h, UB w)
      | Diverge => (h, Diverge)
      end
  end.

(** src/module.cpp:187-193: the loop in ipf, where the arrays are not copied *)
Fixpoint share_args (l : list (ndarray Z * pyarg)) (h : mem) : mem * outcome (list (list Z) * list handle) :=
  match l with
  | [] => (h, Ok ([], []))
  | (i, arg) :: l' =>
      let '(h, b) := cast arg h in
      let x := (let* iv := to_vector i in let* a := as_nd_mem h b in Ok (iv, a)) in
      let h := drop b h in                                       (* ma goes out of scope *)
      match x with
      | Ok (iv, a) =>
          match share_args l' h with
          | (h, Ok (ivs, hs)) => (h, Ok (iv :: ivs, a :: hs))
          | (h, Throw e) => (h, Throw e)
          | (h, UB w) => (h, UB w)
          | (h, Diverge) => (h, Diverge)
          end
      | Throw e => (h, Throw e)
      | UB w => (h, UB w)
      | Diverge => (h, Diverge)
      end
  end.
End Memory.
Arguments block : clear implicits. Arguments mem : clear implicits. Arguments pyarg : clear implicits.

(** a function that holds one argument until it returns, e.g. the seed *)
Definition with_arg {T A} (arg : pyarg T) (h : mem T) (f : mem T -> nat -> outcome A) : mem T * outcome A :=
  let '(h, b) := cast arg h in (drop b h, f h b).

(** src/module.cpp:88-108 flatten and 164-174 integerise: the array is shared and held during the call *)
Definition flatten_mem (arg : pyarg Z) (h : mem Z) : mem Z * outcome (list (list Z)) :=
  with_arg arg h (fun h b =>
    let* a := as_nd_mem h b in
    let t := load h a in
    let* pop := index_loop (nd_sizes t) (fun i p => let* x := nd_get t i in Ok (u64 (p + x))) 0 in
    listify pop t 0).
Definition integerise_mem (L : libm) (fuel : nat) (arg : pyarg double) (h : mem double) : mem double * outcome (ndarray Z * bool * double) :=
  with_arg arg h (fun h b =>
    let* s := as_nd_mem h b in
    let* g := integeriser_new L fuel (load h s) in
    let* a := from_nd (in_result g) in
    Ok (a, in_conv g, in_rmse g)).

(** the loop of solve on marginals in memory: each iteration reads them and writes them back; [get] and [put] are the
    component of the state that holds the marginals.  Simplification: an iteration that throws is taken not to have
    written (it would have written to the same blocks). *)
Fixpoint steps_mem {S} (get : S -> list (nd Z)) (put : list (nd Z) -> S -> S) (step : S -> outcome S) (hs : list handle) (n : nat)
    (s : S) (h : mem Z) : mem Z * outcome S :=
  match n with
  | O => (h, Ok (put (map (load h) hs) s))
  | Datatypes.S n' =>
      match step (put (map (load h) hs) s) with
      | Ok s' => steps_mem get put step hs n' s' (store_all hs (get s') h)
      | Throw e => (h, Throw e)
      | UB w => (h, UB w)
      | Diverge => (h, Diverge)
      end
  end.

Definition q_put (m : list (nd Z)) (s : qstate) : qstate := QS (q_sobol s) m (q_arr s) (q_conv s).
Definition i_put (m : list (nd Z)) (s : istate) : istate := QIS (i_sobol s) (i_main s) m (i_arr s) (i_conv s) (i_sol s).

(** sequencing of what may throw, keeping the memory *)
Definition bind_mem {T A B} (x : outcome A) (h : mem T) (f : A -> mem T * outcome B) : mem T * outcome B :=
  match x with
  | Ok a => f a
  | Throw e => (h, Throw e)
  | UB w => (h, UB w)
  | Diverge => (h, Diverge)
  end.

(** src/module.cpp:208-240 qis: the code of [py_qis] and [qis_solve] on marginals in memory *)
Definition qis_mem (L : libm) (fuel : nat) (ilist : list (ndarray Z)) (mlist : list (pyarg Z)) (skips : Z) (h : mem Z)
  : mem Z * outcome qis_result :=
  if negb (Nat.eqb (length ilist) (length mlist))
  then (h, Throw (PyValueError "index and marginals lists differ in size"))
  else
    let '(h, x) := copy_args (combine ilist mlist) h in
    bind_mem x h (fun '(indices, hs) =>
      let '(h, r) :=
        bind_mem (let* q := qis_new fuel indices (map (load h) hs) skips in
                  let ms := q_ms q in
                  let* arr := nd_assign (ms_array ms) 0 in
                  let* ix := index_new (nd_sizes arr) in
                  let* _maps := make_mappings (ms_indices ms) ix in
                  Ok (q, arr)) h
          (fun '(q, arr) =>
             let ms := q_ms q in
             let '(h, st) := steps_mem q_margs q_put (qis_step (length (ms_sizes ms)) (ms_indices ms)) hs (Z.to_nat (ms_pop ms))
                               (QS (q_sob q) [] arr true) h in
             (h, let* st := st in
                 let* c := chisq (q_arr st) (q_expect q) in
                 let* d := dof (nd_sizes (q_arr st)) in
                 let p := fst (pvalue L d c) in
                 let* g := degeneracy L (q_arr st) in
                 let* ex := from_nd (q_expect q) in
                 let* arr := from_nd (q_arr st) in
                 Ok (QR arr ex (q_conv st) (ms_pop ms) c p g))) in
      (destroy hs h, r)).

(** src/module.cpp:242-273 qisi on marginals in memory; the seed is shared and held *)
Definition qisi_mem (L : libm) (fuel : nat) (seed : pyarg double) (ilist : list (ndarray Z)) (mlist : list (pyarg Z)) (skips : Z)
    (hd : mem double) (h : mem Z) : mem double * (mem Z * outcome qis_result) :=
  let '(hd, sb) := cast seed hd in
  (drop sb hd,
   if negb (Nat.eqb (length ilist) (length mlist))
   then (h, Throw (PyValueError "index and marginals lists differ in size"))
   else
    let '(h, x) := copy_args (combine ilist mlist) h in
    bind_mem x h (fun '(indices, hs) =>
      let '(h, r) :=
        bind_mem (let margs := map (load h) hs in
                  let* q := qisi_new fuel indices margs skips in
                  let ms := qi_ms q in
                  let* sh := as_nd_mem hd sb in
                  let seed := load hd sh in
                  let* _chk := check_seed (nd_sizes seed) (nd_sizes (ms_array ms)) in
                  let* sol := nd_new (nd_sizes (ms_array ms)) in
                  let* ex := nd_new (nd_sizes (ms_array ms)) in
                  let* sol := recompute_ipf fuel (ms_indices ms) margs seed sol in
                  let* ex := nd_copy sol ex in
                  let* ix := index_new (nd_sizes (ms_array ms)) in
                  let* _maps := make_mappings (ms_indices ms) ix in
                  let* arr := nd_assign (ms_array ms) 0 in
                  let* sob := sobol_new fuel (N.of_nat (length (ms_sizes ms))) 0 in
                  Ok (q, seed, sol, ex, ix, arr, sob)) h
          (fun '(q, seed, sol, ex, ix, arr, sob) =>
             let ms := qi_ms q in
             let '(h, st) := steps_mem i_margs i_put (qisi_step fuel (ms_indices ms) seed) hs (Z.to_nat (ms_pop ms))
                               (QIS sob (ix_idx ix) [] arr true sol) h in
             (h, let* st := st in
                 let* c := chisq (i_arr st) ex in
                 let* d := dof (nd_sizes (i_arr st)) in
                 let p := fst (pvalue L d c) in
                 let* g := degeneracy L (i_arr st) in
                 let* ex := from_nd ex in
                 let* arr := from_nd (i_arr st) in
                 Ok (QR arr ex (i_conv st) (ms_pop ms) c p g))) in
      (destroy hs h, r))).

(** src/module.cpp:176-205 ipf: marginals and seed are shared, not copied.  The solution is an array of its own. *)
Definition ipf_mem (fuel : nat) (seed : pyarg double) (ilist : list (ndarray Z)) (mlist : list (pyarg double)) (h : mem double)
  : mem double * outcome (ipf_result double) :=
  let '(h, sb) := cast seed h in
  let '(h, r) :=
    if negb (Nat.eqb (length ilist) (length mlist))
    then (h, Throw (PyValueError "index and marginals lists differ in size"))
    else
      let '(h, x) := share_args (combine ilist mlist) h in
      (h, let* '(indices, hs) := x in
          let margs := map (load h) hs in
          let* ms := micro_new (T := double) DblMarg indices margs in
          let* sh := as_nd_mem h sb in
          let* st := ipf_solve (DblScale (fun m => m)) DblErr fuel ms margs (load h sh) in
          let* arr := from_nd (is_arr st) in
          Ok (IR arr (is_conv st) (ms_pop ms) (is_iters st) (is_max st))) in
  (drop sb h, r).
