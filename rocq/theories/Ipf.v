(** Model of src/IPF.h and of the Python entry point ipf in src/module.cpp. *)
From Coq Require Import QArith Qcanon Qround.
From Verif Require Import Base Spec NDArray Float64 ArrayOps Bind Micro Qis.
Open Scope Z_scope.

(** What computeErrors needs of the element type: std::fabs, -std::numeric_limits<double>::max() and m_tol. *)
Record ErrOps (T : Type) : Type := { e_abs : T -> T; e_lowest : T; e_tol : T }.
Arguments e_abs {T}. Arguments e_lowest {T}. Arguments e_tol {T}.
Definition DblErr : ErrOps double := {| e_abs := d_abs; e_lowest := d_opp d_max; e_tol := d_1em8 |}.

Section Ipf.
Context {M T : Type} (SO : ScaleOps M T) (EO : ErrOps T).

(** src/IPF.h:38-45: seed.dim() and seed.sizes() against m_array *)
Definition check_seed (seed_sizes sizes : list Z) : outcome unit :=
  if negb (Nat.eqb (length seed_sizes) (length sizes))
  then Throw (RuntimeError "seed dimensions is inconsistent with that implied by marginals")
  else if forallb (fun '(a, b) => a =? b) (combine seed_sizes sizes) then Ok tt
  else Throw (RuntimeError "seed dimensions are inconsistent with that implied by marginals").

(** src/IPF.h:57 std::copy(seed.rawData(), seed.rawData() + seed.storageSize(), m_array.rawData()) *)
Definition copy_seed (seed arr : nd T) : outcome (nd T) :=
  let* vs := nd_values seed in
  if Z.of_nat (length vs) <=? Z.of_nat (length (nd_data arr))
  then Ok (ND (nd_sizes arr) (nd_offs arr) (nd_storage arr) (map Some vs ++ skipn (length vs) (nd_data arr)))
  else UB "copy out of bounds".

(** src/IPF.h:105-122 computeErrors; std::max(a, b) is b if a < b, else a *)
Definition compute_errors (diffs errs : list (nd T)) : outcome (list (nd T) * T * bool) :=
  let* '(errs, mx) :=
    foldM (fun '(k, d) '(errs, mx) =>
             let* er := vec_get errs k in
             let* '(er, mx) :=
               index_loop (nd_sizes d)
                 (fun i '(er, mx) =>
                    let* x := nd_get d i in
                    let e := e_abs EO x in
                    let* er := nd_set er i e in
                    Ok (er, if n_ltb (sc_num SO) mx e then e else mx)) (er, mx) in
             let* errs := vec_set errs k er in
             Ok (errs, mx)) (numbered 0 diffs) (errs, e_lowest EO) in
  Ok (errs, mx, n_ltb (sc_num SO) mx (e_tol EO)).

(** what solve leaves in the object: m_array, m_errors, m_maxError, m_conv, m_iters *)
Record ipf_state : Type := IS { is_arr : nd T; is_errs : list (nd T); is_max : T; is_conv : bool; is_iters : Z }.

(** src/IPF.h:69-77: [left] = s_MAXITER - m_iters iterations may still be made; m_maxError is not initialised
    before the first one *)
Fixpoint ipf_loop (fuel left : nat) (indices : list (list Z)) (margs : list (nd M))
    (arr : nd T) (diffs errs : list (nd T)) (mx : option T) (conv : bool) (iters : Z) : outcome ipf_state :=
  match left with
  | S left' =>
      if conv then match mx with Some m => Ok (IS arr errs m conv iters) | None => UB "m_maxError not initialised" end
      else
        let* arr := rscale SO fuel indices margs arr in
        let* diffs := rdiff SO indices margs arr diffs in
        let* '(errs, m, conv) := compute_errors diffs errs in
        ipf_loop fuel left' indices margs arr diffs errs (Some m) conv (iters + 1)
  | O => match mx with Some m => Ok (IS arr errs m conv iters) | None => UB "m_maxError not initialised" end
  end.

(** src/IPF.h:36-80 solve; [fuel] bounds the loops over mapped indices inside rScale *)
Definition ipf_solve (fuel : nat) (ms : micro T) (margs : list (nd M)) (seed : nd T) : outcome ipf_state :=
  let* _chk := check_seed (nd_sizes seed) (nd_sizes (ms_array ms)) in
  let* ix := index_new (nd_sizes (ms_array ms)) in
  let* _maps := make_mappings (ms_indices ms) ix in
  let* arr := copy_seed seed (ms_array ms) in
  let* diffs := mapM (fun m => nd_new (nd_sizes m)) margs in
  let* errs := mapM (fun m => nd_new (nd_sizes m)) margs in
  ipf_loop fuel (Z.to_nat 1000) (ms_indices ms) margs arr diffs errs None false 0.

End Ipf.
Arguments IS {T}. Arguments is_arr {T}. Arguments is_errs {T}. Arguments is_max {T}. Arguments is_conv {T}. Arguments is_iters {T}.


(** what the Python function returns *)
Record ipf_result (T : Type) : Type := IR { ir_array : ndarray T; ir_conv : bool; ir_pop : Z; ir_iters : Z; ir_max : T }.
Arguments IR {T}. Arguments ir_array {T}. Arguments ir_conv {T}. Arguments ir_pop {T}. Arguments ir_iters {T}. Arguments ir_max {T}.

(** src/module.cpp:176-205 ipf, for an arithmetic given by its operations.  The marginals and the seed are read
    through asNDArray, i.e. in the numpy buffers.
    Simplification: the buffers keep their values until the call returns.  That is so when the caller's arrays are
    already float64; Lifetime.v shows what happens otherwise. *)
Definition py_ipf_gen {M T} (MO : MargOps M) (SO : ScaleOps M T) (EO : ErrOps T) (fuel : nat)
    (seed : ndarray T) (ilist : list (ndarray Z)) (mlist : list (ndarray M)) : outcome (ipf_result T) :=
  let* '(indices, margs) := py_lists as_nd ilist mlist in
  let* ms := micro_new (T := T) MO indices margs in
  let* s := as_nd seed in
  let* st := ipf_solve SO EO fuel ms margs s in
  let* arr := from_nd (is_arr st) in
  Ok (IR arr (is_conv st) (ms_pop ms) (is_iters st) (is_max st)).

(** the function itself: doubles *)
Definition py_ipf (fuel : nat) (seed : ndarray double) (ilist : list (ndarray Z)) (mlist : list (ndarray double))
  : outcome (ipf_result double) :=
  py_ipf_gen DblMarg (DblScale (fun m => m)) DblErr fuel seed ilist mlist.

(** the same code in exact rational arithmetic; the limit values of double are kept *)
Definition q_ltb (x y : Qc) : bool := negb (Qle_bool y x).
Definition q_abs (x : Qc) : Qc := if q_ltb x 0 then (- x)%Qc else x.
Definition q_1em8 : Qc := Q2Qc (0x15798ee2308c3a # 2 ^ 79).
Definition q_max : Qc := Q2Qc (inject_Z ((2 ^ 53 - 1) * 2 ^ 971)).
Definition QcOps : NumOps Qc := {|
  n_zero := 0%Qc;
  n_add := fun x y => Ok (x + y)%Qc;
  n_sub := fun x y => Ok (x - y)%Qc;
  n_mul := fun x y => Ok (x * y)%Qc;
  n_ltb := q_ltb;
  n_eqb := Qc_eq_bool;
  n_max := q_max;
  n_close := fun x y => negb (q_ltb q_1em8 (q_abs (x - y)))
|}.
Definition QcMarg : MargOps Qc := {| mg_num := QcOps; mg_pop := fun s => i64 (Qfloor (s + (1 # 2))) |}.
Definition QcScale : ScaleOps Qc Qc := {|
  sc_num := QcOps;
  sc_scale := fun a m r => (a * (m / r))%Qc;
  sc_diff := fun a m => (a - m)%Qc
|}.
Definition QcErr : ErrOps Qc := {| e_abs := q_abs; e_lowest := (- q_max)%Qc; e_tol := q_1em8 |}.
Definition py_ipf_exact (fuel : nat) (seed : ndarray Qc) (ilist : list (ndarray Z)) (mlist : list (ndarray Qc))
  : outcome (ipf_result Qc) :=
  py_ipf_gen QcMarg QcScale QcErr fuel seed ilist mlist.
