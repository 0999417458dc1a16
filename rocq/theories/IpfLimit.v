(** ipf with another limit on the number of iterations. *)
From Verif Require Import Base Spec NDArray ArrayOps Bind Micro Qis Ipf.
Open Scope Z_scope.

(** src/IPF.h:36-80 solve, with [limit] for s_MAXITER (src/IPF.h:131; 1000 in the code) *)
Definition ipf_solve_limit {M T} (SO : ScaleOps M T) (EO : ErrOps T) (limit fuel : nat) (ms : micro T) (margs : list (nd M)) (seed : nd T)
  : outcome (ipf_state (T := T)) :=
  let* _chk := check_seed (nd_sizes seed) (nd_sizes (ms_array ms)) in
  let* ix := index_new (nd_sizes (ms_array ms)) in
  let* _maps := make_mappings (ms_indices ms) ix in
  let* arr := copy_seed seed (ms_array ms) in
  let* diffs := mapM (fun m => nd_new (nd_sizes m)) margs in
  let* errs := mapM (fun m => nd_new (nd_sizes m)) margs in
  ipf_loop SO EO fuel limit (ms_indices ms) margs arr diffs errs None false 0.

(** src/module.cpp:176-205 ipf, with [limit] for the limit of 1000 *)
Definition py_ipf_limit {M T} (MO : MargOps M) (SO : ScaleOps M T) (EO : ErrOps T) (limit fuel : nat)
    (seed : ndarray T) (ilist : list (ndarray Z)) (mlist : list (ndarray M)) : outcome (ipf_result T) :=
  let* '(indices, margs) := py_lists as_nd ilist mlist in
  let* ms := micro_new (T := T) MO indices margs in
  let* s := as_nd seed in
  let* st := ipf_solve_limit SO EO limit fuel ms margs s in
  let* arr := from_nd (is_arr st) in
  Ok (IR arr (is_conv st) (ms_pop ms) (is_iters st) (is_max st)).

Definition py_ipf_exact_limit := py_ipf_limit QcMarg QcScale QcErr.

(** with the limit of the code it is the code *)
Lemma limit_1000 fuel seed ilist mlist : py_ipf_exact_limit (Z.to_nat 1000) fuel seed ilist mlist = py_ipf_exact fuel seed ilist mlist.
Proof. reflexivity. Qed.
