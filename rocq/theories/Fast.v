(** Computing examples: the same functions with operations that forget how a double came about.

    A double carries a proof that its exponent and mantissa are in range, and the result of a double operation carries one
    that mentions the operands. Under vm_compute the proofs of a long calculation therefore keep all of it in memory.
    [clean] is the identity, but rebuilds the proof. *)
From Coq Require Import ZArith List Bool FunctionalExtensionality Eqdep_dec.
From Flocq Require Import Core.Core IEEE754.BinarySingleNaN.
From Verif Require Import Base Spec NDArray Float64 ArrayOps Bind Sobol Micro Stat Qis Ipf Qisi Integerise.
Open Scope Z_scope.

Definition holds_b (b : bool) : option (b = true) := match b with true => Some eq_refl | false => None end.
Definition clean (x : double) : double :=
  match x with
  | B754_finite s m e _ => match holds_b (SpecFloat.bounded 53 1024 m e) with Some p => B754_finite s m e p | None => x end
  | _ => x
  end.
Lemma clean_id x : clean x = x.
Proof.
  destruct x as [| | |s m e H]; auto. unfold clean. destruct (holds_b _) as [p|]; auto. f_equal. apply UIP_dec. apply bool_dec.
Qed.

Definition FastOps : NumOps double := {|
  n_zero := d_zero;
  n_add := fun x y => Ok (clean (d_add x y));
  n_sub := fun x y => Ok (clean (d_sub x y));
  n_mul := fun x y => Ok (clean (d_mul x y));
  n_ltb := d_ltb;
  n_eqb := d_eqb;
  n_max := d_max;
  n_close := fun x y => negb (d_ltb d_1em8 (d_abs (d_sub x y)))
|}.
Lemma FastOps_eq : FastOps = DblOps.
Proof.
  unfold FastOps, DblOps. f_equal; apply functional_extensionality; intros x; apply functional_extensionality; intros y; now rewrite clean_id.
Qed.
Definition FastScale {M} (cv : M -> double) : ScaleOps M double := {|
  sc_num := FastOps;
  sc_scale := fun a m r => clean (d_mul a (d_div (cv m) r));
  sc_diff := fun a m => clean (d_sub a (cv m))
|}.
Lemma FastScale_eq {M} (cv : M -> double) : FastScale cv = DblScale cv.
Proof.
  unfold FastScale, DblScale. f_equal; [exact FastOps_eq| |].
  - apply functional_extensionality; intros x; apply functional_extensionality; intros y; apply functional_extensionality; intros z. now rewrite clean_id.
  - apply functional_extensionality; intros x; apply functional_extensionality; intros y. now rewrite clean_id.
Qed.

(** ipf *)
Definition ipf_fast (fuel : nat) (seed : ndarray double) (ilist : list (ndarray Z)) (mlist : list (ndarray double)) : outcome (ipf_result double) :=
  py_ipf_gen DblMarg (FastScale (fun m => m)) DblErr fuel seed ilist mlist.
Lemma ipf_fast_eq fuel seed ilist mlist : py_ipf fuel seed ilist mlist = ipf_fast fuel seed ilist mlist.
Proof. unfold py_ipf, ipf_fast. rewrite FastScale_eq. exact eq_refl. Qed.

(** qisi: Qisi.v with the fit's operations as a parameter *)
Section With.
Variable SO : ScaleOps Z double.
Definition recompute_with (fuel : nat) (indices : list (list Z)) (margs : list (nd Z)) (seed sol : nd double) : outcome (nd double) :=
  let* ms := micro_new (T := double) IntMarg indices margs in
  let* st := ipf_solve SO DblErr fuel ms margs seed in
  nd_copy (is_arr st) sol.
Definition step_with (fuel : nat) (indices : list (list Z)) (seed : nd double) (s : istate) : outcome istate :=
  let* '(sb, seq) := sobol_buf (i_sobol s) in
  let* main := get_index (length (nd_sizes (i_sol s))) (i_sol s) seq (i_main s) in
  let* arr := increment (i_arr s) main in
  let* '(margs, conv) := decrement indices main (i_margs s) (i_conv s) in
  let* x := nd_get (i_sol s) main in
  let* sol := nd_set (i_sol s) main (d_sub x d_one) in
  let* y := nd_get sol main in
  let* sol := (if d_ltb y d_zero then recompute_with fuel indices margs seed sol else Ok sol) in
  Ok (QIS sb main margs arr conv sol).
Definition solve_with (L : libm) (fuel : nat) (q : qisi) (margs : list (nd Z)) (seed : nd double)
  : outcome (istate * nd double * (double * double * double)) :=
  let ms := qi_ms q in
  let* _chk := check_seed (nd_sizes seed) (nd_sizes (ms_array ms)) in
  let* sol := nd_new (nd_sizes (ms_array ms)) in
  let* ex := nd_new (nd_sizes (ms_array ms)) in
  let* sol := recompute_with fuel (ms_indices ms) margs seed sol in
  let* ex := nd_copy sol ex in
  let* ix := index_new (nd_sizes (ms_array ms)) in
  let* _maps := make_mappings (ms_indices ms) ix in
  let* arr := nd_assign (ms_array ms) 0 in
  let* sb := sobol_new fuel (N.of_nat (length (ms_sizes ms))) 0 in
  let* st := repeatM (ms_pop ms) (step_with fuel (ms_indices ms) seed)
               (QIS sb (ix_idx ix) margs arr true sol) in
  let* c := chisq (i_arr st) ex in
  let* d := dof (nd_sizes (i_arr st)) in
  let p := fst (pvalue L d c) in
  let* g := degeneracy L (i_arr st) in
  Ok (st, ex, (c, p, g)).
Definition qisi_with (L : libm) (fuel : nat) (seed : ndarray double) (ilist mlist : list (ndarray Z)) (skips : Z) : outcome qis_result :=
  let* '(indices, margs) := py_lists to_nd ilist mlist in
  let* q := qisi_new fuel indices margs skips in
  let* s := as_nd seed in
  let* '(st, ex, (c, p, g)) := solve_with L fuel q margs s in
  let* ex := from_nd ex in
  let* arr := from_nd (i_arr st) in
  Ok (QR arr ex (i_conv st) (ms_pop (qi_ms q)) c p g).
(** integerise with at least two dimensions *)
Definition int_with (L : libm) (fuel : nat) (a : ndarray double) : outcome (ndarray Z * bool * double) :=
  let* seed := as_nd a in
  let* g :=
    (let dim := Z.of_nat (length (nd_sizes seed)) in
     let* total := nd_sum DblOps seed in
     let* _ := checked_round total in
     if dim =? 1 then
       let* p := reduce1 DblOps seed 0 in
       let* pop := d_to_i32 total in
       let* '(tmp, rmse) := integerise_dist fuel (map (fun x => d_div x (d_ofZ pop)) p) pop in
       let* t := nd_new [Z.of_nat (length tmp)] in
       let* res := (if Z.of_nat (length tmp) <=? Z.of_nat (length (nd_data t))
                    then Ok (ND (nd_sizes t) (nd_offs t) (nd_storage t) (map Some tmp ++ skipn (length tmp) (nd_data t)))
                    else UB "copy out of bounds") in
       Ok (INT res true rmse)
     else
       let* margs := mapM (fun d => let* mf := reduce1 DblOps seed d in round_marginal mf) (zrange dim) in
       let indices := map (fun d => [d]) (zrange dim) in
       let* q := qisi_new fuel indices margs 0 in
       let* '(st, ex, stats) := solve_with L fuel q margs seed in
       let* res := nd_copy (i_arr st) nd_empty in
       let* ss := index_loop (nd_sizes res)
                    (fun i s => let* x := nd_get res i in let* y := nd_get seed i in
                                let e := d_sub (d_ofZ x) y in Ok (d_add s (d_mul e e))) d_zero in
       Ok (INT res (i_conv st) (d_sqrt (d_div ss (d_ofZ (nd_storage res)))))) in
  let* r := from_nd (in_result g) in
  Ok (r, in_conv g, in_rmse g).
End With.
Lemma qisi_fast_eq L fuel seed ilist mlist skips : py_qisi L fuel seed ilist mlist skips = qisi_with (FastScale d_ofZ) L fuel seed ilist mlist skips.
Proof. rewrite FastScale_eq. exact eq_refl. Qed.
Lemma int_fast_eq L fuel a : py_integerise L fuel a = int_with (FastScale d_ofZ) L fuel a.
Proof. rewrite FastScale_eq. exact eq_refl. Qed.
