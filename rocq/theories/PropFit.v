(** Property C64: ipf in doubles, rounding included.

    [fitted], [misfit] and [fits_all] are in IpfFitSpec.v and do not mention the model: tables are functions of the cell
    index, [fitted sizes cs f n] is the table [f] after n rounds of scaling to each marginal in turn. *)
From Flocq Require Import IEEE754.BinarySingleNaN.
From Verif Require Import Base Spec NDArray Float64 ArrayOps Bind SynthSpec Ipf IpfSpec MicroDbl IpfClaims IpfDbl IpfExamples IpfFitSpec IpfFit.
Open Scope Z_scope.

(** C64: if ipf returns, its table is the seed after n rounds, where n <= 1000 is what "iterations" reports; no earlier
    round met the tolerance; conv says whether this one does, and without convergence n is 1000; maxError is the largest
    error (-DBL_MAX if there is none but NaN), and pop is every marginal's sum, plus a half, truncated. *)
Theorem C64_iteration : forall fuel seed ilist mlist, d_range ilist mlist -> all_proper d_zero ilist mlist -> wf_array seed ->
  prodZ (shape seed) < 2 ^ 60 -> prodZ (shape seed) < Z.of_nat fuel ->
  let cs := dcons_of ilist mlist in forall res, py_ipf fuel seed ilist mlist = Ok res -> let sizes := shape seed in
  exists n, (1 <= n <= 1000)%nat /\ ir_iters res = Z.of_nat n /\ let f := fitted sizes cs (entry d_zero seed) in
    ir_array res = NDA sizes (map (f n) (all_indices sizes)) /\
    (forall j, (1 <= j < n)%nat -> ~ fits_all sizes cs (f j)) /\
    (ir_conv res = true <-> fits_all sizes cs (f n)) /\ (ir_conv res = false -> n = 1000%nat) /\
    (ir_max res = d_opp d_max \/ exists c k, In c cs /\ index_in (g_sizes c) k /\ ir_max res = misfit sizes (f n) c k) /\
    (forall c k, In c cs -> index_in (g_sizes c) k -> let e := misfit sizes (f n) c k in is_nan e = false -> d_leb e (ir_max res) = true) /\
    (forall m, In m mlist -> d_to_i64 (d_add (fold_left d_add (flat m) d_zero) d_half) = Ok (ir_pop res)).
Proof. exact fit_claim. Qed.
Print Assumptions C64_iteration.
Example C64_ex : d_range exI_i exI_m /\ all_proper d_zero exI_i exI_m /\ wf_array exI_s /\
  match py_ipf 5 exI_s exI_i exI_m with Ok r => ir_conv r = true /\ ir_iters r = 42 | _ => False end /\
  (* the cell (1, 0) of the seed is 1; scaling its row to 7 makes it 3.5 and scaling its column to 4 then 28/13 *)
  (let f := fitted [2; 2] (dcons_of exI_i exI_m) (entry d_zero exI_s) in
   d_eqb (f 0%nat [1; 0]) d_one = true /\ d_eqb (f 1%nat [1; 0]) (d_mul (d_lit 7 (-1)) (d_div (d_ofZ 4) (d_lit 13 (-1)))) = true).
Proof. split; [exact exI_range|]. split; [exact exI_proper|]. split; [exact exI_seed|]. vm_compute. repeat split; reflexivity. Qed.
