(** Property C81: the names of dimensions and categories carry no meaning to ipf.

    In exact arithmetic, renaming the cells of the table — permuting the categories of each dimension, or renumbering the
    dimensions — and the marginals accordingly renames the result and changes nothing else.  In doubles the sums are taken
    in another order and the last bits can change; giving a marginal in another orientation (with its dimensions in
    another order) changes no bit. *)
From Coq Require Import QArith Qcanon.
From Flocq Require Import IEEE754.BinarySingleNaN.
From Verif Require Import Base Spec NDArray Float64 Bind Micro Qis Ipf IpfSpec RenameSpec RenameClaim QisExamples IpfExamples.
Open Scope Z_scope.

(** any correspondence of cells under which the marginals correspond *)
Theorem C81_cells : forall fuel fuel' seed seed' ilist ilist' mlist mlist',
  g_range 0%Qc ilist mlist -> all_proper 0%Qc ilist mlist -> wf_array seed -> prodZ (shape seed) < 2 ^ 60 -> prodZ (shape seed) < Z.of_nat fuel ->
  g_range 0%Qc ilist' mlist' -> all_proper 0%Qc ilist' mlist' -> wf_array seed' -> prodZ (shape seed') < 2 ^ 60 -> prodZ (shape seed') < Z.of_nat fuel' ->
  forall rho res res', py_ipf_exact fuel seed ilist mlist = Ok res -> py_ipf_exact fuel' seed' ilist' mlist' = Ok res' ->
  matching (shape seed) (shape seed') rho -> (forall i, index_in (shape seed) i -> entry 0%Qc seed' (rho i) = entry 0%Qc seed i) ->
  Forall2 (same_marginal (shape seed) rho) (gcons_of 0%Qc ilist mlist) (gcons_of 0%Qc ilist' mlist') ->
  (forall i, index_in (shape seed) i -> entry 0%Qc (ir_array res') (rho i) = entry 0%Qc (ir_array res) i) /\
  ir_conv res' = ir_conv res /\ ir_pop res' = ir_pop res /\ ir_iters res' = ir_iters res /\ ir_max res' = ir_max res.
Proof. exact rename_claim. Qed.
Print Assumptions C81_cells.

(** the categories of every dimension permuted *)
Theorem C81_categories : forall fuel fuel' seed seed' ilist ilist' mlist mlist',
  g_range 0%Qc ilist mlist -> all_proper 0%Qc ilist mlist -> wf_array seed -> prodZ (shape seed) < 2 ^ 60 -> prodZ (shape seed) < Z.of_nat fuel ->
  g_range 0%Qc ilist' mlist' -> all_proper 0%Qc ilist' mlist' -> wf_array seed' -> prodZ (shape seed') < 2 ^ 60 -> prodZ (shape seed') < Z.of_nat fuel' ->
  forall sigma tau res res', py_ipf_exact fuel seed ilist mlist = Ok res -> py_ipf_exact fuel' seed' ilist' mlist' = Ok res' ->
  categories (shape seed) sigma tau -> shape seed' = shape seed ->
  let every := zrange (Z.of_nat (length (shape seed))) in
  (forall i, index_in (shape seed) i -> entry 0%Qc seed' (rename sigma every i) = entry 0%Qc seed i) ->
  Forall2 (fun c c' => g_dims c' = g_dims c /\ g_sizes c' = g_sizes c /\
    forall k, index_in (g_sizes c) k -> g_at c' (rename sigma (g_dims c) k) = g_at c k) (gcons_of 0%Qc ilist mlist) (gcons_of 0%Qc ilist' mlist') ->
  (forall i, index_in (shape seed) i -> entry 0%Qc (ir_array res') (rename sigma every i) = entry 0%Qc (ir_array res) i) /\
  ir_conv res' = ir_conv res /\ ir_pop res' = ir_pop res /\ ir_iters res' = ir_iters res /\ ir_max res' = ir_max res.
Proof. exact categories_claim. Qed.
Print Assumptions C81_categories.

(** the dimensions renumbered: dimension [d] becomes [pi d], the seed is transposed, the marginals stay *)
Theorem C81_dimensions : forall fuel fuel' seed seed' ilist ilist' mlist mlist',
  g_range 0%Qc ilist mlist -> all_proper 0%Qc ilist mlist -> wf_array seed -> prodZ (shape seed) < 2 ^ 60 -> prodZ (shape seed) < Z.of_nat fuel ->
  g_range 0%Qc ilist' mlist' -> all_proper 0%Qc ilist' mlist' -> wf_array seed' -> prodZ (shape seed') < 2 ^ 60 -> prodZ (shape seed') < Z.of_nat fuel' ->
  forall pi pi' res res', py_ipf_exact fuel seed ilist mlist = Ok res -> py_ipf_exact fuel' seed' ilist' mlist' = Ok res' ->
  let n := Z.of_nat (length (shape seed)) in let moved i := proj (map pi' (zrange n)) i in
  dimensions n pi pi' -> shape seed' = moved (shape seed) ->
  (forall i, index_in (shape seed) i -> entry 0%Qc seed' (moved i) = entry 0%Qc seed i) ->
  Forall2 (fun c c' => g_dims c' = map pi (g_dims c) /\ g_sizes c' = g_sizes c /\ forall k, index_in (g_sizes c) k -> g_at c' k = g_at c k)
    (gcons_of 0%Qc ilist mlist) (gcons_of 0%Qc ilist' mlist') ->
  (forall i, index_in (shape seed) i -> entry 0%Qc (ir_array res') (moved i) = entry 0%Qc (ir_array res) i) /\
  ir_conv res' = ir_conv res /\ ir_pop res' = ir_pop res /\ ir_iters res' = ir_iters res /\ ir_max res' = ir_max res.
Proof. exact dimensions_claim. Qed.
Print Assumptions C81_dimensions.

(** doubles: marginals in another orientation give the same table, bit for bit *)
Theorem C81_orientation : forall fuel fuel' seed ilist ilist' mlist mlist',
  d_range ilist mlist -> all_proper d_zero ilist mlist -> wf_array seed -> prodZ (shape seed) < 2 ^ 60 -> prodZ (shape seed) < Z.of_nat fuel ->
  d_range ilist' mlist' -> all_proper d_zero ilist' mlist' -> prodZ (shape seed) < Z.of_nat fuel' ->
  forall res res', py_ipf fuel seed ilist mlist = Ok res -> py_ipf fuel' seed ilist' mlist' = Ok res' ->
  Forall2 (same_marginal (shape seed) (fun i => i)) (dcons_of ilist mlist) (dcons_of ilist' mlist') ->
  ir_array res' = ir_array res /\ ir_conv res' = ir_conv res /\ ir_iters res' = ir_iters res /\ ir_max res' = ir_max res.
Proof. exact oriented_claim. Qed.
Print Assumptions C81_orientation.

(** doubles: reversing the categories of a dimension of a 3 x 2 table changes a cell of the result *)
Theorem C81_doubles_refuted : exists r r', py_ipf 7 exB_seed exR_i exB_marg = Ok r /\ py_ipf 7 exB_rev exR_i exB_marg = Ok r' /\
  ir_conv r = true /\ ir_conv r' = true /\ entry d_zero (ir_array r') [0; 1] <> entry d_zero (ir_array r) [2; 1].
Proof. exact reverse_claim. Qed.
Print Assumptions C81_doubles_refuted.

(** hypotheses of C81_categories and C81_dimensions on a 2 x 3 table *)
Example C81_ex : g_range 0%Qc exR_i exR_m /\ all_proper 0%Qc exR_i exR_m /\ wf_array exR_s /\ g_range 0%Qc exR_i exR_m1 /\ all_proper 0%Qc exR_i exR_m1 /\ wf_array exR_s1 /\
  g_range 0%Qc exR_i2 exR_m /\ all_proper 0%Qc exR_i2 exR_m /\ wf_array exR_s2 /\
  is_ok (py_ipf_exact 7 exR_s exR_i exR_m) = true /\ is_ok (py_ipf_exact 7 exR_s1 exR_i exR_m1) = true /\ is_ok (py_ipf_exact 7 exR_s2 exR_i2 exR_m) = true /\
  categories (shape exR_s) rot tor /\ (forall i, index_in [2; 3] i -> entry 0%Qc exR_s1 (rename rot [0; 1] i) = entry 0%Qc exR_s i) /\
  Forall2 (fun c c' => g_dims c' = g_dims c /\ g_sizes c' = g_sizes c /\ forall k, index_in (g_sizes c) k -> g_at c' (rename rot (g_dims c) k) = g_at c k)
    (gcons_of 0%Qc exR_i exR_m) (gcons_of 0%Qc exR_i exR_m1) /\
  dimensions 2 flip flip /\ shape exR_s2 = proj (map flip [0; 1]) (shape exR_s) /\
  (forall i, index_in [2; 3] i -> entry 0%Qc exR_s2 (proj (map flip [0; 1]) i) = entry 0%Qc exR_s i) /\
  Forall2 (fun c c' => g_dims c' = map flip (g_dims c) /\ g_sizes c' = g_sizes c /\ forall k, index_in (g_sizes c) k -> g_at c' k = g_at c k)
    (gcons_of 0%Qc exR_i exR_m) (gcons_of 0%Qc exR_i2 exR_m).
Proof. exact exR_ok. Qed.

(** hypotheses of C81_orientation: a 2 x 3 marginal of a 2 x 3 x 2 table, and its transpose *)
Example C81_ex2 : d_range exO_i exO_m /\ all_proper d_zero exO_i exO_m /\ wf_array exO_s /\ d_range exO_i' exO_m' /\ all_proper d_zero exO_i' exO_m' /\
  is_ok (py_ipf 13 exO_s exO_i exO_m) = true /\ is_ok (py_ipf 13 exO_s exO_i' exO_m') = true /\
  Forall2 (same_marginal [2; 3; 2] (fun i => i)) (dcons_of exO_i exO_m) (dcons_of exO_i' exO_m').
Proof. exact exO_ok. Qed.
