(** Properties C12-C17 and the ipf part of C08.

    [py_ipf fuel seed ilist mlist] is the Python function; [fuel] bounds the loops over the cells of the array inside
    rScale, and every theorem holds for all [fuel] larger than the number of cells.  [d_range] only excludes array
    sizes near the limits of the integer types; [all_proper] says that no index list repeats a dimension or names
    all of them. *)
From Coq Require Import QArith Qcanon.
From Flocq Require Import IEEE754.BinarySingleNaN.
From Verif Require Import Base Spec NDArray Float64 Bind ArrayOps Micro Qis SynthSpec Ipf IpfSpec IpfClaims IpfDbl IpfExact QisExamples IpfExamples.
Open Scope Z_scope.

(** C12: maxError bounds the error of every marginal sum that is a number, and conv says that it is below 1e-8 *)
Theorem C12_conv : forall fuel seed ilist mlist, d_range ilist mlist -> all_proper d_zero ilist mlist -> wf_array seed ->
  prodZ (shape seed) < 2 ^ 60 -> prodZ (shape seed) < Z.of_nat fuel ->
  forall res, py_ipf fuel seed ilist mlist = Ok res ->
  forall c k, In c (dcons_of ilist mlist) -> index_in (g_sizes c) k ->
  let s := marginD (shape seed) (g_dims c) k (entry d_zero (ir_array res)) in
  is_nan s = false ->
  d_leb (d_abs (d_sub s (g_at c k))) (ir_max res) = true /\
  (ir_conv res = true -> d_ltb (d_abs (d_sub s (g_at c k))) d_1em8 = true).
Proof. exact ipf_conv_claim. Qed.
Print Assumptions C12_conv.

(** C12: so whenever the returned array is finite the full property holds *)
Theorem C12_conv_finite : forall fuel seed ilist mlist, d_range ilist mlist -> all_proper d_zero ilist mlist -> wf_array seed ->
  prodZ (shape seed) < 2 ^ 60 -> prodZ (shape seed) < Z.of_nat fuel ->
  forall res, py_ipf fuel seed ilist mlist = Ok res ->
  (forall i, index_in (shape seed) i -> is_finite (entry d_zero (ir_array res) i) = true) ->
  forall c k, In c (dcons_of ilist mlist) -> index_in (g_sizes c) k ->
  let s := marginD (shape seed) (g_dims c) k (entry d_zero (ir_array res)) in
  d_leb (d_abs (d_sub s (g_at c k))) (ir_max res) = true /\
  (ir_conv res = true -> d_ltb (d_abs (d_sub s (g_at c k))) d_1em8 = true).
Proof. exact ipf_conv_finite_claim. Qed.
Print Assumptions C12_conv_finite.
Example C12_ex : d_range exI_i exI_m /\ all_proper d_zero exI_i exI_m /\ wf_array exI_s /\
  match py_ipf 5 exI_s exI_i exI_m with
  | Ok r => ir_conv r = true /\ ir_pop r = 10 /\ forallb (@is_finite 53 1024) (flat (ir_array r)) = true
  | _ => False
  end.
Proof. split; [exact exI_range|]. split; [exact exI_proper|]. split; [exact exI_seed|]. vm_compute. repeat split; reflexivity. Qed.

(** C12 fails without that: every sum is NaN, conv is True and maxError is -DBL_MAX *)
Theorem C12_refuted : exists seed ilist mlist fuel res, d_range ilist mlist /\ all_proper d_zero ilist mlist /\ wf_array seed /\
  py_ipf fuel seed ilist mlist = Ok res /\ ir_conv res = true /\ ir_max res = d_opp d_max /\
  forall c k, In c (dcons_of ilist mlist) -> index_in (g_sizes c) k ->
  d_ltb (d_abs (d_sub (marginD (shape seed) (g_dims c) k (entry d_zero (ir_array res))) (g_at c k))) d_1em8 = false.
Proof. exact nan_conv_claim. Qed.
Print Assumptions C12_refuted.

(** C13: iteration accounting, with no hypothesis at all *)
Theorem C13_iterations : forall fuel seed ilist mlist res, py_ipf fuel seed ilist mlist = Ok res ->
  1 <= ir_iters res <= 1000 /\ (ir_conv res = false -> ir_iters res = 1000) /\ ir_conv res = d_ltb (ir_max res) d_1em8.
Proof. exact (ipf_count_claim DblMarg (DblScale (fun m => m)) DblErr). Qed.
Print Assumptions C13_iterations.
Example C13_ex :
  match py_ipf 5 exI_s exI_i exI_m with Ok r => ir_conv r = true /\ 1 < ir_iters r < 1000 | _ => False end /\
  match py_ipf 5 exZ_s exI_i exI_m with Ok r => ir_conv r = false /\ ir_iters r = 1000 | _ => False end.
Proof. vm_compute. repeat split; reflexivity. Qed.

(** C14: with proper index lists a call returns or raises, unless the sum of a marginal is no int64 (then the
    conversion of the sum is undefined) *)
Theorem C14_returns_or_raises : forall fuel seed ilist mlist, d_range ilist mlist -> all_proper d_zero ilist mlist -> wf_array seed ->
  prodZ (shape seed) < 2 ^ 60 -> prodZ (shape seed) < Z.of_nat fuel ->
  (exists res, py_ipf fuel seed ilist mlist = Ok res) \/ (exists e, py_ipf fuel seed ilist mlist = Throw e) \/
  (exists w, py_ipf fuel seed ilist mlist = UB w /\ exists c, In c (dcons_of ilist mlist) /\
     d_to_i64 (d_add (fold_left d_add (map (g_at c) (all_indices (g_sizes c))) d_zero) d_half) = UB w).
Proof. exact ipf_terminates_claim. Qed.
Print Assumptions C14_returns_or_raises.

(** C14: it never returns when an accepted marginal is on all dimensions *)
Theorem C14_covering_diverges : forall fuel seed ilist mlist, d_range ilist mlist -> wf_array seed -> prodZ (shape seed) < 2 ^ 60 ->
  let cs := dcons_of ilist mlist in passes DblMarg ilist mlist seed ->
  (forall c, In c cs -> NoDup (g_dims c)) -> (exists c, In c cs /\ length (g_dims c) = length (shape seed)) ->
  prodZ (shape seed) < Z.of_nat fuel -> py_ipf fuel seed ilist mlist = Diverge.
Proof. exact covering_claim. Qed.
Print Assumptions C14_covering_diverges.

Theorem C14_refuted : exists seed ilist mlist, passes DblMarg ilist mlist seed /\ forall fuel, py_ipf fuel seed ilist mlist = Diverge.
Proof. exact diverges_claim. Qed.
Print Assumptions C14_refuted.

(** C15: no entry is negative *)
Theorem C15_nonnegative : forall fuel seed ilist mlist, d_range ilist mlist -> all_proper d_zero ilist mlist -> wf_array seed ->
  prodZ (shape seed) < 2 ^ 60 -> prodZ (shape seed) < Z.of_nat fuel ->
  forall res, py_ipf fuel seed ilist mlist = Ok res ->
  (forall i, index_in (shape seed) i -> d_ltb (entry d_zero seed i) d_zero = false) ->
  shape (ir_array res) = shape seed /\ forall i, index_in (shape seed) i -> d_ltb (entry d_zero (ir_array res) i) d_zero = false.
Proof. exact ipf_nonneg_claim. Qed.
Print Assumptions C15_nonnegative.

(** C15: a zero of the seed is a zero of the result, or NaN *)
Theorem C15_zeros_or_nan : forall fuel seed ilist mlist, d_range ilist mlist -> all_proper d_zero ilist mlist -> wf_array seed ->
  prodZ (shape seed) < 2 ^ 60 -> prodZ (shape seed) < Z.of_nat fuel ->
  forall res, py_ipf fuel seed ilist mlist = Ok res ->
  forall i, index_in (shape seed) i -> d_eqb (entry d_zero seed i) d_zero = true ->
  d_eqb (entry d_zero (ir_array res) i) d_zero = true \/ is_nan (entry d_zero (ir_array res) i) = true.
Proof. exact ipf_zeros_claim. Qed.
Print Assumptions C15_zeros_or_nan.
Example C15_ex : d_range exI_i exI_m /\ all_proper d_zero exI_i exI_m /\ wf_array exI_s /\
  forallb (fun x => negb (d_ltb x d_zero)) (flat exI_s) = true /\ d_eqb (entry d_zero exI_s [0; 1]) d_zero = true /\
  match py_ipf 5 exI_s exI_i exI_m with Ok r => d_eqb (entry d_zero (ir_array r) [0; 1]) d_zero = true | _ => False end.
Proof. split; [exact exI_range|]. split; [exact exI_proper|]. split; [exact exI_seed|]. vm_compute. repeat split; reflexivity. Qed.

(** C15: the second case does occur *)
Theorem C15_zeros_refuted : exists seed ilist mlist fuel res i, d_range ilist mlist /\ all_proper d_zero ilist mlist /\ wf_array seed /\
  (forall i, index_in (shape seed) i -> d_ltb (entry d_zero seed i) d_zero = false) /\
  py_ipf fuel seed ilist mlist = Ok res /\ index_in (shape seed) i /\ d_eqb (entry d_zero seed i) d_zero = true /\
  is_nan (entry d_zero (ir_array res) i) = true.
Proof. exact nan_zero_claim. Qed.
Print Assumptions C15_zeros_refuted.

(** C16: a seed that fits is returned bit for bit *)
Theorem C16_fitting_seed : forall fuel seed ilist mlist, d_range ilist mlist -> all_proper d_zero ilist mlist -> wf_array seed ->
  prodZ (shape seed) < 2 ^ 60 -> prodZ (shape seed) < Z.of_nat fuel ->
  forall res, py_ipf fuel seed ilist mlist = Ok res ->
  (forall i, index_in (shape seed) i -> is_finite (entry d_zero seed i) = true /\ Bsign (entry d_zero seed i) = false) ->
  (forall c k, In c (dcons_of ilist mlist) -> index_in (g_sizes c) k ->
     d_eqb (marginD (shape seed) (g_dims c) k (entry d_zero seed)) (g_at c k) = true) ->
  ir_array res = seed /\ ir_conv res = true /\ ir_iters res = 1 /\ ir_max res = d_zero.
Proof. exact ipf_fit_claim. Qed.
Print Assumptions C16_fitting_seed.
Example C16_ex : d_range exI_i exI_m /\ all_proper d_zero exI_i exI_m /\ wf_array exI_fit /\
  is_ok (py_ipf 5 exI_fit exI_i exI_m) = true /\
  (forall c k, In c (dcons_of exI_i exI_m) -> index_in (g_sizes c) k ->
     d_eqb (marginD (shape exI_fit) (g_dims c) k (entry d_zero exI_fit)) (g_at c k) = true).
Proof.
  split; [exact exI_range|]. split; [exact exI_proper|]. split; [apply shape_by; vm_compute; reflexivity|]. split; [vm_compute; reflexivity|].
  apply cells_by. vm_compute. reflexivity.
Qed.

(** C16 fails for negative zeros: one in a row without individuals becomes a positive zero *)
Theorem C16_negative_zero_refuted : exists seed ilist mlist fuel res i, d_range ilist mlist /\ all_proper d_zero ilist mlist /\ wf_array seed /\
  (forall i, index_in (shape seed) i -> is_finite (entry d_zero seed i) = true /\ d_ltb (entry d_zero seed i) d_zero = false) /\
  (forall c k, In c (dcons_of ilist mlist) -> index_in (g_sizes c) k ->
     d_eqb (marginD (shape seed) (g_dims c) k (entry d_zero seed)) (g_at c k) = true) /\
  py_ipf fuel seed ilist mlist = Ok res /\ index_in (shape seed) i /\
  entry d_zero seed i = d_opp d_zero /\ entry d_zero (ir_array res) i = d_zero.
Proof. exact negative_zero_claim. Qed.
Print Assumptions C16_negative_zero_refuted.

(** C17, exact arithmetic ([py_ipf_exact] is the same model over the rationals): the result is the seed times one
    factor per marginal cell *)
Theorem C17_product_form : forall fuel seed ilist mlist, g_range 0%Qc ilist mlist -> all_proper 0%Qc ilist mlist -> wf_array seed ->
  prodZ (shape seed) < 2 ^ 60 -> prodZ (shape seed) < Z.of_nat fuel ->
  forall res, py_ipf_exact fuel seed ilist mlist = Ok res ->
  shape (ir_array res) = shape seed /\
  exists xs, length xs = length (gcons_of 0%Qc ilist mlist) /\ forall i, index_in (shape seed) i ->
    entry 0%Qc (ir_array res) i = (entry 0%Qc seed i * factors (gcons_of 0%Qc ilist mlist) xs i)%Qc.
Proof. exact exact_product_claim. Qed.
Print Assumptions C17_product_form.

(** C17: odds ratios are preserved.  [i], [j] and [i'], [j'] belong to the same pair of cells of every marginal, as
    (a,b), (c,d) and (a,d), (c,b) do in two dimensions. *)
Theorem C17_odds_ratios : forall fuel seed ilist mlist, g_range 0%Qc ilist mlist -> all_proper 0%Qc ilist mlist -> wf_array seed ->
  prodZ (shape seed) < 2 ^ 60 -> prodZ (shape seed) < Z.of_nat fuel ->
  forall res i j i' j', py_ipf_exact fuel seed ilist mlist = Ok res ->
  index_in (shape seed) i -> index_in (shape seed) j -> index_in (shape seed) i' -> index_in (shape seed) j' ->
  (forall c, In c (gcons_of 0%Qc ilist mlist) ->
     (proj (g_dims c) i = proj (g_dims c) i' /\ proj (g_dims c) j = proj (g_dims c) j') \/
     (proj (g_dims c) i = proj (g_dims c) j' /\ proj (g_dims c) j = proj (g_dims c) i')) ->
  let s := entry 0%Qc seed in let r := entry 0%Qc (ir_array res) in
  (r i * r j * (s i' * s j') = r i' * r j' * (s i * s j))%Qc.
Proof. exact exact_odds_claim. Qed.
Print Assumptions C17_odds_ratios.

(** C17: every cell of the last marginal is matched exactly, unless all states in it are zero *)
Theorem C17_last_marginal : forall fuel seed ilist mlist, g_range 0%Qc ilist mlist -> all_proper 0%Qc ilist mlist -> wf_array seed ->
  prodZ (shape seed) < 2 ^ 60 -> prodZ (shape seed) < Z.of_nat fuel ->
  forall res pre c, py_ipf_exact fuel seed ilist mlist = Ok res -> gcons_of 0%Qc ilist mlist = pre ++ [c] ->
  forall k, index_in (g_sizes c) k -> let r := entry 0%Qc (ir_array res) in
  marginQ (shape seed) (g_dims c) k r = g_at c k \/ forall i, index_in (shape seed) i -> proj (g_dims c) i = k -> r i = 0%Qc.
Proof. exact exact_last_claim. Qed.
Print Assumptions C17_last_marginal.
Theorem C17_last_marginal_positive : forall fuel seed ilist mlist, g_range 0%Qc ilist mlist -> all_proper 0%Qc ilist mlist -> wf_array seed ->
  prodZ (shape seed) < 2 ^ 60 -> prodZ (shape seed) < Z.of_nat fuel ->
  forall res pre c, py_ipf_exact fuel seed ilist mlist = Ok res -> gcons_of 0%Qc ilist mlist = pre ++ [c] ->
  (forall i, index_in (shape seed) i -> (0 < entry 0%Qc seed i)%Qc) ->
  (forall c k, In c (gcons_of 0%Qc ilist mlist) -> index_in (g_sizes c) k -> (0 < g_at c k)%Qc) ->
  forall k, index_in (g_sizes c) k -> marginQ (shape seed) (g_dims c) k (entry 0%Qc (ir_array res)) = g_at c k.
Proof. exact exact_last_pos_claim. Qed.
Print Assumptions C17_last_marginal_positive.
Example C17_ex : g_range 0%Qc exI_i exQ_m /\ all_proper 0%Qc exI_i exQ_m /\ wf_array exQ_s /\
  match py_ipf_exact 5 exQ_s exI_i exQ_m with
  | Ok r => ir_iters r = 5 /\ ir_conv r = true /\
            map (fun x => (Qnum (this x), Qden (this x))) (flat (ir_array r)) =
              [(68887, 153256%positive); (68887, 125133%positive); (84369, 153256%positive); (56246, 125133%positive)]
  | _ => False
  end.
Proof. split; [exact exQ_range|]. split; [exact exQ_proper|]. split; [apply shape_by; vm_compute; reflexivity|]. vm_compute. repeat split; reflexivity. Qed.

(** C08, ipf with integer-valued marginals ([dbl_of m] holds the integers of [m] as doubles) *)
Theorem C08_ipf_validation : forall ilist mlist, in_range ilist mlist -> exact_totals mlist -> let cs := cons_of ilist mlist in
  (exists c, In c cs /\ c_total c < 2 ^ 52) ->
  ((exists ms, (let* '(indices, margs) := py_lists as_nd ilist (map dbl_of mlist) in micro_new (T := double) DblMarg indices margs) = Ok ms) <->
   vectors ilist mlist /\ valid cs) /\
  ((exists e, (let* '(indices, margs) := py_lists as_nd ilist (map dbl_of mlist) in micro_new (T := double) DblMarg indices margs) = Throw e) <->
   ~ (vectors ilist mlist /\ valid cs)).
Proof. exact (@ipf_validation_claim double). Qed.
Print Assumptions C08_ipf_validation.
Theorem C08_ipf_rejects : forall fuel seed ilist mlist, in_range ilist mlist -> exact_totals mlist -> let cs := cons_of ilist mlist in
  (exists c, In c cs /\ c_total c < 2 ^ 52) -> ~ (vectors ilist mlist /\ valid cs) ->
  exists e, py_ipf fuel seed ilist (map dbl_of mlist) = Throw e.
Proof. exact ipf_rejects_claim. Qed.
Print Assumptions C08_ipf_rejects.
Theorem C08_ipf_accepts : forall fuel seed ilist mlist, in_range ilist mlist -> exact_totals mlist -> let cs := cons_of ilist mlist in
  (exists c, In c cs /\ c_total c < 2 ^ 52) -> vectors ilist mlist -> valid cs -> implied cs (shape seed) ->
  (forall c, In c cs -> proper (length (shape seed)) (c_dims c)) -> wf_array seed -> prodZ (shape seed) < Z.of_nat fuel ->
  exists res, py_ipf fuel seed ilist (map dbl_of mlist) = Ok res.
Proof. exact ipf_accepts_claim. Qed.
Print Assumptions C08_ipf_accepts.
Example C08_ipf_ex : in_range exB_i exB_m /\ exact_totals exB_m /\ (exists c, In c (cons_of exB_i exB_m) /\ c_total c < 2 ^ 52) /\
  vectors exB_i exB_m /\ valid (cons_of exB_i exB_m) /\ is_ok (py_ipf 9 (NDA [2; 2; 2] (dz [1; 1; 1; 1; 1; 1; 1; 1])) exB_i (map dbl_of exB_m)) = true.
Proof.
  split; [exact exB_range|]. split; [repeat constructor; vm_compute; congruence|].
  split; [eexists; split; [left; reflexivity|]; vm_compute; reflexivity|]. split; [apply exB_valid|]. split; [apply exB_valid|]. vm_compute. reflexivity.
Qed.
