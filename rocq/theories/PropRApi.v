(** The R binding: C37 and C55-C58.

    [r_qis], [r_qisi], [r_ipf] and [r_integerise] are the R functions; arrays are column-major ([r_entry]) and
    [rcons_of] turns R's 1-based dimension numbers into 0-based ones.  [r_range] and [rg_range] only exclude empty
    arrays and sizes near the limits of the integer types. *)
From Coq Require Import Reals.
From Flocq Require Import IEEE754.BinarySingleNaN.
From Verif Require Import Base Spec NDArray Float64 Sobol Micro Stat Qis Ipf Qisi Integerise Bind SynthSpec IpfSpec IntegeriseSpec IntegeriseNd IntegeriseExamples
  ArrayOps QisExamples IpfExamples RSpec RApi RApiClaims RIpfSeed RApiExamples.
Open Scope Z_scope.

(** C37: qis, column-major and 1-based.  If conv is TRUE the marginals are matched; below 2^31 individuals conv is TRUE
    exactly then, and the population is non-negative with the right total *)
Theorem C37_conv : forall L fuel indices marginals skips res, r_range indices marginals -> r_qis L fuel indices marginals skips = Ok res ->
  let a := rr_result res in implied (rcons_of indices marginals) (col_sizes a) /\ wf_rarray a /\
  (rr_conv res = true -> forall c, In c (rcons_of indices marginals) -> meets (col_sizes a) (r_entry 0 a) c).
Proof. exact r_qis_claim. Qed.
Print Assumptions C37_conv.
Theorem C37_population : forall L fuel indices marginals skips res, r_range indices marginals -> r_qis L fuel indices marginals skips = Ok res ->
  let a := rr_result res in (forall c, In c (rcons_of indices marginals) -> c_total c = rr_pop res) /\
  (rr_pop res < 2 ^ 31 -> (forall i, index_in (col_sizes a) i -> 0 <= r_entry 0 a i) /\ total (col_sizes a) (r_entry 0 a) = rr_pop res /\
     (rr_conv res = true <-> forall c, In c (rcons_of indices marginals) -> meets (col_sizes a) (r_entry 0 a) c)).
Proof. exact r_qis_pop_claim. Qed.
Print Assumptions C37_population.
Theorem C37_returns_or_raises : forall L fuel indices marginals skips, r_range indices marginals -> u32 skips <= 2 ^ 31 -> (32 <= fuel)%nat ->
  (length indices = length marginals -> Forall2 (fun iv m => (length (col_sizes m) <= length iv)%nat) indices marginals) ->
  (exists res, r_qis L fuel indices marginals skips = Ok res) \/ (exists e, r_qis L fuel indices marginals skips = Throw e).
Proof. exact r_qis_safe_claim. Qed.
Print Assumptions C37_returns_or_raises.
Example C37_ex : r_range exR_i exR_m /\ Forall2 (fun iv (m : rarray Z) => (length (col_sizes m) <= length iv)%nat) exR_i exR_m /\
  match r_view (r_qis L0 40 exR_i exR_m 0) with
  | Some (conv, pop, cells) => conv = true /\ pop = 30 /\ length cells = 30%nat /\ sumZ cells = 30
  | None => False
  end.
Proof. split; [exact exR_range|]. split; [repeat constructor|]. vm_compute. repeat split; reflexivity. Qed.

(** C55 is false: an index vector shorter than its marginal has dimensions is read past its end, whatever the other
    arguments *)
Theorem C55_refuted : forall L fuel sdim sdata indices marginals skips iv m, length indices = length marginals ->
  In (iv, m) (combine indices marginals) -> (length iv < length (col_sizes m))%nat ->
  (exists w, r_qis L fuel indices marginals skips = UB w) /\ (exists w, r_qisi L fuel sdim sdata indices marginals skips = UB w).
Proof. exact r_short_claim. Qed.
Print Assumptions C55_refuted.
Theorem C55_ipf_refuted : forall fuel sdim sdata indices marginals iv m, length indices = length marginals ->
  In (iv, m) (combine indices marginals) -> (length iv < length (col_sizes m))%nat -> exists w, r_ipf fuel sdim sdata indices marginals = UB w.
Proof. exact r_ipf_short_claim. Qed.
Print Assumptions C55_ipf_refuted.
Example C55_ex : let indices := [[1; 2]; [3]] in
  length indices = length exR_m /\ In ([3], RA (Some [3; 2]) [4; 6; 5; 6; 4; 5]) (combine indices exR_m).
Proof. split; [reflexivity|]. right. left. reflexivity. Qed.

(** C56 is false: a seed with all the implied dimensions and more makes checkSeed read past the end of the implied
    dimensions *)
Theorem C56_refuted : forall L fuel sdata indices marginals skips impl extra, length indices = length marginals ->
  implied (rcons_of indices marginals) impl -> extra <> [] ->
  exists w, r_qisi L fuel (impl ++ extra) sdata indices marginals skips = UB w.
Proof. exact r_long_seed_claim. Qed.
Print Assumptions C56_refuted.
Theorem C56_ipf_refuted : forall fuel sdata indices marginals impl extra, length indices = length marginals ->
  implied (map outline (rgcons_of d_zero indices marginals)) impl -> extra <> [] ->
  exists w, r_ipf fuel (impl ++ extra) sdata indices marginals = UB w.
Proof. exact r_ipf_long_seed_claim. Qed.
Print Assumptions C56_ipf_refuted.
Example C56_refuted_ex : length exR_i = length exR_m /\ implied (rcons_of exR_i exR_m) [5; 2; 3] /\ [5; 2; 3] ++ [4] = [5; 2; 3; 4] /\
  implied (map outline (rgcons_of d_zero exR_i exR_d)) [5; 2; 3].
Proof. split; [reflexivity|]. split; [exact exR_implied|]. split; [reflexivity|]. exact exR_dimplied. Qed.

(** the part of C56 that holds: qisi refuses seeds of any other wrong shape, and seeds with negative values *)
Theorem C56_rejects : forall L fuel sdim sdata indices marginals skips impl, r_range indices marginals -> r_seed sdim sdata ->
  length indices = length marginals -> implied (rcons_of indices marginals) impl -> sdim <> impl -> (length sdim <= length impl)%nat ->
  u32 skips <= 2 ^ 31 -> (32 <= fuel)%nat -> exists e, r_qisi L fuel sdim sdata indices marginals skips = Throw e.
Proof. exact r_short_seed_claim. Qed.
Print Assumptions C56_rejects.
Theorem C56_negative : forall L fuel sdim sdata indices marginals skips impl, length indices = length marginals ->
  implied (rcons_of indices marginals) impl -> (length sdim <= length impl)%nat -> Exists (fun x => d_ltb x d_zero = true) sdata ->
  exists e, r_qisi L fuel sdim sdata indices marginals skips = Throw e.
Proof. exact r_negative_seed_claim. Qed.
Print Assumptions C56_negative.
(** ipf does too; the conversion of a marginal's sum to int64_t has to be defined *)
Theorem C56_ipf_rejects : forall fuel sdim sdata indices marginals impl, rg_range d_zero indices marginals -> r_seed sdim sdata ->
  length indices = length marginals -> implied (map outline (rgcons_of d_zero indices marginals)) impl -> sdim <> impl -> (length sdim <= length impl)%nat ->
  (forall m, In m marginals -> exists p, d_to_i64 (d_add (fold_left d_add (map (r_entry d_zero m) (all_indices (col_sizes m))) d_zero) d_half) = Ok p) ->
  exists e, r_ipf fuel sdim sdata indices marginals = Throw e.
Proof. exact r_ipf_short_seed_claim. Qed.
Print Assumptions C56_ipf_rejects.
Theorem C56_ipf_negative : forall fuel sdim sdata indices marginals impl, length indices = length marginals ->
  implied (map outline (rgcons_of d_zero indices marginals)) impl -> (length sdim <= length impl)%nat -> Exists (fun x => d_ltb x d_zero = true) sdata ->
  exists e, r_ipf fuel sdim sdata indices marginals = Throw e.
Proof. exact r_ipf_negative_seed_claim. Qed.
Print Assumptions C56_ipf_negative.
Example C56_ipf_ex : rg_range d_zero exR_i exR_d /\ r_seed [5; 2] (dz (repeat 1 10)) /\ length exR_i = length exR_d /\
  implied (map outline (rgcons_of d_zero exR_i exR_d)) [5; 2; 3] /\
  forall m, In m exR_d -> exists p, d_to_i64 (d_add (fold_left d_add (map (r_entry d_zero m) (all_indices (col_sizes m))) d_zero) d_half) = Ok p.
Proof.
  split; [exact exR_drange|]. split; [apply r_seed_by; vm_compute; reflexivity|]. split; [reflexivity|]. split; [exact exR_dimplied|].
  intros m [<-|[<-|[]]]; exists 30; vm_compute; reflexivity.
Qed.
Example C56_ex : r_range exR_i exR_m /\ r_seed [5; 2] (dz (repeat 1 10)) /\ length exR_i = length exR_m /\ implied (rcons_of exR_i exR_m) [5; 2; 3] /\
  [5; 2] <> [5; 2; 3] /\ Exists (fun x => d_ltb x d_zero = true) (dz [1; -1]).
Proof.
  split; [exact exR_range|]. split; [apply r_seed_by; vm_compute; reflexivity|]. split; [reflexivity|]. split; [exact exR_implied|].
  split; [discriminate|]. right. left. vm_compute. reflexivity.
Qed.

(** C57: qisi, column-major and 1-based *)
Theorem C57_qisi : forall L fuel sdim sdata indices marginals skips res, r_range indices marginals -> r_seed sdim sdata ->
  r_qisi L fuel sdim sdata indices marginals skips = Ok res ->
  let a := rr_result res in col_sizes a = sdim /\ wf_rarray a /\ implied (rcons_of indices marginals) sdim /\
  (rr_conv res = true -> forall c, In c (rcons_of indices marginals) -> meets sdim (r_entry 0 a) c) /\
  (forall c, In c (rcons_of indices marginals) -> c_total c = rr_pop res) /\
  (rr_pop res < 2 ^ 31 -> (forall i, index_in sdim i -> 0 <= r_entry 0 a i) /\ total sdim (r_entry 0 a) = rr_pop res /\
     (rr_conv res = true <-> forall c, In c (rcons_of indices marginals) -> meets sdim (r_entry 0 a) c)).
Proof. exact r_qisi_claim. Qed.
Print Assumptions C57_qisi.
Theorem C57_qisi_returns_or_raises : forall L fuel sdim sdata indices marginals skips impl, r_range indices marginals -> r_seed sdim sdata ->
  r_proper (length sdim) indices -> length indices = length marginals -> implied (rcons_of indices marginals) impl -> (length sdim <= length impl)%nat ->
  prodZ sdim < Z.of_nat fuel -> u32 skips <= 2 ^ 31 -> (32 <= fuel)%nat ->
  (exists res, r_qisi L fuel sdim sdata indices marginals skips = Ok res) \/ (exists e, r_qisi L fuel sdim sdata indices marginals skips = Throw e).
Proof. exact r_qisi_safe_claim. Qed.
Print Assumptions C57_qisi_returns_or_raises.

(** C57: ipf.  The returned array is never negative; sums over the other dimensions, in storage order, are within maxError
    of the marginal, hence within 1e-8 if conv is TRUE *)
Theorem C57_ipf : forall fuel sdim sdata indices marginals res, rg_range d_zero indices marginals -> r_seed sdim sdata ->
  r_proper (length sdim) indices -> prodZ sdim < Z.of_nat fuel -> r_ipf fuel sdim sdata indices marginals = Ok res ->
  let a := ri_result res in col_sizes a = sdim /\ wf_rarray a /\ (forall i, index_in sdim i -> d_ltb (r_entry d_zero a i) d_zero = false) /\
  forall c k, In c (rgcons_of d_zero indices marginals) -> index_in (g_sizes c) k ->
    let s := r_marginD sdim (g_dims c) k (r_entry d_zero a) in is_nan s = false ->
    d_leb (d_abs (d_sub s (g_at c k))) (ri_max res) = true /\ (ri_conv res = true -> d_ltb (d_abs (d_sub s (g_at c k))) d_1em8 = true).
Proof. exact r_ipf_claim. Qed.
Print Assumptions C57_ipf.
Example C57_ex : r_range exR_i exR_m /\ r_seed exR_sdim exR_sdata /\ r_proper (length exR_sdim) exR_i /\ rg_range d_zero exR_i exR_d /\
  match r_view (r_qisi L0 40 exR_sdim exR_sdata exR_i exR_m 0) with
  | Some (conv, pop, cells) => conv = true /\ pop = 30 /\ sumZ cells = 30
  | None => False
  end /\ match r_ipf 40 exR_sdim exR_sdata exR_i exR_d with Ok r => ri_conv r = true /\ ri_pop r = 30 | _ => False end.
Proof.
  split; [exact exR_range|]. split; [exact exR_seed|]. split; [exact exR_proper|]. split; [exact exR_drange|].
  split; vm_compute; repeat split; reflexivity.
Qed.

(** C58: integerise of an array in R is integerise of its transpose in Python, transposed back; the cells are converted
    to int *)
Theorem C58_integerise : forall L fuel pdim pdata, nd_range (NDA (rev pdim) pdata) ->
  r_integerise L fuel pdim pdata =
  (let* '(b, conv, rmse) := py_integerise L fuel (NDA (rev pdim) pdata) in Ok (RA (Some pdim) (map s32 (flat b)), conv, rmse)).
Proof. exact r_integerise_claim. Qed.
Print Assumptions C58_integerise.
Example C58_ex : let data := map (fun x => d_div x (d_ofZ 2)) (dz [1; 1; 1; 1; 2; 2]) in nd_range (NDA (rev [2; 3]) data) /\
  match r_integerise L0 40 [2; 3] data with Ok (r, conv, _) => conv = true /\ r_data r = [0; 1; 1; 0; 1; 1] | _ => False end.
Proof. split; [apply nd_range_by; vm_compute; reflexivity|]. vm_compute. split; reflexivity. Qed.
