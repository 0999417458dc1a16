(** C92: qis, qisi and ipf in R and in Python. *)
From Coq Require Import Permutation.
From Verif Require Import Base Spec NDArray Float64 Bind Micro Qis Ipf Qisi SynthSpec IpfSpec QisExamples RSpec RApi RApiExamples ReorderSpec GrowProofs RQisProofs PropRApi.
Open Scope Z_scope.

(** C92: qis in R is Python's qis on the lists in reverse order, its dimensions numbered from the other end; the cells, read
    in row-major order there and in column-major order here, are converted to int *)
Theorem C92_python : forall L fuel indices marginals skips rs, r_range indices marginals -> length indices = length marginals ->
  implied (rcons_of indices marginals) rs -> let n := Z.of_nat (length rs) in
  r_qis L fuel indices marginals skips =
  (let* p := py_qis L fuel (rev (map (fun iv => NDA [Z.of_nat (length iv)] (map (fun d => n - d) iv)) indices))
                           (rev (map (fun m => NDA (col_sizes m) (map (r_entry 0 m) (all_indices (col_sizes m)))) marginals)) skips in
   Ok (RR (RA (Some rs) (map s32 (flat (qr_pop_array p)))) (RA (Some rs) (flat (qr_expectation p))) (qr_conv p) (qr_pop p)
          (qr_chisq p) (qr_pvalue p) (Some (qr_degeneracy p)))).
Proof. exact r_qis_python. Qed.
Print Assumptions C92_python.

(** C92: if qisi or ipf returns in R, Python's returns on the reversed lists and the reversed seed, and R's answer is read off it *)
Theorem C92_qisi : forall L fuel sdim sdata indices marginals skips res, r_range indices marginals -> r_seed sdim sdata ->
  r_qisi L fuel sdim sdata indices marginals skips = Ok res -> let n := Z.of_nat (length sdim) in exists p,
  py_qisi L fuel (NDA (rev sdim) sdata) (rev (map (fun iv => NDA [Z.of_nat (length iv)] (map (fun d => n - d) iv)) indices))
                 (rev (map (fun m => NDA (col_sizes m) (map (r_entry 0 m) (all_indices (col_sizes m)))) marginals)) skips = Ok p /\
  res = RR (RA (Some sdim) (map s32 (flat (qr_pop_array p)))) (RA (Some sdim) (flat (qr_expectation p))) (qr_conv p) (qr_pop p)
           (qr_chisq p) (qr_pvalue p) None.
Proof. exact r_qisi_python. Qed.
Print Assumptions C92_qisi.
Theorem C92_ipf : forall fuel sdim sdata indices marginals res, rg_range d_zero indices marginals -> r_seed sdim sdata -> r_proper (length sdim) indices ->
  prodZ sdim < Z.of_nat fuel -> r_ipf fuel sdim sdata indices marginals = Ok res -> let n := Z.of_nat (length sdim) in exists p,
  py_ipf fuel (NDA (rev sdim) sdata) (rev (map (fun iv => NDA [Z.of_nat (length iv)] (map (fun d => n - d) iv)) indices))
              (rev (map (fun m => NDA (col_sizes m) (map (r_entry d_zero m) (all_indices (col_sizes m)))) marginals)) = Ok p /\
  res = RI (RA (Some sdim) (flat (ir_array p))) (ir_conv p) (ir_pop p) (ir_iters p) (ir_max p).
Proof. exact r_ipf_python. Qed.
Print Assumptions C92_ipf.

(** C92: so in R the people keep their old attributes if new dimensions are numbered first and their marginals listed first *)
Theorem C92_extended : forall L fuel indices marginals indices' marginals' skips rs m res',
  r_range indices marginals -> length indices = length marginals -> (2 <= length indices)%nat ->
  implied (rcons_of indices marginals) rs -> (2 <= length rs)%nat ->
  let long := indices' ++ map (map (Z.add (Z.of_nat m))) indices in
  r_range long (marginals' ++ marginals) -> r_qis L fuel long (marginals' ++ marginals) skips = Ok res' ->
  let sizes' := col_sizes (rr_result res') in
  length sizes' = (m + length rs)%nat -> rr_pop res' < 2 ^ 31 -> (32 <= fuel)%nat ->
  exists res, r_qis L fuel indices marginals skips = Ok res /\ col_sizes (rr_result res) = rs /\ rr_pop res = rr_pop res' /\
    (forall k, index_in rs k -> r_entry 0 (rr_result res) k =
       margin sizes' (map (Z.add (Z.of_nat m)) (zrange (Z.of_nat (length rs)))) k (r_entry 0 (rr_result res'))) /\
    (rr_conv res' = true -> rr_conv res = true).
Proof. exact r_grow_claim. Qed.
Print Assumptions C92_extended.

(** C92: and marginals that share no dimension may be listed in any order in R too *)
Theorem C92_independent : forall L fuel indices marginals indices' marginals' skips res,
  r_range indices marginals -> r_range indices' marginals' -> length indices' = length marginals' ->
  r_qis L fuel indices marginals skips = Ok res -> no_sharing (rcons_of indices marginals) ->
  Permutation (combine indices marginals) (combine indices' marginals') -> (32 <= fuel)%nat ->
  exists res', r_qis L fuel indices' marginals' skips = Ok res' /\ rr_result res' = rr_result res /\ rr_pop res' = rr_pop res /\
    rr_conv res' = rr_conv res /\ rr_degeneracy res' = rr_degeneracy res.
Proof. exact r_no_sharing_claim. Qed.
Print Assumptions C92_independent.

(** C92 for the same marginals in the same order is false: R and Python draw different populations *)
Theorem C92_same_refuted : exists indices marginals ilist mlist res res', r_range indices marginals /\ in_range ilist mlist /\
  Forall2 same_con (rcons_of indices marginals) (cons_of ilist mlist) /\
  r_qis L0 40 indices marginals 0 = Ok res /\ py_qis L0 40 ilist mlist 0 = Ok res' /\ rr_conv res = true /\ qr_conv res' = true /\
  exists i, index_in (shape (qr_pop_array res')) i /\ r_entry 0 (rr_result res) i <> entry 0 (qr_pop_array res') i.
Proof. exact same_refute. Qed.
Print Assumptions C92_same_refuted.

(** two marginals and their dimensions *)
Example C92_python_ex : r_range exGrR_i exGrR_m /\ length exGrR_i = length exGrR_m /\ implied (rcons_of exGrR_i exGrR_m) [2; 2; 2] /\
  r_view' (r_qis L0 40 exGrR_i exGrR_m 0) = Some (true, Some [2; 2; 2], [0; 2; 1; 2; 1; 1; 1; 2]).
Proof. split; [exact exGrR_range|]. split; [reflexivity|]. split; [exact exGrR_implied|exact exGrR_run]. Qed.

(** ... and a marginal over a new dimension 1 and old dimension 2 in front of them *)
Example C92_extended_ex : exists res', r_range exGrR_i exGrR_m /\ implied (rcons_of exGrR_i exGrR_m) [2; 2; 2] /\
  r_range (exRG_i ++ map (map (Z.add (Z.of_nat 1))) exGrR_i) (exRG_m ++ exGrR_m) /\
  r_qis L0 40 (exRG_i ++ map (map (Z.add (Z.of_nat 1))) exGrR_i) (exRG_m ++ exGrR_m) 0 = Ok res' /\
  rr_result res' = RA (Some [2; 2; 2; 2]) [0; 0; 1; 1; 0; 1; 1; 1; 0; 1; 0; 1; 1; 0; 2; 0] /\ rr_pop res' = 10.
Proof. exact exRG_ex. Qed.

(** a seed with which both qisi and ipf return *)
Example C92_seeded_ex : r_range exR_i exR_m /\ r_seed exR_sdim exR_sdata /\ r_proper (length exR_sdim) exR_i /\ rg_range d_zero exR_i exR_d /\
  match r_view (r_qisi L0 40 exR_sdim exR_sdata exR_i exR_m 0) with
  | Some (conv, pop, cells) => conv = true /\ pop = 30 /\ sumZ cells = 30
  | None => False
  end /\ match r_ipf 40 exR_sdim exR_sdata exR_i exR_d with Ok r => ri_conv r = true /\ ri_pop r = 30 | _ => False end.
Proof. exact C57_ex. Qed.

(** three marginals without a common dimension, in two orders *)
Example C92_independent_ex : exists res, r_range exRF_i exRF_m /\ r_range exRF_i' exRF_m' /\ length exRF_i' = length exRF_m' /\
  r_qis L0 40 exRF_i exRF_m 0 = Ok res /\ rr_pop res = 10 /\ no_sharing (rcons_of exRF_i exRF_m) /\
  Permutation (combine exRF_i exRF_m) (combine exRF_i' exRF_m').
Proof. exact exRF_ex. Qed.
