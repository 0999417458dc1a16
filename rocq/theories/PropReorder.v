(** C88: what the order of the marginals does to the population of qis. *)
From Coq Require Import Permutation.
From Verif Require Import Base Spec NDArray Bind Micro Qis SynthSpec QisExamples ReorderSpec ReorderProofs.
Open Scope Z_scope.

(** C88: exchanging neighbours whose common dimensions all occur earlier, any number of times, leaves population and conv unchanged *)
Theorem C88_reordered : forall L fuel ilist mlist ilist' mlist' skips res,
  in_range ilist mlist -> vectors ilist' mlist' -> in_range ilist' mlist' -> py_qis L fuel ilist mlist skips = Ok res ->
  reordered (cons_of ilist mlist) (cons_of ilist' mlist') -> (32 <= fuel)%nat ->
  exists res', py_qis L fuel ilist' mlist' skips = Ok res' /\ qr_pop_array res' = qr_pop_array res /\ qr_pop res' = qr_pop res /\
    qr_conv res' = qr_conv res /\ qr_degeneracy res' = qr_degeneracy res.
Proof. exact reorder_claim. Qed.
Print Assumptions C88_reordered.

(** C88: marginals that share no dimension may be listed in any order *)
Theorem C88_independent : forall L fuel ilist mlist ilist' mlist' skips res,
  in_range ilist mlist -> vectors ilist' mlist' -> in_range ilist' mlist' -> py_qis L fuel ilist mlist skips = Ok res ->
  no_sharing (cons_of ilist mlist) -> Permutation (combine ilist mlist) (combine ilist' mlist') -> (32 <= fuel)%nat ->
  exists res', py_qis L fuel ilist' mlist' skips = Ok res' /\ qr_pop_array res' = qr_pop_array res /\ qr_pop res' = qr_pop res /\
    qr_conv res' = qr_conv res /\ qr_degeneracy res' = qr_degeneracy res.
Proof. exact no_sharing_claim. Qed.
Print Assumptions C88_independent.

(** C88 for marginals that share a dimension is false, even where both orders converge *)
Theorem C88_shared_refuted : exists ilist mlist ilist' mlist' res res', in_range ilist mlist /\ in_range ilist' mlist' /\
  vectors ilist mlist /\ valid (cons_of ilist mlist) /\ share_at_most_one (cons_of ilist mlist) /\
  Permutation (combine ilist mlist) (combine ilist' mlist') /\
  py_qis L0 40 ilist mlist 0 = Ok res /\ py_qis L0 40 ilist' mlist' 0 = Ok res' /\ qr_conv res = true /\ qr_conv res' = true /\
  flat (qr_pop_array res') <> flat (qr_pop_array res).
Proof. exact reorder_refute. Qed.
Print Assumptions C88_shared_refuted.

(** a star of three marginals sharing dimension 1, its last two exchanged *)
Example C88_ex : exists res, in_range exSt_i exSt_m /\ vectors exSt_i' exSt_m' /\ in_range exSt_i' exSt_m' /\
  py_qis L0 40 exSt_i exSt_m 0 = Ok res /\ flat (qr_pop_array res) = [0; 1; 0; 0; 0; 1; 0; 1; 0; 1; 1; 1; 2; 0; 2; 0] /\
  reordered (cons_of exSt_i exSt_m) (cons_of exSt_i' exSt_m') /\ cons_of exSt_i exSt_m <> cons_of exSt_i' exSt_m'.
Proof. exact exSt_ex. Qed.

(** three marginals without a common dimension, in two orders *)
Example C88_independent_ex : exists res, in_range exFree_i exFree_m /\ vectors exFree_i' exFree_m' /\ in_range exFree_i' exFree_m' /\
  py_qis L0 40 exFree_i exFree_m 0 = Ok res /\ qr_pop res = 10 /\
  no_sharing (cons_of exFree_i exFree_m) /\ Permutation (combine exFree_i exFree_m) (combine exFree_i' exFree_m').
Proof. exact exFree_ex. Qed.
