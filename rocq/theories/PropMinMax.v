(** Property C60: smallest and largest element of an array. *)
From Coq Require Import Reals.
From Flocq Require Import IEEE754.BinarySingleNaN.
From Verif Require Import Base Spec NDArray Float64 ArrayOps Bind MinMaxProofs.
Open Scope Z_scope.

(** C60: min of an integer array is one of its elements and no element is smaller *)
Theorem C60_min_int : forall a : ndarray Z, wf_array a -> prodZ (shape a) < 2 ^ 60 ->
  (forall i, index_in (shape a) i -> - 2 ^ 63 <= entry 0 a i < 2 ^ 63) ->
  exists t m, as_nd a = Ok t /\ nd_min IntOps t = Ok m /\
    (exists i, index_in (shape a) i /\ entry 0 a i = m) /\ forall i, index_in (shape a) i -> m <= entry 0 a i.
Proof. exact min_int_claim. Qed.
Print Assumptions C60_min_int.
Example C60_min_ex : (let* t := as_nd (NDA [2; 2] [4; -7; 9; -7]) in nd_min IntOps t) = Ok (-7).
Proof. vm_compute. reflexivity. Qed.

(** C60: the same for arrays of finite doubles *)
Theorem C60_min_double : forall a : ndarray double, wf_array a -> prodZ (shape a) < 2 ^ 60 ->
  (forall i, index_in (shape a) i -> is_finite (entry d_zero a i) = true) ->
  exists t m, as_nd a = Ok t /\ nd_min DblOps t = Ok m /\
    (exists i, index_in (shape a) i /\ entry d_zero a i = m) /\
    forall i, index_in (shape a) i -> (B2R m <= B2R (entry d_zero a i))%R.
Proof. exact min_dbl_claim. Qed.
Print Assumptions C60_min_double.
Example C60_min_double_ex :
  (let* t := as_nd (NDA [3] [d_lit 3 (-1); d_lit (-5) (-2); d_one]) in let* m := nd_min DblOps t in Ok (B2SF m)) = Ok (B2SF (d_lit (-5) (-2))).
Proof. vm_compute. reflexivity. Qed.

(** C60 refuted for max: it is min, for every type and every array *)
Theorem C60_max_refuted : forall T (O : NumOps T) (t : nd T), nd_maxfn O t = nd_min O t.
Proof. exact max_is_min_claim. Qed.
Print Assumptions C60_max_refuted.
Example C60_max_ex : (let* t := as_nd (NDA [2; 2] [4; -7; 9; -7]) in nd_maxfn IntOps t) = Ok (-7).
Proof. vm_compute. reflexivity. Qed.
