(** Property C84: integerise of an array with two or more dimensions is qisi on its rounded one-dimensional sums.

    [array_sum], [slice_sum] and [array_rms] are in IntegeriseSpec.v, [axes], [axis_sums] and [whole_fit] in IntQisiSpec.v,
    [overshoots] in CoverSpec.v, [synthesised] and [refit] in SynthiSpec.v; they do not mention the model. *)
From Coq Require Import Reals.
From Flocq Require Import IEEE754.BinarySingleNaN.
From Verif Require Import Base Spec NDArray Float64 Bind Micro Stat Qis SynthSpec Qisi QisiClaims QuantSpec SynthiSpec CoverSpec
  Integerise IntegeriseSpec IntegeriseNd IntQisiSpec IntQisi.
Open Scope Z_scope.

(** C84: either the total or the sum of some slice is more than 1/10000 from every integer, and integerise raises; or
    integerise(a) is qisi(a, [[0], ..., [n-1]], m) with each m[d][k] within 1/9998 of the sum of the cells whose component [d] is
    [k]: the same table, the same flag, the same exception, and the rmse is that between the table and a. The arguments meet
    the conditions of C22, C42, C83 and the other theorems about qisi *)
Theorem C84_qisi : forall L fuel a, nd_range a -> let n := Z.of_nat (length (shape a)) in
  (exists x, (x = array_sum a \/ exists d k, 0 <= d < n /\ 0 <= k < nth (Z.to_nat d) (shape a) 0 /\ x = slice_sum a d k) /\
     (forall z, (/ 10000 < Rabs (B2R x - IZR z))%R) /\ py_integerise L fuel a = Throw (RuntimeError "value is not an integer (within tolerance)")) \/
  (exists m, (forall d k, 0 <= d < n -> 0 <= k < nth (Z.to_nat d) (shape a) 0 -> (Rabs (B2R (slice_sum a d k) - IZR (m d k)) <= / 9998)%R) /\
     qisi_range (axes n) (axis_sums (shape a) m) a /\ (prodZ (shape a) < Z.of_nat fuel -> qisi_good fuel (axes n) (axis_sums (shape a) m) a) /\
     py_integerise L fuel a =
       (let* r := py_qisi L fuel a (axes n) (axis_sums (shape a) m) 0 in Ok (qr_pop_array r, qr_conv r, array_rms (qr_pop_array r) a))).
Proof. exact int_qisi_claim. Qed.
Print Assumptions C84_qisi.

(** so (C83) if conv is False, one of the tables fitted on the way overshoots what is left of the one-dimensional sums, or has
    a cell that is negative, infinite or not a number *)
Theorem C84_overshoots : forall L fuel a res rmse, nd_range a -> prodZ (shape a) < Z.of_nat fuel -> py_integerise L fuel a = Ok (res, false, rmse) ->
  let n := Z.of_nat (length (shape a)) in
  exists m, (forall d k, 0 <= d < n -> 0 <= k < nth (Z.to_nat d) (shape a) 0 -> (Rabs (B2R (slice_sum a d k) - IZR (m d k)) <= / 9998)%R) /\
    let cs := cons_of (axes n) (axis_sums (shape a) m) in
    exists points people g p x q t, synthesised cs (shape a) (entry d_zero a) points people g /\
    (forall i, index_in (shape a) i -> entry 0 res i = occurrences i people) /\
    people = p ++ x :: q /\ refit cs (shape a) (entry d_zero a) (left_of p) t /\ overshoots cs (shape a) (left_of p) t.
Proof. exact int_overshoots_claim. Qed.
Print Assumptions C84_overshoots.

(** It is not so that integerise returns, nor that it converges when it returns, whenever there is a table of whole numbers
    with exactly the one-dimensional sums of [a], empty wherever [a] is zero *)
Theorem C84_whole_refuted : forall L,
  ~ (forall a b, nd_range a -> whole_fit a b -> exists res conv rmse, py_integerise L 40 a = Ok (res, conv, rmse)) /\
  ~ (forall a b res conv rmse, nd_range a -> whole_fit a b -> py_integerise L 40 a = Ok (res, conv, rmse) -> conv = true).
Proof. exact whole_refuted. Qed.
Print Assumptions C84_whole_refuted.

(** the witnesses: two arrays of halves of shape (2, 2, 2) *)
Example C84_ex_raises : forall L, nd_range exR /\ whole_fit exR (entry 0 exR_b) /\ py_integerise L 40 exR = Throw (RuntimeError "pick failed").
Proof. exact exR_raises. Qed.
Print Assumptions C84_ex_raises.

(** the second meets the hypotheses of C84_overshoots *)
Example C84_ex_false : forall L, nd_range exF /\ whole_fit exF (entry 0 exF_b) /\ exists res rmse, py_integerise L 40 exF = Ok (res, false, rmse).
Proof. exact exF_false. Qed.
Print Assumptions C84_ex_false.
