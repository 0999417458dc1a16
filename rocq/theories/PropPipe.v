(** C94: ipf followed by integerise.

    [whole_axes] is in PipeSpec.v, [axes] and [axis_sums] in IntQisiSpec.v, [person] and [head_count] in PeopleSpec.v,
    [array_sum] and [array_rms] in IntegeriseSpec.v. *)
From Coq Require Import Reals.
From Flocq Require Import IEEE754.BinarySingleNaN.
From Verif Require Import Base Spec NDArray Float64 Bind Micro Stat Qis SynthSpec Ipf IpfSpec Qisi Integerise IntegeriseSpec IntegeriseNd IntQisiSpec.
From Verif Require Import QisExamples PeopleSpec PipeSpec PipeProofs.
Open Scope Z_scope.

(** C94: if ipf converges on whole-number marginals, integerise of its result has conv True exactly if its table has those
    marginals *)
Theorem C94_conv : forall fuel seed ilist mlist res m, d_range ilist mlist -> all_proper d_zero ilist mlist -> wf_array seed ->
  prodZ (shape seed) < 2 ^ 60 -> prodZ (shape seed) < Z.of_nat fuel -> py_ipf fuel seed ilist mlist = Ok res -> ir_conv res = true ->
  nd_range (ir_array res) -> whole_axes (dcons_of ilist mlist) (shape (ir_array res)) m ->
  forall L fuel' b conv rmse, py_integerise L fuel' (ir_array res) = Ok (b, conv, rmse) ->
  shape b = shape seed /\ (forall i, index_in (shape seed) i -> 0 <= entry 0 b i) /\
  (conv = true <-> forall d k, 0 <= d < Z.of_nat (length (shape seed)) -> 0 <= k < nth (Z.to_nat d) (shape seed) 0 ->
     margin (shape seed) [d] [k] (entry 0 b) = m d k).
Proof. exact pipe_conv. Qed.
Print Assumptions C94_conv.

(** C94: unless the total of ipf's table is more than 1/10000 from every integer, integerise gives what qisi gives with that
    table as the seed and the marginals ipf was given *)
Theorem C94_qisi : forall fuel seed ilist mlist res m, d_range ilist mlist -> all_proper d_zero ilist mlist -> wf_array seed ->
  prodZ (shape seed) < 2 ^ 60 -> prodZ (shape seed) < Z.of_nat fuel -> py_ipf fuel seed ilist mlist = Ok res -> ir_conv res = true ->
  nd_range (ir_array res) -> whole_axes (dcons_of ilist mlist) (shape (ir_array res)) m ->
  forall L fuel', let a := ir_array res in let n := Z.of_nat (length (shape seed)) in
  ((forall z, (/ 10000 < Rabs (B2R (array_sum a) - IZR z))%R) /\
     py_integerise L fuel' a = Throw (RuntimeError "value is not an integer (within tolerance)")) \/
  py_integerise L fuel' a =
    (let* r := py_qisi L fuel' a (axes n) (axis_sums (shape seed) m) 0 in Ok (qr_pop_array r, qr_conv r, array_rms (qr_pop_array r) a)).
Proof. exact pipe_qisi. Qed.
Print Assumptions C94_qisi.

(** C94: some dimension with at most 1024 categories, and a population small for the number of cells, rule that case out *)
Theorem C94_same : forall fuel seed ilist mlist res m, d_range ilist mlist -> all_proper d_zero ilist mlist -> wf_array seed ->
  prodZ (shape seed) < 2 ^ 60 -> prodZ (shape seed) < Z.of_nat fuel -> py_ipf fuel seed ilist mlist = Ok res -> ir_conv res = true ->
  nd_range (ir_array res) -> whole_axes (dcons_of ilist mlist) (shape (ir_array res)) m ->
  forall d, 0 <= d < Z.of_nat (length (shape seed)) -> nth (Z.to_nat d) (shape seed) 0 <= 1024 ->
  prodZ (shape seed) * (sumZ (map (m d) (zrange (nth (Z.to_nat d) (shape seed) 0))) + 1) <= 2 ^ 36 -> forall L fuel',
  py_integerise L fuel' (ir_array res) =
    (let* r := py_qisi L fuel' (ir_array res) (axes (Z.of_nat (length (shape seed)))) (axis_sums (shape seed) m) 0 in
     Ok (qr_pop_array r, qr_conv r, array_rms (qr_pop_array r) (ir_array res))).
Proof. exact pipe_same. Qed.
Print Assumptions C94_same.

(** C94: flatten then lists as many people as each of ipf's marginals has, and conv is True exactly if each category of each
    dimension has as many of them as ipf was given *)
Theorem C94_people : forall fuel seed ilist mlist res m, d_range ilist mlist -> all_proper d_zero ilist mlist -> wf_array seed ->
  prodZ (shape seed) < 2 ^ 60 -> prodZ (shape seed) < Z.of_nat fuel -> py_ipf fuel seed ilist mlist = Ok res -> ir_conv res = true ->
  nd_range (ir_array res) -> whole_axes (dcons_of ilist mlist) (shape (ir_array res)) m ->
  forall L fuel' b conv rmse, py_integerise L fuel' (ir_array res) = Ok (b, conv, rmse) -> Forall (fun n => n <= 2 ^ 31) (shape seed) ->
  exists cols n, flatten b = Ok cols /\ length cols = length (shape seed) /\ Forall (fun col => Z.of_nat (length col) = n) cols /\
    (forall p, Z.of_nat p < n -> index_in (shape seed) (person cols p)) /\
    (forall d, 0 <= d < Z.of_nat (length (shape seed)) -> n = sumZ (map (m d) (zrange (nth (Z.to_nat d) (shape seed) 0)))) /\
    (conv = true <-> forall d k, 0 <= d < Z.of_nat (length (shape seed)) -> 0 <= k < nth (Z.to_nat d) (shape seed) 0 ->
       head_count cols n [d] [k] = m d k).
Proof. exact pipe_people. Qed.
Print Assumptions C94_people.

(** a table of nine people with the marginals (7, 2) and (5, 4) *)
Example C94_ex : d_range (axes 2) (margs_of exPi_l) /\ all_proper d_zero (axes 2) (margs_of exPi_l) /\ wf_array exPi_s /\
  whole_axes (dcons_of (axes 2) (margs_of exPi_l)) [2; 2] (tab exPi_l) /\
  prodZ (shape exPi_s) * (sumZ (map (tab exPi_l 0) (zrange (nth (Z.to_nat 0) (shape exPi_s) 0))) + 1) = 40 /\
  exists res b rmse, py_ipf 9 exPi_s (axes 2) (margs_of exPi_l) = Ok res /\ ir_conv res = true /\ nd_range (ir_array res) /\
    py_integerise L0 40 (ir_array res) = Ok (b, true, rmse) /\ flat b = [4; 3; 1; 1] /\
    flatten b = Ok [[0; 0; 0; 0; 0; 0; 0; 1; 1]; [0; 0; 0; 0; 1; 1; 1; 0; 1]].
Proof. exact exPi_ex. Qed.

(** It is not so that integerise of a converged table converges, nor that it returns *)
Theorem C94_refuted : forall L, exists seed l l' seed' res res' b rmse,
  (d_range (axes 3) (margs_of l) /\ all_proper d_zero (axes 3) (margs_of l) /\ wf_array seed /\
   whole_axes (dcons_of (axes 3) (margs_of l)) (shape (ir_array res)) (tab l) /\ nd_range (ir_array res) /\
   py_ipf 9 seed (axes 3) (margs_of l) = Ok res /\ ir_conv res = true /\ py_integerise L 40 (ir_array res) = Ok (b, false, rmse)) /\
  (d_range (axes 3) (margs_of l') /\ all_proper d_zero (axes 3) (margs_of l') /\ wf_array seed' /\
   whole_axes (dcons_of (axes 3) (margs_of l')) (shape (ir_array res')) (tab l') /\ nd_range (ir_array res') /\
   py_ipf 9 seed' (axes 3) (margs_of l') = Ok res' /\ ir_conv res' = true /\ py_integerise L 40 (ir_array res') = Throw (RuntimeError "pick failed")).
Proof. exact pipe_refute. Qed.
Print Assumptions C94_refuted.
