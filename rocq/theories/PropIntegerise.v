(** Properties of integerise and prob2IntFreq: C19 to C23, C51 to C53.  Nothing but statements, examples and their assumptions. *)
From Coq Require Import Reals Lra.
From Flocq Require Import IEEE754.BinarySingleNaN.
From Verif Require Import Base Spec SpecFacts Float64 RealSpec Bind Stat Integerise IntegeriseSpec IntegeriseClaims IntegeriseRound IntegeriseNd
  IntegeriseExamples QisExamples.
Open Scope Z_scope.

(** C19: the frequencies of integerise(frac, pop) are non-negative and sum to pop *)
Theorem C19_sum_to_pop : forall fuel frac pop, fractions frac -> 0 <= pop < 2 ^ 31 -> (length frac < fuel)%nat ->
  exists f rmse, py_integerise1d fuel (NDA [Z.of_nat (length frac)] frac) pop = Ok (f, rmse) /\
    length f = length frac /\ Forall (fun k => 0 <= k) f /\ sumZ f = pop.
Proof. exact sum_to_pop_claim. Qed.
Print Assumptions C19_sum_to_pop.

(** one, two, three and four tenths of eleven *)
Definition ex_frac : list double := map (fun k => d_div (d_ofZ k) (d_ofZ 10)) [1; 2; 3; 4].
Example C19_ex : fractions ex_frac /\ exists rmse, py_integerise1d 5 (NDA [4] ex_frac) 11 = Ok ([1; 2; 3; 5], rmse).
Proof. split; [apply fractions_by; vm_compute; reflexivity|]. apply freq_inv. vm_compute. reflexivity. Qed.

(** C20: they are within one of the scaled fractions, and no other integers with the same total are closer in the least
    squares sense *)
Theorem C20_closest : forall fuel frac pop f rmse, fractions frac -> 0 <= pop < 2 ^ 31 -> (length frac < fuel)%nat ->
  py_integerise1d fuel (NDA [Z.of_nat (length frac)] frac) pop = Ok (f, rmse) -> closest f (map B2R (scaled frac pop)).
Proof. exact closest_claim. Qed.
Print Assumptions C20_closest.
Example C20_ex : exists rmse, py_integerise1d 5 (NDA [4] ex_frac) 11 = Ok ([1; 2; 3; 5], rmse) /\ fractions ex_frac.
Proof. destruct C19_ex as [H [r E]]. eauto. Qed.

(** the scaled fractions are close to the exact proportions pop * x / (sum of the fractions) *)
Theorem C20_scaled_accuracy : forall frac pop i, fractions frac -> 0 <= pop < 2 ^ 31 -> (i < length frac)%nat ->
  let e := (IZR pop * B2R (nth i frac d_zero) / sumR (map B2R frac))%R in
  (Rabs (B2R (nth i (scaled frac pop) d_zero) - e) <=
   e * (2 * IZR (Z.of_nat (length frac)) + 4) * Flocq.Core.Raux.bpow Flocq.Core.Zaux.radix2 (-53) + Flocq.Core.Raux.bpow Flocq.Core.Zaux.radix2 (-1000))%R.
Proof. exact accuracy_claim. Qed.
Print Assumptions C20_scaled_accuracy.
(** the last of them is 11 * 0.4 = 4.4 *)
Example C20_accuracy_ex : d_ltb (d_div (d_ofZ 43999) (d_ofZ 10000)) (nth 3 (scaled ex_frac 11) d_zero) = true /\
  d_ltb (nth 3 (scaled ex_frac 11) d_zero) (d_div (d_ofZ 44001) (d_ofZ 10000)) = true.
Proof. vm_compute. auto. Qed.

(** C21: the reported rmse is the root mean square distance between the scaled fractions and the frequencies *)
Theorem C21_rmse : forall fuel frac pop f rmse, fractions frac -> 0 <= pop < 2 ^ 31 -> (length frac < fuel)%nat ->
  py_integerise1d fuel (NDA [Z.of_nat (length frac)] frac) pop = Ok (f, rmse) -> rmse = rms_diff (scaled frac pop) f.
Proof. exact rmse_claim. Qed.
Print Assumptions C21_rmse.
(** sqrt((0.1^2 + 0.2^2 + 0.3^2 + 0.6^2) / 4) lies between 0.3535 and 0.3536 *)
Example C21_ex : fractions ex_frac /\ match py_integerise1d 5 (NDA [4] ex_frac) 11 with
  | Ok (_, rmse) => d_ltb (d_ofZ 3535) (d_mul rmse (d_ofZ 10000)) && d_ltb (d_mul rmse (d_ofZ 10000)) (d_ofZ 3536) = true | _ => False end.
Proof. split; [apply C19_ex|]. vm_compute. reflexivity. Qed.

(** C22: for two or more dimensions, conv is true exactly if all 1-d sums of the result are those of the argument,
    rounded; the rmse is that of the result *)
Theorem C22_conv : forall L fuel a res conv rmse, nd_range a -> py_integerise L fuel a = Ok (res, conv, rmse) ->
  shape res = shape a /\ wf_array res /\ (forall i, index_in (shape a) i -> 0 <= entry 0 res i) /\ rmse = array_rms res a /\
  (conv = true <-> forall d k, 0 <= d < Z.of_nat (length (shape a)) -> 0 <= k < nth (Z.to_nat d) (shape a) 0 ->
     rounds_to (B2R (slice_sum a d k)) (margin (shape a) [d] [k] (entry 0 res))).
Proof. exact nd_conv_claim. Qed.
Print Assumptions C22_conv.

(** ... converged or not, the result sums to the sum of the rounded 1-d sums in each dimension, which is the rounded
    total unless there are so many cells that rounding adds up *)
Theorem C22_total : forall L fuel a res conv rmse, nd_range a -> py_integerise L fuel a = Ok (res, conv, rmse) ->
  (forall d, 0 <= d < Z.of_nat (length (shape a)) -> exists m : Z -> Z,
     (forall k, 0 <= k < nth (Z.to_nat d) (shape a) 0 -> rounds_to (B2R (slice_sum a d k)) (m k)) /\
     total (shape a) (entry 0 res) = sumZ (map m (zrange (nth (Z.to_nat d) (shape a) 0)))) /\
  (forall d, 0 <= d < Z.of_nat (length (shape a)) -> nth (Z.to_nat d) (shape a) 0 <= 8192 ->
     (IZR (prodZ (shape a)) * sumR (map B2R (flat a)) <= IZR (2 ^ 48))%R -> rounds_to (B2R (array_sum a)) (total (shape a) (entry 0 res))).
Proof. exact nd_total_claim. Qed.
Print Assumptions C22_total.

(** ... and it returns or throws *)
Theorem C22_safe : forall L fuel a, nd_range a -> (32 <= fuel)%nat -> prodZ (shape a) < Z.of_nat fuel ->
  (exists x, py_integerise L fuel a = Ok x) \/ exists e, py_integerise L fuel a = Throw e.
Proof. exact nd_safe_claim. Qed.
Print Assumptions C22_safe.

(** rows summing to 2 and 2, columns to 1, 2 and 1 *)
Definition ex_nd : ndarray double := NDA [2; 3] (map (fun k => d_div (d_ofZ k) (d_ofZ 10)) [3; 12; 5; 7; 8; 5]).
Example C22_ex : nd_range ex_nd /\ int_view (py_integerise L0 40 ex_nd) = Some ([0; 1; 1; 1; 1; 0], true).
Proof. split; [apply nd_range_by; vm_compute; reflexivity|]. vm_compute. reflexivity. Qed.

(** C23 is false.  Ten times 0.3 is accepted as having the total 3 and integerised to a vector with the total 2, with
    conv true; for ten times 0.1 the population is zero and the behaviour undefined. *)
Theorem C23_refuted : forall L, (exists l res rmse, checked_round (array_sum (NDA [10] l)) = Ok 3 /\
    py_integerise L 40 (NDA [10] l) = Ok (res, true, rmse) /\ sumZ (flat res) = 2) /\
  (exists l w, checked_round (array_sum (NDA [10] l)) = Ok 1 /\ py_integerise L 40 (NDA [10] l) = UB w).
Proof. exact below_claim. Qed.
Print Assumptions C23_refuted.

(** the part of C23 that holds: totals that are an integer or slightly above *)
Theorem C23_above : forall L fuel n l M, (length l = Z.to_nat n)%nat -> 0 < n <= 2 ^ 20 -> Forall nonneg_fin l ->
  is_finite (fold_left d_add l d_zero) = true -> 1 <= M < 2 ^ 31 ->
  (0 <= B2R (fold_left d_add l d_zero) - IZR M <= / 10000)%R -> (length l < fuel)%nat ->
  exists f rmse, py_integerise L fuel (NDA [n] l) = Ok (NDA [n] f, true, rmse) /\ length f = length l /\ Forall (fun k => 0 <= k) f /\ sumZ f = M.
Proof. exact vector_claim. Qed.
Print Assumptions C23_above.
(** 0.5 + 1.5 + 1.25 + 0.75 = 4 *)
Definition ex_quarters : list double := map (fun k => d_div (d_ofZ k) (d_ofZ 4)) [2; 6; 5; 3].
Example C23_ex : Forall nonneg_fin ex_quarters /\ B2R (fold_left d_add ex_quarters d_zero) = IZR 4 /\
  int_view (py_integerise L0 40 (NDA [4] ex_quarters)) = Some ([1; 1; 1; 1], true).
Proof.
  split; [apply nonneg_by; vm_compute; reflexivity|]. split; [|vm_compute; reflexivity].
  assert (fold_left d_add ex_quarters d_zero = d_ofZ 4) as -> by (apply B2SF_inj; vm_compute; reflexivity). apply FloatProofs.d_ofZ_exact. vm_compute. discriminate.
Qed.

(** C51: prob2IntFreq either rejects the probabilities or returns non-negative frequencies that sum to pop, are closest
    to the probabilities times pop, and have the reported rmse *)
Theorem C51_prob2IntFreq : forall fuel p pop, Forall nonneg_fin p -> Z.of_nat (length p) <= 2 ^ 20 -> 0 <= pop < 2 ^ 31 -> (length p < fuel)%nat ->
  r_prob2IntFreq fuel p pop = Throw (RuntimeError "probabilities do not sum to unity") \/
  exists f, let X := map (fun y => d_mul y (d_ofZ pop)) p in
    r_prob2IntFreq fuel p pop = Ok (f, rms_diff X f) /\ length f = length p /\ Forall (fun k => 0 <= k) f /\ sumZ f = pop /\ closest f (map B2R X).
Proof. exact prob2_claim. Qed.
Print Assumptions C51_prob2IntFreq.
Example C51_ex : Forall nonneg_fin ex_frac /\ (exists rmse, r_prob2IntFreq 5 ex_frac 11 = Ok ([1; 2; 3; 5], rmse)) /\
  r_prob2IntFreq 5 (tl ex_frac) 11 = Throw (RuntimeError "probabilities do not sum to unity").
Proof. split; [apply C19_ex|]. split; [apply freq_inv; vm_compute; reflexivity|vm_compute; reflexivity]. Qed.

(** C52 is false: a NaN among the probabilities passes the test of their sum, and its conversion to int is undefined *)
Theorem C52_refuted : forall fuel p pop, Exists (fun x => is_nan x = true) p -> 0 <= pop < 2 ^ 31 -> exists w, r_prob2IntFreq fuel p pop = UB w.
Proof. exact prob2_nan_claim. Qed.
Print Assumptions C52_refuted.
Example C52_ex : Exists (fun x => is_nan x = true) [d_half; d_div d_zero d_zero; d_half].
Proof. right. left. reflexivity. Qed.

(** C53 is false: fractions that are all zero lead to undefined behaviour, and negative ones to negative frequencies *)
Theorem C53_refuted : (forall fuel n pop, 0 < n -> 0 <= pop < 2 ^ 31 -> exists w, py_integerise1d fuel (NDA [n] (repeat d_zero (Z.to_nat n))) pop = UB w) /\
  (exists frac f rmse, py_integerise1d 40 (NDA [2] frac) 3 = Ok (f, rmse) /\ Exists (fun k => k < 0) f).
Proof. exact fractions_unchecked_claim. Qed.
Print Assumptions C53_refuted.
