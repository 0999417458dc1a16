(** Property C90: integerise(frac, pop) divides the population fairly.

    [fractions] are the admissible fractions of C19; [scaled frac pop] (IntegeriseSpec.v) are the fractions scaled to the population
    in double arithmetic. *)
From Coq Require Import Reals.
From Flocq Require Import IEEE754.BinarySingleNaN.
From Verif Require Import Base Spec Float64 Bind Integerise IntegeriseSpec IntegeriseClaims IntegeriseExamples FairProofs.
Open Scope Z_scope.

(** C90: a category with the greater scaled share does not get fewer individuals *)
Theorem C90_order : forall fuel frac pop f rmse, fractions frac -> 0 <= pop < 2 ^ 31 -> (length frac < fuel)%nat ->
  py_integerise1d fuel (NDA [Z.of_nat (length frac)] frac) pop = Ok (f, rmse) ->
  forall i j, (i < length frac)%nat -> (j < length frac)%nat ->
  (B2R (nth i (scaled frac pop) d_zero) < B2R (nth j (scaled frac pop) d_zero))%R -> nth i f 0 <= nth j f 0.
Proof. exact order_claim. Qed.
Print Assumptions C90_order.

(** C90: a category listed earlier with at least the fraction of a later one does not get fewer; so fractions in decreasing order
    give frequencies in decreasing order *)
Theorem C90_first : forall fuel frac pop f rmse, fractions frac -> 0 <= pop < 2 ^ 31 -> (length frac < fuel)%nat ->
  py_integerise1d fuel (NDA [Z.of_nat (length frac)] frac) pop = Ok (f, rmse) ->
  forall i j, (i < j)%nat -> (j < length frac)%nat -> (B2R (nth j frac d_zero) <= B2R (nth i frac d_zero))%R -> nth j f 0 <= nth i f 0.
Proof. exact first_claim. Qed.
Print Assumptions C90_first.

(** C90: wherever it is listed, a category gets at most one individual more than one with at least its fraction *)
Theorem C90_within_one : forall fuel frac pop f rmse, fractions frac -> 0 <= pop < 2 ^ 31 -> (length frac < fuel)%nat ->
  py_integerise1d fuel (NDA [Z.of_nat (length frac)] frac) pop = Ok (f, rmse) ->
  forall i j, (i < length frac)%nat -> (j < length frac)%nat -> (B2R (nth i frac d_zero) <= B2R (nth j frac d_zero))%R -> nth i f 0 <= nth j f 0 + 1.
Proof. exact one_claim. Qed.
Print Assumptions C90_within_one.

(** C90: a category whose scaled share is a whole number gets exactly that *)
Theorem C90_whole : forall fuel frac pop f rmse, fractions frac -> 0 <= pop < 2 ^ 31 -> (length frac < fuel)%nat ->
  py_integerise1d fuel (NDA [Z.of_nat (length frac)] frac) pop = Ok (f, rmse) ->
  forall i z, (i < length frac)%nat -> B2R (nth i (scaled frac pop) d_zero) = IZR z -> nth i f 0 = z.
Proof. exact whole_claim. Qed.
Print Assumptions C90_whole.

(** C90: equal fractions give equal frequencies, but for the remainder of the division, which goes to the categories listed first *)
Theorem C90_equal : forall fuel frac pop f rmse, fractions frac -> 0 <= pop < 2 ^ 31 -> (length frac < fuel)%nat ->
  py_integerise1d fuel (NDA [Z.of_nat (length frac)] frac) pop = Ok (f, rmse) ->
  (forall i, (i < length frac)%nat -> B2R (nth i frac d_zero) = B2R (nth 0 frac d_zero)) ->
  let n := Z.of_nat (length frac) in forall i, (i < length frac)%nat -> nth i f 0 = pop / n + (if Z.of_nat i <? pop mod n then 1 else 0).
Proof. exact equal_claim. Qed.
Print Assumptions C90_equal.
Example C90_equal_ex : fractions (repeat (d_ofZ 1) 7) /\ exists rmse, py_integerise1d 8 (NDA [7] (repeat (d_ofZ 1) 7)) 24 = Ok ([4; 4; 4; 3; 3; 3; 3], rmse).
Proof. split; [apply fractions_by; vm_compute; reflexivity|]. apply freq_inv. vm_compute. reflexivity. Qed.

(** C90: the first four for prob2IntFreq of the R package *)
Theorem C90_order_R : forall fuel p pop f rmse, Forall nonneg_fin p -> Z.of_nat (length p) <= 2 ^ 20 -> 0 <= pop < 2 ^ 31 -> (length p < fuel)%nat ->
  r_prob2IntFreq fuel p pop = Ok (f, rmse) ->
  forall i j, (i < length p)%nat -> (j < length p)%nat ->
  (B2R (d_mul (nth i p d_zero) (d_ofZ pop)) < B2R (d_mul (nth j p d_zero) (d_ofZ pop)))%R -> nth i f 0 <= nth j f 0.
Proof. exact r_order_claim. Qed.
Print Assumptions C90_order_R.
Theorem C90_first_R : forall fuel p pop f rmse, Forall nonneg_fin p -> Z.of_nat (length p) <= 2 ^ 20 -> 0 <= pop < 2 ^ 31 -> (length p < fuel)%nat ->
  r_prob2IntFreq fuel p pop = Ok (f, rmse) ->
  forall i j, (i < j)%nat -> (j < length p)%nat -> (B2R (nth j p d_zero) <= B2R (nth i p d_zero))%R -> nth j f 0 <= nth i f 0.
Proof. exact r_first_claim. Qed.
Print Assumptions C90_first_R.
Theorem C90_within_one_R : forall fuel p pop f rmse, Forall nonneg_fin p -> Z.of_nat (length p) <= 2 ^ 20 -> 0 <= pop < 2 ^ 31 -> (length p < fuel)%nat ->
  r_prob2IntFreq fuel p pop = Ok (f, rmse) ->
  forall i j, (i < length p)%nat -> (j < length p)%nat -> (B2R (nth i p d_zero) <= B2R (nth j p d_zero))%R -> nth i f 0 <= nth j f 0 + 1.
Proof. exact r_one_claim. Qed.
Print Assumptions C90_within_one_R.
Theorem C90_whole_R : forall fuel p pop f rmse, Forall nonneg_fin p -> Z.of_nat (length p) <= 2 ^ 20 -> 0 <= pop < 2 ^ 31 -> (length p < fuel)%nat ->
  r_prob2IntFreq fuel p pop = Ok (f, rmse) ->
  forall i z, (i < length p)%nat -> B2R (d_mul (nth i p d_zero) (d_ofZ pop)) = IZR z -> nth i f 0 = z.
Proof. exact r_whole_claim. Qed.
Print Assumptions C90_whole_R.
(** a half, a quarter and a quarter of seven *)
Example C90_R_ex : exists rmse, r_prob2IntFreq 4 (map (fun k => d_div (d_ofZ k) (d_ofZ 4)) [2; 1; 1]) 7 = Ok ([3; 2; 2], rmse).
Proof. apply freq_inv. vm_compute. reflexivity. Qed.

(** C90 is false for fractions that differ in the last bit: the smaller, listed first, can get more *)
Theorem C90_strict_refuted : exists fuel frac pop f rmse i j,
  fractions frac /\ (length frac < fuel)%nat /\ (i < length frac)%nat /\ (j < length frac)%nat /\ 0 <= pop < 2 ^ 31 /\
  py_integerise1d fuel (NDA [Z.of_nat (length frac)] frac) pop = Ok (f, rmse) /\
  (B2R (nth i frac d_zero) < B2R (nth j frac d_zero))%R /\ nth j f 0 < nth i f 0.
Proof. exact strict_claim. Qed.
Print Assumptions C90_strict_refuted.

(** C90 with "one individual more takes nothing from anybody" is false (the Alabama paradox) *)
Theorem C90_growth_refuted : exists fuel frac pop f g rmse rmse' i,
  fractions frac /\ (length frac < fuel)%nat /\ (i < length frac)%nat /\ 0 <= pop /\ pop + 1 < 2 ^ 31 /\
  py_integerise1d fuel (NDA [Z.of_nat (length frac)] frac) pop = Ok (f, rmse) /\
  py_integerise1d fuel (NDA [Z.of_nat (length frac)] frac) (pop + 1) = Ok (g, rmse') /\ nth i g 0 < nth i f 0.
Proof. exact alabama_claim. Qed.
Print Assumptions C90_growth_refuted.

(** shares of 6, 6 and 2 in 10 and in 11 *)
Example C90_ex : fractions exA3 /\ (exists rmse, py_integerise1d 4 (NDA [3] exA3) 10 = Ok ([4; 4; 2], rmse)) /\
  (exists rmse, py_integerise1d 4 (NDA [3] exA3) 11 = Ok ([5; 5; 1], rmse)).
Proof. split; [exact exA3_frac|]. split; [exact exA3_10|exact exA3_11]. Qed.
(** in 13 the first gets the odd one; in 14 all are whole *)
Example C90_first_ex : (exists rmse, py_integerise1d 4 (NDA [3] exA3) 13 = Ok ([6; 5; 2], rmse)) /\
  (exists rmse, py_integerise1d 4 (NDA [3] exA3) 14 = Ok ([6; 6; 2], rmse)).
Proof. split; apply freq_inv; vm_compute; reflexivity. Qed.
