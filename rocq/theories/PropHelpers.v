(** C76, C77: the helper functions of src/NDArrayUtils.h, and the element access of src/DDWR.h.  See properties.jsonl. *)
From Coq Require Import Reals.
From Flocq Require Import IEEE754.BinarySingleNaN.
From Verif Require Import Base Spec NDArray Float64 ArrayOps Bind Ddwr DdwrProofs Helpers HelperSpec HelperProofs.
Open Scope Z_scope.

(** the sum, if every partial sum is a 64-bit integer; signed overflow otherwise *)
Theorem C76_sum : forall v,
  (vec_sum IntOps v = Ok (sumZ v) <-> forall pre post, v = pre ++ post -> int64 (sumZ pre)) /\
  (vec_sum IntOps v <> Ok (sumZ v) -> exists w, vec_sum IntOps v = UB w).
Proof. exact sum_helper_claim. Qed.
Print Assumptions C76_sum.
(** the total of the second list is 5, and overflows on the way *)
Example C76_sum_ex : vec_sum IntOps [3; -7; 12] = Ok 8 /\ sumZ [2 ^ 63 - 1; 6; - 2 ^ 63] = 5 /\ vec_sum IntOps [2 ^ 63 - 1; 6; - 2 ^ 63] = UB "signed 64-bit overflow".
Proof. vm_compute. auto. Qed.

(** likewise the product *)
Theorem C76_product : forall v,
  (vec_product IntOps 1 v = Ok (prodZ v) <-> forall pre post, v = pre ++ post -> int64 (prodZ pre)) /\
  (vec_product IntOps 1 v <> Ok (prodZ v) -> exists w, vec_product IntOps 1 v = UB w).
Proof. exact product_helper_claim. Qed.
Print Assumptions C76_product.
(** a factor 0 in front keeps the product inside the range, one at the end does not *)
Example C76_product_ex : vec_product IntOps 1 [3; -7; 12] = Ok (-252) /\ vec_product IntOps 1 [0; 2 ^ 40; 2 ^ 40] = Ok 0 /\
  vec_product IntOps 1 [2 ^ 40; 2 ^ 40; 0] = UB "signed 64-bit overflow".
Proof. vm_compute. auto. Qed.

(** the product of one entry per row, likewise; an index outside its row is undefined behaviour *)
Theorem C76_marginal_product : forall m idx, places m idx ->
  (marginal_product IntOps 1 m idx = Ok (prodZ (chosen m idx)) <-> forall pre post, chosen m idx = pre ++ post -> int64 (prodZ pre)) /\
  (marginal_product IntOps 1 m idx <> Ok (prodZ (chosen m idx)) -> exists w, marginal_product IntOps 1 m idx = UB w).
Proof. exact marginal_product_claim. Qed.
Print Assumptions C76_marginal_product.
Theorem C76_marginal_product_outside : forall m idx, length m = length idx -> ~ places m idx -> exists w, marginal_product IntOps 1 m idx = UB w.
Proof. exact marginal_product_bad_claim. Qed.
Print Assumptions C76_marginal_product_outside.
Example C76_marginal_product_ex : places [[1; 2]; [3; 4; 5]] [1; 2] /\ chosen [[1; 2]; [3; 4; 5]] [1; 2] = [2; 5] /\
  marginal_product IntOps 1 [[1; 2]; [3; 4; 5]] [1; 2] = Ok 10 /\ ~ places [[1; 2]; [3; 4; 5]] [2; 0].
Proof. split; [repeat constructor; discriminate|]. split; [reflexivity|]. split; [reflexivity|]. intros H. inversion H; subst. cbn in *. lia. Qed.

(** isZero: every entry is zero, of either sign for doubles *)
Theorem C76_is_zero : (forall v, is_zero_vec IntOps v = true <-> Forall (fun x => x = 0) v) /\
  (forall v, is_zero_vec DblOps v = true <-> Forall (fun x => is_finite x = true /\ B2R x = 0%R) v).
Proof. exact (conj is_zero_int_claim is_zero_dbl_claim). Qed.
Print Assumptions C76_is_zero.
Example C76_is_zero_ex : is_zero_vec IntOps [0; 0] = true /\ is_zero_vec IntOps [0; -1] = false /\ is_zero_vec DblOps [d_zero; d_opp d_zero] = true /\
  is_zero_vec DblOps [d_div d_zero d_zero] = false.
Proof. vm_compute. auto. Qed.

(** allclose: equality for integers; for finite doubles, the same length and every distance at most 10^-8, up to one
    rounding *)
Theorem C76_allclose : (forall a b, allclose IntOps a b = true <-> a = b) /\
  (forall a b, Forall (fun x => is_finite x = true) a -> Forall (fun x => is_finite x = true) b ->
    (Forall2 (fun x y => (Rabs (B2R x - B2R y) <= / 100000000)%R) a b -> allclose DblOps a b = true) /\
    (allclose DblOps a b = true -> Forall2 (fun x y => (Rabs (B2R x - B2R y) <= / 100000000 * (1 + / 2 ^ 52))%R) a b)).
Proof. exact (conj allclose_int_claim allclose_dbl_claim). Qed.
Print Assumptions C76_allclose.
(** and a NaN is close to everything *)
Theorem C76_allclose_nan_refuted : forall x, allclose DblOps [d_div d_zero d_zero] [x] = true.
Proof. exact allclose_nan_claim. Qed.
Print Assumptions C76_allclose_nan_refuted.
Example C76_allclose_ex : allclose DblOps [d_one; d_lit 1 (-27)] [d_one; d_zero] = true /\ allclose DblOps [d_one; d_lit 1 (-26)] [d_one; d_zero] = false /\
  allclose DblOps [d_one] [d_one; d_zero] = false.
Proof. vm_compute. auto. Qed.

(** diff: the entrywise difference of arrays of the same shape, whatever the subtraction *)
Theorem C76_diff : forall T U (dt : T) (du : U) (g : T -> U -> double) (a : ndarray T) (b : ndarray U) c, wf_array a -> wf_array b -> wf_array c ->
  prodZ (shape a) < 2 ^ 60 -> shape b = shape a -> shape c = shape a ->
  (let* x := as_nd a in let* y := as_nd b in let* d := as_nd c in let* r := diff (fun x y => Ok (g x y)) x y d in from_nd r) =
  Ok (NDA (shape a) (map (fun i => g (entry dt a i) (entry du b i)) (all_indices (shape a)))).
Proof. exact (@diff_claim). Qed.
Print Assumptions C76_diff.
(** the sizes are not compared: a shorter second array is read beyond its end *)
Theorem C76_diff_refuted : forall n k la lb (c : ndarray double) (g : Z -> Z -> double), 0 < k < n -> n < 2 ^ 60 ->
  Z.of_nat (length la) = n -> Z.of_nat (length lb) = k -> wf_array c -> shape c = [n] ->
  exists w, (let* x := as_nd (NDA [n] la) in let* y := as_nd (NDA [k] lb) in let* d := as_nd c in diff (fun x y => Ok (g x y)) x y d) = UB w.
Proof. exact diff_short_claim. Qed.
Print Assumptions C76_diff_refuted.
Example C76_diff_ex : let c := NDA [3] [d_zero; d_zero; d_zero] in wf_array (NDA [3] [5; 6; 7]) /\ wf_array c /\
  (let* x := as_nd (NDA [3] [5; 6; 7]) in let* y := as_nd (NDA [2] [1; 2]) in let* d := as_nd c in diff (fun x y => Ok (d_ofZ (x - y))) x y d) = UB "array access out of bounds".
Proof. repeat split; try discriminate; try (repeat constructor; fail); vm_compute; reflexivity. Qed.

(** C77, the part that holds: moving units from one state to another gives the distribution built from the new frequencies *)
Theorem C77_balanced : forall freq i j v w, frequencies freq -> (i < length freq)%nat -> (j < length freq)%nat -> i <> j -> 0 <= v -> 0 <= w ->
  v + w = nth i freq 0 + nth j freq 0 ->
  (let* d := ddwr_edit (ddwr_new freq) (Z.of_nat i) v in ddwr_edit d (Z.of_nat j) w) = Ok (ddwr_new (upd (upd freq i v) j w)).
Proof. exact edit_balanced_claim. Qed.
Print Assumptions C77_balanced.
Theorem C77_read : forall freq i, (i < length freq)%nat -> ddwr_at (ddwr_new freq) (Z.of_nat i) = Ok (nth i freq 0).
Proof. exact edit_read_claim. Qed.
Print Assumptions C77_read.
Theorem C77_outside : forall freq i v, ~ 0 <= i < Z.of_nat (length freq) ->
  (exists w, ddwr_at (ddwr_new freq) i = UB w) /\ (exists w, ddwr_edit (ddwr_new freq) i v = UB w).
Proof. exact edit_out_claim. Qed.
Print Assumptions C77_outside.

(** C77 is false: after a frequency was lowered, the largest variate makes the draw read beyond the frequencies *)
Theorem C77_lower_refuted : forall freq i v, frequencies freq -> (i < length freq)%nat -> 0 <= v < nth i freq 0 ->
  exists d, ddwr_edit (ddwr_new freq) (Z.of_nat i) v = Ok d /\ exists w, ddwr_draw d (2 ^ 32 - 1) = UB w.
Proof. exact edit_lower_claim. Qed.
Print Assumptions C77_lower_refuted.
(** and after one was raised, as many units as were added are left when the distribution counts as depleted, whatever
    the variates *)
Theorem C77_raise_refuted : forall freq i v rs, frequencies freq -> (i < length freq)%nat -> nth i freq 0 < v -> sumZ freq + (v - nth i freq 0) < 2 ^ 32 ->
  Forall variate rs -> Z.of_nat (length rs) = sumZ freq ->
  exists d drawn d', ddwr_edit (ddwr_new freq) (Z.of_nat i) v = Ok d /\ ddwr_draws d rs = Ok (drawn, d') /\ length drawn = length rs /\
    sumZ (dd_freq d') = v - nth i freq 0 /\ forall r, ddwr_draw d' r = Throw (RuntimeError "distribution is depleted").
Proof. exact edit_raise_claim. Qed.
Print Assumptions C77_raise_refuted.
Example C77_ex : frequencies [2; 1] /\
  (let* d := ddwr_edit (ddwr_new [2; 1]) 0 1 in ddwr_draw d (2 ^ 32 - 1)) = UB "vector access out of bounds" /\
  (let* d := ddwr_edit (ddwr_new [2; 1]) 1 4 in let* '(is, d) := ddwr_draws d [2 ^ 31; 2 ^ 31; 0] in Ok (is, dd_freq d)) = Ok ([0; 1; 0], [0; 3]) /\
  (let* d := ddwr_edit (ddwr_new [2; 1]) 0 0 in ddwr_edit d 1 3) = Ok (ddwr_new [0; 3]).
Proof. split; [split; [repeat constructor; discriminate|reflexivity]|]. vm_compute. auto. Qed.
