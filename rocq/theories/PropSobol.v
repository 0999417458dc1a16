(** Properties C24-C30, C45, C48: the Sobol generator. *)
From Coq Require Import Reals.
From Flocq Require IEEE754.BinarySingleNaN.
From Verif Require Import Base Float64 SobolTable Sobol SobolSpec SobolProofs SobolClaims.
Open Scope N_scope.

(** C24: every coordinate a Python user draws is strictly inside (0,1) *)
Theorem C24_unit_interval : forall dim s s' l, py_reach dim s -> generator_next s = Ok (s', l) ->
  length l = N.to_nat dim /\ Forall (fun v => d_ltb d_zero v = true /\ d_ltb v d_one = true) l.
Proof. exact unit_claim. Qed.
Print Assumptions C24_unit_interval.

(** C24: the doubles are exactly the raw 32-bit values divided by 2^32 *)
Theorem C24_value : forall s s' l, generator_next s = Ok (s', l) ->
  exists b, sobol_buf s = Ok (s', b) /\ Forall2 (fun u v => u < 2 ^ 32 ->
    BinarySingleNaN.is_finite v = true /\ BinarySingleNaN.B2R v = (IZR (Z.of_N u) / IZR (2 ^ 32))%R) b l.
Proof. exact value_claim. Qed.
Print Assumptions C24_value.

Example C24_ex : (let* s := sobol_generator 40 3 0 in let* '(s, _) := generator_next s in
                  let* '(s, l) := generator_next s in Ok (map BinarySingleNaN.B2SF l))
  = Ok (map BinarySingleNaN.B2SF [d_lit 3 (-2); d_lit 1 (-2); d_lit 3 (-2)]).
Proof. vm_compute. reflexivity. Qed.

(** C25: each aligned block of 2^k points has exactly one point in each interval [v/2^k, (v+1)/2^k) *)
Theorem C25_stratified : forall dim i k t v, 1 <= dim <= 1111 -> (i < N.to_nat dim)%nat -> k <= 32 ->
  (t + 1) * 2 ^ k <= 2 ^ 32 -> v < 2 ^ k ->
  exists! n, t * 2 ^ k <= n < (t + 1) * 2 ^ k /\
    exists p, nth_draw dim n = Ok p /\ v * 2 ^ (32 - k) <= nth i p 0 < (v + 1) * 2 ^ (32 - k).
Proof. exact stratified_claim. Qed.
Print Assumptions C25_stratified.
Example C25_ex : map (fun n => match nth_draw 2 n with Ok p => N.shiftr (nth 1 p 0) 30 | _ => 99 end) [4; 5; 6; 7] = [1; 3; 0; 2].
Proof. vm_compute. reflexivity. Qed.

(** C26: no coordinate value repeats *)
Theorem C26_no_repeats : forall dim i n n' p p', 1 <= dim <= 1111 -> (i < N.to_nat dim)%nat ->
  n <= 2 ^ 32 - 1 -> n' <= 2 ^ 32 - 1 ->
  nth_draw dim n = Ok p -> nth_draw dim n' = Ok p' -> nth i p 0 = nth i p' 0 -> n = n'.
Proof. exact distinct_claim. Qed.
Print Assumptions C26_no_repeats.
Example C26_ex : exists p p', nth_draw 5 6 = Ok p /\ nth_draw 5 7 = Ok p' /\ nth 4 p 0 <> nth 4 p' 0.
Proof. do 2 eexists. split; [vm_compute; reflexivity|]. split; [vm_compute; reflexivity|]. vm_compute. discriminate. Qed.

(** C27 refuted: after 2^32-1 draws the object raises std::out_of_range (IndexError), not StopIteration *)
Theorem C27_exhaustion_refuted : forall dim, 1 <= dim <= 1111 ->
  exists s, after_draws dim (2 ^ 32 - 1) = Ok s /\
    generator_next s = Throw (OutOfRange "Exceeded generation limit (2^32-1)").
Proof. exact exhausted_claim. Qed.
Print Assumptions C27_exhaustion_refuted.
Example C27_ex : generator_next (SB (SD 1 [repeat 1 32] [1] [0] (2 ^ 32 - 1)) 1 [7] 1)
  = Throw (OutOfRange "Exceeded generation limit (2^32-1)").
Proof. vm_compute. reflexivity. Qed.

(** C28, up to 2^31: construction ends and the first point drawn is number k+1, where k is 0 for n = 0, 1 for
    n = 1 or 2, and otherwise the largest power of two smaller than n *)
Theorem C28_skips : forall dim nskip fuel, 1 <= dim <= 1111 -> nskip <= 2 ^ 31 -> (32 <= fuel)%nat ->
  exists k s s' l p, k = (if nskip =? 0 then 0 else if nskip <=? 2 then 1 else 2 ^ N.log2 (nskip - 1)) /\
    (2 < nskip -> k < nskip /\ nskip <= 2 * k) /\
    sobol_generator fuel dim nskip = Ok s /\ generator_next s = Ok (s', l) /\
    nth_draw dim (k + 1) = Ok p /\ l = map (fun i => d_mul (d_ofZ (Z.of_N i)) sobol_SCALE) p.
Proof. exact skip_claim. Qed.
Print Assumptions C28_skips.
Example C28_ex : (let* s := sobol_generator 40 2 7 in let* '(_, b) := sobol_buf s in Ok b) = nth_draw 2 5 /\
  (let* s := sobol_generator 40 2 8 in let* '(_, b) := sobol_buf s in Ok b) = nth_draw 2 5 /\
  (let* s := sobol_generator 40 2 9 in let* '(_, b) := sobol_buf s in Ok b) = nth_draw 2 9.
Proof. repeat split; vm_compute; reflexivity. Qed.

(** C28 refuted above 2^31: the constructor never returns, whatever the number of loop iterations allowed *)
Theorem C28_termination_refuted : forall dim nskip fuel, 1 <= dim <= 1111 -> 2 ^ 31 < nskip -> nskip < 2 ^ 32 ->
  sobol_generator fuel dim nskip = Diverge.
Proof. exact skip_hang_claim. Qed.
Print Assumptions C28_termination_refuted.
Example C28_hang_ex : 2 ^ 31 < 3000000000 < 2 ^ 32 /\ sobol_generator 1000 1 3000000000 = Diverge.
Proof. repeat split; vm_compute; reflexivity. Qed.

(** C29: the n-th point is the Gray-code XOR of direction numbers that depend only on the dimension *)
Theorem C29_gray_code : forall dim n, 1 <= dim <= 1111 -> n <= 2 ^ 32 - 1 ->
  exists p, nth_draw dim n = Ok p /\ length p = N.to_nat dim /\
    forall i m, (i < N.to_nat dim)%nat -> is_directions i m -> nth i p 0 = coord m n.
Proof. exact point_claim. Qed.
Print Assumptions C29_gray_code.
Example C29_ex : nth_draw 4 11 = Ok [1879048192; 2415919104; 268435456; 1879048192] /\
  exists p, nth_draw 2 11 = Ok p /\ p = [1879048192; 2415919104].
Proof. split; [vm_compute; reflexivity|]. eexists. split; vm_compute; reflexivity. Qed.

(** C29, C45: any history of point draws, scalar draws, skips and resets (skip counts up to 2^31) yields exactly
    what the observer's view (points consumed, point held, position) prescribes; exhaustion included *)
Theorem C45_histories : forall dim nskip fuel ops, 1 <= dim <= 1111 -> nskip <= 2 ^ 31 -> (32 <= fuel)%nat ->
  Forall (fun op => match op with Skip n | Reset n => n <= 2 ^ 31 | _ => True end) ops ->
  exists cols s, is_table (N.to_nat dim) cols /\ sobol_new fuel dim nskip = Ok s /\
    model_run fuel ops s = Ok (view_run cols ops (if 0 <? nskip then view_skip (skipped nskip) (SV 0 0 dim) else SV 0 0 dim)).
Proof. exact history_claim. Qed.
Print Assumptions C45_histories.
Example C45_histories_ex :
  (let* s := sobol_new 40 2 0 in model_run 40 [DrawScalar; DrawScalar; DrawScalar; Skip 3; DrawScalar; DrawPoint; Reset 0; DrawPoint] s)
  = Ok [RScalar 2147483648; RScalar 2147483648; RScalar 3221225472; RDone; RScalar 1610612736; RPoint [3758096384; 3758096384];
        RDone; RPoint [2147483648; 2147483648]].
Proof. vm_compute. reflexivity. Qed.

(** C45: scalars drawn one at a time are the coordinates of successive points, in order *)
Theorem C45_scalars : forall dim fuel k, 1 <= dim <= 1111 -> (32 <= fuel)%nat -> 1 + N.of_nat k / dim <= 2 ^ 32 - 1 ->
  exists cols s, is_table (N.to_nat dim) cols /\ sobol_new fuel dim 0 = Ok s /\
    model_run fuel (repeat DrawScalar k) s =
    Ok (map (fun j => RScalar (coord (nth (N.to_nat (N.of_nat j mod dim)) cols []) (N.of_nat j / dim + 1))) (seq 0 k)).
Proof. exact scalars_claim. Qed.
Print Assumptions C45_scalars.
Example C45_scalars_ex : (let* s := sobol_new 40 2 0 in model_run 40 (repeat DrawScalar 4) s)
  = Ok [RScalar 2147483648; RScalar 2147483648; RScalar 3221225472; RScalar 1073741824].
Proof. vm_compute. reflexivity. Qed.

(** C45: after any history, reset makes point draws restart from the first point *)
Theorem C45_reset_points : forall dim nskip fuel ops k, 1 <= dim <= 1111 -> nskip <= 2 ^ 31 -> (32 <= fuel)%nat ->
  Forall (fun op => match op with Skip n | Reset n => n <= 2 ^ 31 | _ => True end) ops -> N.of_nat k <= 2 ^ 32 - 1 ->
  exists cols s rs, is_table (N.to_nat dim) cols /\ sobol_new fuel dim nskip = Ok s /\ length rs = length ops /\
    model_run fuel (ops ++ Reset 0 :: repeat DrawPoint k) s =
    Ok (rs ++ RDone :: map (fun j => RPoint (map (fun m => coord m (N.of_nat j + 1)) cols)) (seq 0 k)).
Proof. exact reset_points_claim. Qed.
Print Assumptions C45_reset_points.
Example C45_reset_points_ex :
  (let* s := sobol_new 40 2 5 in model_run 40 [DrawScalar; DrawPoint; Reset 0; DrawPoint] s)
  = Ok [RScalar 3758096384; RPoint [2684354560; 536870912]; RDone; RPoint [2147483648; 2147483648]].
Proof. vm_compute. reflexivity. Qed.

(** C45 refuted for scalars: a reset in the middle of a point leaves the old coordinates to be handed out (here
    3 draws, reset, and the next scalar is 1/4, where the sequence starts with 1/2) *)
Theorem C45_reset_scalar_refuted :
  (let* s := sobol_new 64 2 0 in model_run 64 [DrawScalar; DrawScalar; DrawScalar; Reset 0; DrawScalar] s)
    = Ok [RScalar 2147483648; RScalar 2147483648; RScalar 3221225472; RDone; RScalar 1073741824] /\
  (let* s := sobol_new 64 2 0 in model_run 64 [DrawScalar] s) = Ok [RScalar 2147483648].
Proof. split; vm_compute; reflexivity. Qed.
Print Assumptions C45_reset_scalar_refuted.

(** C30: the direction numbers of all 1111 dimensions exist, are unique, odd and bounded, and are what the code
    computes for every number of dimensions *)
Theorem C30_directions : forall i, (i < 1111)%nat ->
  exists m, is_directions i m /\ (forall m', is_directions i m' -> m' = m) /\
    (forall j, (j < 32)%nat -> N.odd (m_at m j) = true /\ m_at m j < 2 ^ N.of_nat (j + 1)) /\
    forall dim cols, (i < N.to_nat dim)%nat -> dim <= 1111 -> init_m dim = Ok cols -> nth i cols [] = m.
Proof. exact directions_claim. Qed.
Print Assumptions C30_directions.
Example C30_ex : exists cols, init_m 5 = Ok cols /\ firstn 6 (nth 4 cols []) = [1; 1; 5; 3; 15; 51].
Proof. eexists. split; vm_compute; reflexivity. Qed.

(** C30: the 1110 polynomials are primitive and distinct *)
Theorem C30_polynomials : length sobol_a = 1110%nat /\ NoDup sobol_a /\ Forall primitive sobol_a.
Proof. exact polynomials_claim. Qed.
Print Assumptions C30_polynomials.
Example C30_polynomials_ex : nth 4 sobol_a 0 = 19 /\ map (zpow 19 4) (seq 0 6) = [1; 2; 4; 8; 3; 6] /\
  zpow 31 4 5 = 1 (* z^4+z^3+z^2+z+1 is not primitive *).
Proof. repeat split; vm_compute; reflexivity. Qed.

(** C48: the two implementations of rightzero32 agree *)
Theorem C48_rightzero : forall n, n < 2 ^ 32 - 1 -> rightzero32_portable n = rightzero32 n.
Proof. exact portable_ok. Qed.
Print Assumptions C48_rightzero.
Example C48_ex : rightzero32_portable 0xffff7fff = Ok 15 /\ rightzero32 0xffff7fff = Ok 15.
Proof. split; vm_compute; reflexivity. Qed.
