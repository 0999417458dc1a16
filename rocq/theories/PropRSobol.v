(** Property C59: sobolSequence of the R binding. *)
From Coq Require Import Reals.
From Flocq Require Import IEEE754.BinarySingleNaN.
From Verif Require Import Base Float64 Sobol SobolClaims RSobol RSobolProofs.
Open Scope Z_scope.

(** C59: an n by dim matrix whose row j is point number k+j+1 divided by 2^32, strictly inside (0,1), where k is 0 for
    skip = 0, 1 for skip = 1 or 2, and otherwise the largest power of two smaller than skip *)
Theorem C59_matrix : forall fuel dim n skip, 1 <= dim <= 1111 -> 0 <= n -> n * dim <= 2 ^ 31 - 1 ->
  0 <= skip <= 2 ^ 31 - 1 -> (32 <= fuel)%nat ->
  let k := if skip =? 0 then 0%N else if skip <=? 2 then 1%N else (2 ^ N.log2 (Z.to_N skip - 1))%N in
  exists rows, r_sobol_sequence fuel dim n skip = Ok rows /\ length rows = Z.to_nat n /\
    forall j, (j < Z.to_nat n)%nat -> length (nth j rows []) = Z.to_nat dim /\
      exists p, nth_draw (Z.to_N dim) (k + N.of_nat j + 1) = Ok p /\
        forall i, (i < Z.to_nat dim)%nat -> let x := nth i (nth j rows []) d_zero in
          is_finite x = true /\ (B2R x = IZR (Z.of_N (nth i p 0%N)) / IZR (2 ^ 32))%R /\ (0 < B2R x < 1)%R.
Proof. exact matrix_claim. Qed.
Print Assumptions C59_matrix.
Example C59_ex : (let* m := r_sobol_sequence 40 2 3 3 in Ok (map (map B2SF) m))
  = Ok (map (map B2SF) [[d_lit 1 (-2); d_lit 3 (-2)]; [d_lit 3 (-3); d_lit 3 (-3)]; [d_lit 7 (-3); d_lit 7 (-3)]]) /\
  nth_draw 2 3 = Ok [2 ^ 30; 3 * 2 ^ 30]%N.
Proof. split; vm_compute; reflexivity. Qed.

(** C59: asking for more rows only adds rows *)
Theorem C59_prefix : forall fuel dim n n' skip rows rows', 1 <= dim <= 1111 -> 0 <= n <= n' -> n' * dim <= 2 ^ 31 - 1 ->
  0 <= skip <= 2 ^ 31 - 1 -> (32 <= fuel)%nat ->
  r_sobol_sequence fuel dim n skip = Ok rows -> r_sobol_sequence fuel dim n' skip = Ok rows' ->
  rows = firstn (Z.to_nat n) rows'.
Proof. exact r_prefix_claim. Qed.
Print Assumptions C59_prefix.
Example C59_prefix_ex : (let* m := r_sobol_sequence 40 3 2 5 in Ok (map (map B2SF) m))
  = (let* m := r_sobol_sequence 40 3 4 5 in Ok (firstn 2 (map (map B2SF) m))) /\
  (let* m := r_sobol_sequence 40 3 4 5 in Ok (length m)) = Ok 4%nat.
Proof. split; vm_compute; reflexivity. Qed.

(** C59: a number of columns that is not between 1 and 1111 is an R error *)
Theorem C59_dimensions : forall fuel dim n skip, dim < 1 \/ 1111 < dim -> n * dim <= 2 ^ 31 - 1 ->
  exists e, r_sobol_sequence fuel dim n skip = Throw e.
Proof. exact r_range_claim. Qed.
Print Assumptions C59_dimensions.
Example C59_dimensions_ex : r_sobol_sequence 40 1112 5 0 = Throw (RangeError "Dim is not in valid range [1,1111]") /\
  r_sobol_sequence 40 0 5 0 = Throw (RangeError "Dim is not in valid range [1,1111]").
Proof. split; vm_compute; reflexivity. Qed.

(** C59 refuted for negative skips: nothing checks them, and the call never returns, whatever the number of loop
    iterations allowed *)
Theorem C59_negative_skip_refuted : forall fuel dim n skip, 1 <= dim <= 1111 -> 0 <= n -> n * dim <= 2 ^ 31 - 1 ->
  - 2 ^ 31 < skip < 0 -> r_sobol_sequence fuel dim n skip = Diverge.
Proof. exact r_hang_claim. Qed.
Print Assumptions C59_negative_skip_refuted.
Example C59_negative_skip_ex : r_sobol_sequence 1000 2 3 (-1) = Diverge.
Proof. vm_compute. reflexivity. Qed.
