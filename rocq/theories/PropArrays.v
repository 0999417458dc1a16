(** Properties C31-C36, C38, C46: arrays, iteration, reduction, slicing, flatten, layouts. *)
From Coq Require Import Sorted.
From Verif Require Import Base Spec NDArray ArrayOps Bind RArray Strides ArrayClaims.

(** C33: valid indices address distinct in-bounds slots covering the storage *)
Theorem C33_offsets : forall (T : Type) sizes, sizes <> [] -> positive sizes -> prodZ sizes < 2 ^ 60 ->
  exists a : nd T, nd_new sizes = Ok a /\ nd_sizes a = sizes /\ Z.of_nat (length (nd_data a)) = prodZ sizes /\
    (forall i, index_in sizes i -> nd_offset a i = Ok (rowmajor sizes i) /\ 0 <= rowmajor sizes i < prodZ sizes) /\
    (forall i j, index_in sizes i -> index_in sizes j -> rowmajor sizes i = rowmajor sizes j -> i = j) /\
    (forall o, 0 <= o < prodZ sizes -> exists i, index_in sizes i /\ rowmajor sizes i = o).
Proof. exact offsets_claim. Qed.
Print Assumptions C33_offsets.
Example C33_offsets_ex :
  (let* a := @nd_new Z [2; 3; 4] in nd_offset a [1; 2; 3]) = Ok 23.
Proof. vm_compute. reflexivity. Qed.

(** C33: iteration visits every index once, in row-major order, then stops *)
Theorem C33_iteration : forall sizes, sizes <> [] -> positive sizes ->
  exists visited, index_loop sizes (fun i s => Ok (s ++ [i])) [] = Ok visited /\
    NoDup visited /\ (forall i, In i visited <-> index_in sizes i) /\ StronglySorted lex_le visited /\
    forall S (body : list Z -> S -> outcome S) s, index_loop sizes body s = foldM body visited s.
Proof. exact iteration_claim. Qed.
Print Assumptions C33_iteration.
Example C33_iteration_ex :
  index_loop [2; 2] (fun i s => Ok (s ++ [i])) [] = Ok [[0; 0]; [0; 1]; [1; 0]; [1; 1]].
Proof. vm_compute. reflexivity. Qed.

(** C34: reduction sums the entries projecting onto each cell and preserves the total *)
Theorem C34_reduce : forall (a : ndarray Z) dims, wf_array a -> prodZ (shape a) < 2 ^ 60 ->
  Forall (fun d => 0 <= d < Z.of_nat (length (shape a))) dims -> dims <> [] ->
  prodZ (proj dims (shape a)) < 2 ^ 60 ->
  total (shape a) (fun i => Z.abs (entry 0 a i)) < 2 ^ 63 ->
  exists t r, as_nd a = Ok t /\ reduce IntOps t dims = Ok r /\ nd_sizes r = proj dims (shape a) /\
    (forall c, index_in (proj dims (shape a)) c -> nd_get r c = Ok (margin (shape a) dims c (entry 0 a))) /\
    total (proj dims (shape a)) (fun c => margin (shape a) dims c (entry 0 a)) = total (shape a) (entry 0 a).
Proof. exact reduce_claim. Qed.
Print Assumptions C34_reduce.
Example C34_reduce_ex :
  (let* t := as_nd (NDA [2; 2; 2] [1; 2; 3; 4; 5; 6; -7; 8]) in
   let* r := reduce IntOps t [2; 0] in nd_values r) = Ok [4; -2; 6; 14].
Proof. vm_compute. reflexivity. Qed.

(** C34: the 1-d reduction agrees with the n-d one *)
Theorem C34_reduce1 : forall (a : ndarray Z) d, wf_array a -> prodZ (shape a) < 2 ^ 60 ->
  0 <= d < Z.of_nat (length (shape a)) -> d < 2 ^ 64 ->
  total (shape a) (fun i => Z.abs (entry 0 a i)) < 2 ^ 63 ->
  exists t v r, as_nd a = Ok t /\ reduce1 IntOps t d = Ok v /\ reduce IntOps t [d] = Ok r /\
    v = map (fun k => margin (shape a) [d] [k] (entry 0 a)) (zrange (nth (Z.to_nat d) (shape a) 0)) /\
    nd_values r = Ok v.
Proof. exact reduce1_claim. Qed.
Print Assumptions C34_reduce1.
Example C34_reduce1_ex :
  (let* t := as_nd (NDA [2; 3] [1; 2; 3; 4; 5; 6]) in reduce1 IntOps t 1) = Ok [5; 7; 9].
Proof. vm_compute. reflexivity. Qed.

(** C35: slicing at valid positions *)
Theorem C35_slice : forall T (df : T) (a : ndarray T) fixed, wf_array a -> prodZ (shape a) < 2 ^ 60 ->
  Z.of_nat (length (shape a)) < 2 ^ 64 ->
  fixed <> [] -> (length fixed < length (shape a))%nat -> NoDup (map fst fixed) ->
  Forall (fun '(d, v) => 0 <= d < Z.of_nat (length (shape a)) /\ 0 <= v < nth (Z.to_nat d) (shape a) 0) fixed ->
  let free := filter (fun d => negb (existsb (Z.eqb d) (map fst fixed))) (zrange (Z.of_nat (length (shape a)))) in
  exists t s, as_nd a = Ok t /\ slice t fixed = Ok s /\ nd_sizes s = proj free (shape a) /\
    forall i, index_in (shape a) i -> (forall d v, In (d, v) fixed -> nth (Z.to_nat d) i 0 = v) ->
      nd_get s (proj free i) = Ok (entry df a i).
Proof. exact @slice_claim. Qed.
Print Assumptions C35_slice.
Example C35_slice_ex :
  (let* t := as_nd (NDA [2; 2; 2] [1; 2; 3; 4; 5; 6; 7; 8]) in
   let* s := slice t [(2, 1); (0, 1)] in nd_values s) = Ok [6; 8].
Proof. vm_compute. reflexivity. Qed.

(** C35: fixing nothing copies *)
Theorem C35_slice_nothing : forall T (df : T) (a : ndarray T), wf_array a -> prodZ (shape a) < 2 ^ 60 ->
  exists t s, as_nd a = Ok t /\ slice t [] = Ok s /\ nd_sizes s = shape a /\
    forall i, index_in (shape a) i -> nd_get s i = Ok (entry df a i).
Proof. exact @slice_nothing_claim. Qed.
Print Assumptions C35_slice_nothing.
Example C35_slice_nothing_ex :
  (let* t := as_nd (NDA [2; 2] [1; 2; 3; 4]) in let* s := slice t [] in nd_values s) = Ok [1; 2; 3; 4].
Proof. vm_compute. reflexivity. Qed.

(** C35: a dimension out of range, or an index beyond the end of its dimension, raises *)
Theorem C35_slice_raises : forall T (a : ndarray T) fixed, wf_array a -> prodZ (shape a) < 2 ^ 60 ->
  Z.of_nat (length (shape a)) < 2 ^ 63 ->
  Forall (fun '(d, v) => - 2 ^ 63 <= d < 2 ^ 63) fixed ->
  (exists d v, In (d, v) fixed /\ (~ 0 <= d < Z.of_nat (length (shape a)) \/ nth (Z.to_nat d) (shape a) 0 <= v)) ->
  exists t msg, as_nd a = Ok t /\ slice t fixed = Throw (RuntimeError msg).
Proof. exact @slice_throws_claim. Qed.
Print Assumptions C35_slice_raises.
Example C35_slice_raises_ex :
  (let* t := as_nd (NDA [2; 2] [1; 2; 3; 4]) in slice t [(0, 1); (-1, 0)])
  = Throw (RuntimeError "dimension out of bounds in slice").
Proof. vm_compute. reflexivity. Qed.

(** C35 refuted for negative indices: they are not range-checked and lead to undefined behaviour *)
Theorem C35_negative_index_refuted :
  exists (a : ndarray Z) fixed w, wf_array a /\
    (let* t := as_nd a in slice t fixed) = UB w.
Proof.
  exists (NDA [2; 2] [1; 2; 3; 4]), [(0, -1)], "m_freeSizes index out of range"%string.
  split; [|vm_compute; reflexivity].
  repeat split; [discriminate | repeat constructor].
Qed.
Print Assumptions C35_negative_index_refuted.

(** C31: flatten *)
Theorem C31_flatten : forall (a : ndarray Z), wf_array a -> prodZ (shape a) < 2 ^ 60 ->
  Forall (fun n => n <= 2 ^ 31) (shape a) ->
  (forall i, index_in (shape a) i -> 0 <= entry 0 a i) ->
  total (shape a) (entry 0 a) < 2 ^ 61 ->
  exists rows, flatten a = Ok (map (fun j => map (fun r => nth j r 0) rows) (seq 0 (length (shape a)))) /\
    Z.of_nat (length rows) = total (shape a) (entry 0 a) /\
    Forall (index_in (shape a)) rows /\
    (forall i, index_in (shape a) i -> Z.of_nat (count_occ (list_eq_dec Z.eq_dec) rows i) = entry 0 a i) /\
    StronglySorted lex_le rows.
Proof. exact flatten_claim. Qed.
Print Assumptions C31_flatten.
Example C31_flatten_ex : flatten (NDA [2; 2] [1; 0; 2; 1]) = Ok [[0; 1; 1; 1]; [0; 0; 0; 1]].
Proof. vm_compute. reflexivity. Qed.

(** C31 for R's flatten (states numbered from 1) *)
Theorem C31_r_flatten : forall (a : rarray Z), wf_rarray a -> prodZ (col_sizes a) < 2 ^ 60 ->
  Forall (fun n => n < 2 ^ 31) (col_sizes a) ->
  (forall i, index_in (col_sizes a) i -> 0 <= r_entry 0 a i) ->
  total (col_sizes a) (r_entry 0 a) < 2 ^ 61 ->
  exists rows, r_flatten a = Ok (map (fun j => map (fun r => 1 + nth j r 0) rows) (seq 0 (length (col_sizes a)))) /\
    Z.of_nat (length rows) = total (col_sizes a) (r_entry 0 a) /\
    Forall (index_in (col_sizes a)) rows /\
    (forall i, index_in (col_sizes a) i -> Z.of_nat (count_occ (list_eq_dec Z.eq_dec) rows i) = r_entry 0 a i) /\
    StronglySorted lex_le rows.
Proof. exact r_flatten_claim. Qed.
Print Assumptions C31_r_flatten.
Example C31_r_flatten_ex : r_flatten (RA (Some [2; 2]) [1; 2; 0; 1]) = Ok [[1; 2; 2; 2]; [1; 1; 1; 2]].
Proof. vm_compute. reflexivity. Qed.

(** C32 refuted: negative counts make flatten write outside its columns *)
Theorem C32_flatten_total_refuted : exists (a : ndarray Z) w, wf_array a /\ flatten a = UB w.
Proof.
  exists (NDA [1; 2] [3; -1]), "vector index out of range"%string. split; [|vm_compute; reflexivity].
  repeat split; [discriminate | repeat constructor].
Qed.
Print Assumptions C32_flatten_total_refuted.

(** C36: conversion of R arrays *)
Theorem C36_convert : forall T (d : T) (a : rarray T), wf_rarray a -> prodZ (col_sizes a) < 2 ^ 60 ->
  exists t, convert_array a = Ok t /\ nd_sizes t = col_sizes a /\
    forall i, index_in (col_sizes a) i -> nd_get t i = Ok (r_entry d a i).
Proof. exact @convert_claim. Qed.
Print Assumptions C36_convert.
Example C36_convert_ex :
  (let* t := convert_array (RA (Some [2; 3]) [11; 21; 12; 22; 13; 23]) in nd_get t [1; 2]) = Ok 23 /\
  (let* t := convert_array (RA (Some [2; 3]) [11; 21; 12; 22; 13; 23]) in nd_values t) = Ok [11; 12; 13; 21; 22; 23].
Proof. split; vm_compute; reflexivity. Qed.

(** C38 for C-contiguous arrays: both conversions see numpy's elements *)
Theorem C38_contiguous : forall T (a : nparray T), np_strides a = c_strides (np_shape a) ->
  np_shape a <> [] -> positive (np_shape a) -> prodZ (np_shape a) < 2 ^ 60 ->
  0 <= np_base a -> np_base a + prodZ (np_shape a) <= Z.of_nat (length (np_buf a)) ->
  forall i, index_in (np_shape a) i -> exists x t t', np_entry a i = Some x /\
    as_nd_np a = Ok t /\ nd_get t i = Ok x /\ to_nd_np a = Ok t' /\ nd_get t' i = Ok x.
Proof. exact @contiguous_claim. Qed.
Print Assumptions C38_contiguous.
Example C38_contiguous_ex :
  (let* t := as_nd_np (NP [9; 1; 2; 3; 4; 5; 6] 1 [2; 3] [3; 1]) in nd_get t [1; 1]) = Ok 5.
Proof. vm_compute. reflexivity. Qed.

(** C38 refuted for other layouts: the transpose of a contiguous 2x3 array is seen with the wrong elements, and a
    reversed view is read past the end of its buffer *)
Theorem C38_layout_refuted :
  (exists (a : nparray Z) i, np_entry a i = Some 2 /\
     (let* t := as_nd_np a in nd_get t i) = Ok 3 /\ (let* t := to_nd_np a in nd_get t i) = Ok 3) /\
  (exists (a : nparray Z) i w, np_entry a i = Some 1 /\
     (let* t := as_nd_np a in nd_get t i) = UB w) /\
  (exists (a : nparray Z) w, np_entry a [1] = Some 1 /\ to_nd_np a = UB w).
Proof.
  split; [|split].
  - exists (NP [1; 2; 3; 4; 5; 6] 0 [3; 2] [1; 3]), [1; 0]. repeat split; vm_compute; reflexivity.
  - exists (NP [1; 2] 1 [2] [-1]), [1]. eexists. repeat split; vm_compute; reflexivity.
  - exists (NP [1; 2] 1 [2] [-1]). eexists. repeat split; vm_compute; reflexivity.
Qed.
Print Assumptions C38_layout_refuted.

(** C46 refuted: every shape with an empty dimension, and the 0-d shape, is undefined behaviour in both of the
    conversions all entry points start with *)
Theorem C46_degenerate_shapes_refuted : forall T (a : ndarray T), In 0 (shape a) \/ shape a = [] ->
  (exists w, as_nd a = UB w) /\ (exists w, to_nd a = UB w).
Proof. exact @degenerate_claim. Qed.
Print Assumptions C46_degenerate_shapes_refuted.
Example C46_ex : flatten (NDA [2; 0] []) = UB "division by zero in computeOffsets" /\
                 flatten (NDA [] [5]) = UB "sizes[0] of an empty vector".
Proof. split; vm_compute; reflexivity. Qed.
