(** Property C68: sampling with replacement.  [wr_draw] and [wr_drawd] are operator() for uint32_t and double. *)
From Coq Require Import Reals.
From Flocq Require Import Core.Raux Core.Zaux IEEE754.BinarySingleNaN.
From Verif Require Import Base Spec Float64 Ddwr DdwrProofs Replace ReplaceProofs.
Open Scope Z_scope.

(** C68: a state with a positive frequency is returned; for totals up to 2^21 it is the one whose interval of cumulative
    frequencies contains the variate, scaled without rounding *)
Theorem C68_integers : forall freq r, frequencies freq -> variate r -> 0 < sumZ freq ->
  exists j, wr_draw freq r = Ok (Z.of_nat j) /\ (j < length freq)%nat /\ 0 < nth j freq 0 /\
    (sumZ freq <= 2 ^ 21 -> 2 ^ 32 * sumZ (firstn j freq) <= r * sumZ freq < 2 ^ 32 * sumZ (firstn (S j) freq)).
Proof. exact wr_claim. Qed.
Print Assumptions C68_integers.

(** ... so of the 2^32 variates the share that selects a state is its frequency divided by the total, to less than one
    variate *)
Theorem C68_shares : forall freq j, frequencies freq -> 0 < sumZ freq <= 2 ^ 21 -> (j < length freq)%nat ->
  let n := Z.of_nat (length (filter (fun r => returns (wr_draw freq r) (Z.of_nat j)) (zrange (2 ^ 32)))) in
  Z.abs (n * sumZ freq - 2 ^ 32 * nth j freq 0) < sumZ freq.
Proof. exact wr_count. Qed.
Print Assumptions C68_shares.
Example C68_ex : frequencies [2; 0; 3; 1] /\ 0 < sumZ [2; 0; 3; 1] <= 2 ^ 21 /\
  map (wr_draw [2; 0; 3; 1]) [0; 2 ^ 30; 2 ^ 31; 2 ^ 32 - 1] = [Ok 0; Ok 0; Ok 2; Ok 3].
Proof. split; [split; [repeat constructor; discriminate|reflexivity]|]. split; [split; [reflexivity|discriminate]|]. vm_compute. reflexivity. Qed.

(** there is no test for frequencies that are all zero: the search then runs off the end *)
Theorem C68_empty_refuted : forall freq r, Forall (fun x => x = 0) freq -> variate r -> wr_draw freq r = UB "vector access out of bounds".
Proof. exact wr_empty_claim. Qed.
Print Assumptions C68_empty_refuted.
Example C68_empty_ex : Forall (fun x => x = 0) [0; 0] /\ variate 7. Proof. split; [repeat constructor|split; [discriminate|reflexivity]]. Qed.

(** with doubles a state with a positive weight is returned if the total is finite and a normal number *)
Theorem C68_doubles : forall freq r, variate r -> Forall (fun x => d_leb d_zero x = true) freq ->
  let total := fold_left d_add freq d_zero in is_finite total = true -> (bpow radix2 (-1022) <= B2R total)%R ->
  let p := d_mul (d_div (d_ofZ r) (d_ofZ (2 ^ 32))) total in
  exists j, wr_drawd freq r = Ok (Z.of_nat j) /\ (j < length freq)%nat /\ d_ltb d_zero (nth j freq d_zero) = true /\
    ((0 < j)%nat -> d_leb (fold_left d_add (firstn j freq) d_zero) p = true) /\ d_ltb p (fold_left d_add (firstn (S j) freq) d_zero) = true.
Proof. exact wrd_claim. Qed.
Print Assumptions C68_doubles.
Example C68_doubles_ex : let freq := map (fun z => d_lit z (-2)) [1; 0; 2; 1] in Forall (fun x => d_leb d_zero x = true) freq /\
  fold_left d_add freq d_zero = d_one /\ map (wr_drawd freq) [0; 2 ^ 30; 2 ^ 31; 2 ^ 32 - 1] = [Ok 0; Ok 2; Ok 2; Ok 3].
Proof. split; [repeat constructor; vm_compute; reflexivity|]. split; [apply B2SF_inj; vm_compute; reflexivity|]. vm_compute. reflexivity. Qed.

(** ... but not in general: with a subnormal total the product can be rounded up to the total *)
Theorem C68_tiny_refuted : exists freq r, variate r /\ Forall (fun x => is_finite x = true /\ d_ltb d_zero x = true) freq /\ freq <> [] /\
  wr_drawd freq r = UB "vector access out of bounds".
Proof. exact wrd_tiny. Qed.
Print Assumptions C68_tiny_refuted.
