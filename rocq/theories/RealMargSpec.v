(** When real-valued (double) marginals are consistent: as the code judges it, and in exact arithmetic. *)
From Coq Require Import Reals.
From Flocq Require Import Core.Core IEEE754.BinarySingleNaN.
From Verif Require Import Base Spec Float64 ArrayOps SynthSpec IpfSpec MsgSpec.
Open Scope Z_scope.

(** sums in row-major order, in doubles: of all entries, and of those whose [j]-th index is [v] *)
Definition sumD (c : gcon double) : double := marginD (g_sizes c) [] [] (g_at c).
Definition alongD (c : gcon double) (j : nat) (v : Z) : double := marginD (g_sizes c) [Z.of_nat j] [v] (g_at c).

(** the same sums without rounding *)
Definition sum_exact (c : gcon double) : R := fold_right Rplus 0%R (map (fun i => B2R (g_at c i)) (all_indices (g_sizes c))).
Definition along_exact (c : gcon double) (j : nat) (v : Z) : R :=
  fold_right Rplus 0%R (map (fun i => B2R (g_at c i)) (filter (fun i => idx_eqb (proj [Z.of_nat j] i) [v]) (all_indices (g_sizes c)))).

(** what the code accepts: no entry below zero; all totals round to the same integer (one half is added, the fraction dropped);
    for each dimension the sums along its further axes are within 1e-8 of those along its first ([axes] is in MsgSpec.v) *)
Definition consistent (cs : list (gcon double)) : Prop :=
  (2 <= length cs)%nat /\
  (exists sizes, implied (map outline cs) sizes /\ (2 <= length sizes)%nat) /\
  (forall c i, In c cs -> index_in (g_sizes c) i -> d_ltb (g_at c i) d_zero = false) /\
  (exists p, forall c, In c cs -> (IZR p <= B2R (d_add (sumD c) d_half) < IZR p + 1)%R) /\
  (forall d k0 j0 more k j c0 c v, axes (map outline cs) d = (k0, j0) :: more -> In (k, j) more ->
     nth_error cs k0 = Some c0 -> nth_error cs k = Some c -> 0 <= v < nth j (g_sizes c) 0 ->
     d_ltb d_1em8 (d_abs (d_sub (alongD c j v) (alongD c0 j0 v))) = false).

(** the totals can be converted to an integer: finite and at most 2^62 in magnitude *)
Definition totals_ok (cs : list (gcon double)) : Prop :=
  forall c, In c cs -> is_finite (sumD c) = true /\ (Rabs (B2R (sumD c)) <= bpow radix2 62)%R.

(** what is meant: finite non-negative entries whose exact sums agree, in total ([t]) and along every shared dimension *)
Definition agree (cs : list (gcon double)) (t : R) : Prop :=
  (2 <= length cs)%nat /\
  (exists sizes, implied (map outline cs) sizes /\ (2 <= length sizes)%nat) /\
  (forall c i, In c cs -> index_in (g_sizes c) i -> is_finite (g_at c i) = true /\ (0 <= B2R (g_at c i))%R) /\
  (forall c, In c cs -> sum_exact c = t) /\
  (forall d c j c' j' v, In c cs -> In c' cs -> nth_error (g_dims c) j = Some d -> nth_error (g_dims c') j' = Some d ->
     along_exact c j v = along_exact c' j' v).
