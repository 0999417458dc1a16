(** Property C17 with rounding: what ipf keeps of the seed in doubles.

    [normal], [stays_normal], [factorsR] and [within] are in IpfRoundSpec.v and do not mention the model. *)
From Coq Require Import Reals.
From Flocq Require Import Core.Core IEEE754.BinarySingleNaN.
From Verif Require Import Base Spec NDArray Float64 ArrayOps Bind SynthSpec Ipf IpfSpec MicroDbl IpfClaims IpfDbl IpfExamples IpfFitSpec
  RealSpec IpfRoundSpec IpfRound.
Open Scope R_scope.

(** C17: if ipf in doubles returns after n rounds with K marginals, there is one real factor per cell of each marginal such
    that every state which stays normal is its seed value times the factors of its marginal cells, within n*K relative
    errors of 2^-52. *)
Theorem C17_product_rounded : forall fuel seed ilist mlist, d_range ilist mlist -> all_proper d_zero ilist mlist -> wf_array seed ->
  (prodZ (shape seed) < 2 ^ 60)%Z -> (prodZ (shape seed) < Z.of_nat fuel)%Z ->
  let cs := dcons_of ilist mlist in let sizes := shape seed in let s := entry d_zero seed in
  forall res, py_ipf fuel seed ilist mlist = Ok res ->
  exists n xs, (1 <= n <= 1000)%nat /\ ir_iters res = Z.of_nat n /\ length xs = length cs /\
    forall i, index_in sizes i -> stays_normal sizes cs s n i ->
      0 < factorsR cs xs i /\ within (n * length cs) (B2R (entry d_zero (ir_array res) i)) (B2R (s i) * factorsR cs xs i).
Proof. exact round_product_claim. Qed.
Print Assumptions C17_product_rounded.

(** C17: the odds ratios of the seed are those of the result, within n*K relative errors of 2^-49 *)
Theorem C17_odds_rounded : forall fuel seed ilist mlist, d_range ilist mlist -> all_proper d_zero ilist mlist -> wf_array seed ->
  (prodZ (shape seed) < 2 ^ 60)%Z -> (prodZ (shape seed) < Z.of_nat fuel)%Z ->
  let cs := dcons_of ilist mlist in let sizes := shape seed in let s := entry d_zero seed in
  forall res, py_ipf fuel seed ilist mlist = Ok res -> (Z.of_nat (length cs) <= 10 ^ 9)%Z ->
  exists n, (1 <= n <= 1000)%nat /\ ir_iters res = Z.of_nat n /\ forall i j i' j',
  index_in sizes i -> index_in sizes j -> index_in sizes i' -> index_in sizes j' ->
  (forall c, In c cs -> (proj (g_dims c) i = proj (g_dims c) i' /\ proj (g_dims c) j = proj (g_dims c) j') \/
     (proj (g_dims c) i = proj (g_dims c) j' /\ proj (g_dims c) j = proj (g_dims c) i')) ->
  stays_normal sizes cs s n i -> stays_normal sizes cs s n j -> stays_normal sizes cs s n i' -> stays_normal sizes cs s n j' ->
  let r := fun x => B2R (entry d_zero (ir_array res) x) in let s := fun x => B2R (s x) in
  0 < r i' * r j' * (s i * s j) /\
  Rabs (r i * r j * (s i' * s j') / (r i' * r j' * (s i * s j)) - 1) <= INR n * INR (length cs) * bpow radix2 (-49).
Proof. exact round_odds_claim. Qed.
Print Assumptions C17_odds_rounded.
(** C17: each cell k of the last marginal whose states are zero or normal before and after the last scaling is matched
    within 2 relative errors of 2^-51, and one more per state of the table *)
Theorem C17_last_rounded : forall fuel seed ilist mlist, d_range ilist mlist -> all_proper d_zero ilist mlist -> wf_array seed ->
  (prodZ (shape seed) < 2 ^ 60)%Z -> (prodZ (shape seed) < Z.of_nat fuel)%Z ->
  let cs := dcons_of ilist mlist in let sizes := shape seed in let s := entry d_zero seed in
  forall res pre c, py_ipf fuel seed ilist mlist = Ok res -> cs = pre ++ [c] -> (prodZ sizes <= 2 ^ 50)%Z ->
  exists n, (n < 1000)%nat /\ ir_iters res = Z.of_nat (S n) /\
  let g := fold_left (fun g c => fit1 sizes c g) pre (fitted sizes cs s n) in
  forall k, index_in (g_sizes c) k -> normal (g_at c k) -> normal (d_div (g_at c k) (marginD sizes (g_dims c) k g)) ->
  (forall i, index_in sizes i -> proj (g_dims c) i = k ->
     is_finite (g i) = true /\ B2R (g i) = 0 \/ normal (g i) /\ normal (fit1 sizes c g i)) ->
  let r := marginR sizes (g_dims c) k (fun i => B2R (entry d_zero (ir_array res) i)) in
  Rabs (r - B2R (g_at c k)) <= B2R (g_at c k) * ((IZR (prodZ sizes) + 2) * bpow radix2 (-51)).
Proof. exact round_last_claim. Qed.
Print Assumptions C17_last_rounded.
(** the seed (1 1; 3 4) with marginals (3, 7) and (4, 6): four rounds, all four states stay normal *)
Example C17_rounded_ex : d_range exI_i exI_m /\ all_proper d_zero exI_i exI_m /\ wf_array exR_s /\
  match py_ipf 5 exR_s exI_i exI_m with Ok r => ir_conv r = true /\ ir_iters r = 4%Z | _ => False end /\
  forall i, In i (all_indices [2; 2]%Z) -> stays_normal [2; 2]%Z (dcons_of exI_i exI_m) (entry d_zero exR_s) 4 i /\
    (let sizes := [2; 2]%Z in let cs := dcons_of exI_i exI_m in
     let g := fold_left (fun g c => fit1 sizes c g) (firstn 1 cs) (fitted sizes cs (entry d_zero exR_s) 3) in
     forall c, In c (skipn 1 cs) -> let k := proj (g_dims c) i in
       normal (g i) /\ normal (fit1 sizes c g i) /\ normal (g_at c k) /\ normal (d_div (g_at c k) (marginD sizes (g_dims c) k g))).
Proof.
  split; [exact exI_range|]. split; [exact exI_proper|]. split; [exact exR_seed|].
  split; [vm_compute; split; reflexivity|intros i Hi; split; [now apply exR_stays|now apply exR_last]].
Qed.
