(** The product form of the ipf result in doubles: rounding moves odds ratios by at most one unit in the last place per
    scaling and cell (C17). *)
From Coq Require Import Reals Psatz.
From Flocq Require Import Core.Core IEEE754.BinarySingleNaN.
From Verif Require Import Base Spec SpecFacts NDArray IndexProofs Float64 FloatProofs FloatExt ArrayOps ArrayProofs Bind BindProofs Micro Qis
  SynthSpec Ipf IpfSpec MicroDbl IpfClaims IpfDbl IpfFitSpec IpfFit RealSpec IntegeriseDbl ExpectRound NormalProofs IpfExamples IpfRoundSpec.
Open Scope R_scope.

Lemma normal_pos x : normal x -> 0 < B2R x.
Proof. intros [_ H]. pose proof (bpow_gt_0 radix2 (-1021)). lra. Qed.

Lemma mul_finite_inv x y : is_finite x = true -> B2R x <> 0 -> is_finite (d_mul x y) = true ->
  is_finite y = true /\ B2R (d_mul x y) = RN (B2R x * B2R y).
Proof.
  intros Fx Nx Fm.
  assert (is_finite y = true) as Fy.
  { destruct y as [s|s| |s m e Hb]; auto; destruct x as [s'|s'| |s' m' e' Hb']; try discriminate Fx; try (exfalso; apply Nx; reflexivity);
      discriminate Fm. }
  split; auto. destruct (Rlt_or_le (Rabs (RN (B2R x * B2R y))) (p2 1024)) as [H|H].
  - destruct (d_mul_round x y _ _ (fin_B2R x Fx) (fin_B2R y Fy) H) as [_ E]. exact E.
  - exfalso. pose proof (Bmult_correct 53 1024 Hprec Hemax mode_NE x y) as C. cbv zeta in C.
    rewrite Rlt_bool_false in C by exact H. unfold d_mul in Fm. destruct (Bmult mode_NE x y); try discriminate Fm;
      cbn in C; destruct (xorb (Bsign x) (Bsign y)); discriminate C.
Qed.

(** one scaling *)
Lemma fit1_rel sizes c g i : normal (g i) -> normal (fit1 sizes c g i) ->
  let k := proj (g_dims c) i in let q := B2R (d_div (g_at c k) (marginD sizes (g_dims c) k g)) in
  0 < q /\ rel 1 (B2R (fit1 sizes c g i)) (B2R (g i) * q).
Proof.
  intros Hg Hf k q. unfold fit1 in *. fold k in Hf |- *. cbv zeta in Hf |- *.
  destruct (d_eqb (marginD sizes (g_dims c) k g) d_zero).
  { apply normal_pos in Hf. cbn in Hf. lra. }
  pose proof (normal_pos _ Hg) as Px. pose proof (normal_pos _ Hf) as Pm. destruct Hg as [Fx Hx], Hf as [Fm Hm].
  destruct (mul_finite_inv (g i) (d_div (g_at c k) (marginD sizes (g_dims c) k g)) Fx ltac:(lra) Fm) as [Fy E]. fold q in E.
  rewrite E in *.
  assert (p2 (-1022) <= B2R (g i) * q) as Hlo.
  { apply Rnot_lt_le. intros Hlt. pose proof (RN_le_repr (B2R (g i) * q) (p2 (-1022)) (repr_p2 (-1022) ltac:(lia)) ltac:(lra)) as Hle.
    pose proof (bpow_lt radix2 (-1022) (-1021) ltac:(lia)). lra. }
  split; [|apply rel_RN; now right]. pose proof (bpow_gt_0 radix2 (-1022)). apply Rnot_le_lt. intros Hq. nra.
Qed.

Fixpoint round_factors (sizes : list Z) (cs : list (gcon double)) (g : list Z -> double) : list (list Z -> R) :=
  match cs with
  | [] => []
  | c :: cs' => (fun k => B2R (d_div (g_at c k) (marginD sizes (g_dims c) k g))) :: round_factors sizes cs' (fit1 sizes c g)
  end.
Fixpoint zipmul (xs ys : list (list Z -> R)) : list (list Z -> R) :=
  match xs, ys with x :: xs', y :: ys' => (fun k => x k * y k) :: zipmul xs' ys' | _, _ => [] end.

Lemma round_factors_length sizes cs g : length (round_factors sizes cs g) = length cs.
Proof. revert g. induction cs as [|c cs IH]; intros g; cbn; auto. Qed.
Lemma zipmul_length xs ys : length xs = length ys -> length (zipmul xs ys) = length xs.
Proof. revert ys. induction xs as [|x xs IH]; intros [|y ys]; cbn; auto; try discriminate. Qed.
Lemma factors_zipmul cs xs ys i : length xs = length cs -> length ys = length cs ->
  factorsR cs (zipmul xs ys) i = factorsR cs xs i * factorsR cs ys i.
Proof.
  revert xs ys. induction cs as [|c cs IH]; intros [|x xs] [|y ys] H1 H2; try discriminate; cbn; [lra|].
  injection H1 as H1. injection H2 as H2. rewrite IH by auto. ring.
Qed.
Lemma rel_within k x y : within k x y <-> rel k x y. Proof. reflexivity. Qed.

(** one round *)
Lemma round_rel sizes cs : forall g i, (forall pre post, cs = pre ++ post -> normal (fold_left (fun g c => fit1 sizes c g) pre g i)) ->
  0 < factorsR cs (round_factors sizes cs g) i /\
  rel (length cs) (B2R (fold_left (fun g c => fit1 sizes c g) cs g i)) (B2R (g i) * factorsR cs (round_factors sizes cs g) i).
Proof.
  induction cs as [|c cs IH]; intros g i Hn; cbn [fold_left factorsR round_factors length].
  - pose proof (Hn [] [] eq_refl) as H. cbn in H. apply normal_pos in H. split; [lra|]. rewrite Rmult_1_r. apply rel_refl. lra.
  - pose proof (Hn [] (c :: cs) eq_refl) as H0. cbn in H0. pose proof (Hn [c] cs eq_refl) as H1. cbn in H1.
    destruct (fit1_rel sizes c g i H0 H1) as [Hq Hr].
    destruct (IH (fit1 sizes c g) i) as [Hp Hi]; [intros pre post E; apply (Hn (c :: pre) post); cbn; congruence|].
    set (F := factorsR cs _ i) in *. split; [now apply Rmult_lt_0_compat|].
    apply normal_pos in H0. apply normal_pos in H1.
    replace (S (length cs)) with (length cs + 1)%nat by lia. eapply rel_trans; [exact Hi|].
    rewrite <- Rmult_assoc. rewrite <- (Nat.add_0_r 1). apply rel_mul; try lra; [nra|exact Hr|apply rel_refl; lra].
Qed.

Fixpoint all_factors (sizes : list Z) (cs : list (gcon double)) (f : list Z -> double) (n : nat) : list (list Z -> R) :=
  match n with
  | O => map (fun _ _ => 1) cs
  | S m => zipmul (all_factors sizes cs f m) (round_factors sizes cs (fitted sizes cs f m))
  end.
Lemma all_factors_length sizes cs f n : length (all_factors sizes cs f n) = length cs.
Proof. induction n as [|n IH]; cbn; [apply map_length|]. rewrite zipmul_length; rewrite IH; auto. symmetry. apply round_factors_length. Qed.
Lemma factors_one cs i : factorsR cs (map (fun _ _ => 1) cs) i = 1.
Proof. induction cs as [|c cs IH]; cbn; auto. rewrite IH. ring. Qed.

Lemma rounds_rel sizes cs f n i : 0 < B2R (f i) -> stays_normal sizes cs f n i ->
  0 < factorsR cs (all_factors sizes cs f n) i /\ 0 < B2R (fitted sizes cs f n i) /\
  rel (n * length cs) (B2R (fitted sizes cs f n i)) (B2R (f i) * factorsR cs (all_factors sizes cs f n) i).
Proof.
  intros Hf Hn. induction n as [|n IH]; cbn [all_factors fitted].
  - rewrite factors_one. split; [lra|]. split; auto. rewrite Rmult_1_r. apply rel_refl. lra.
  - destruct IH as (Hp & H0 & Hr); [intros m pre post Hm; apply Hn; lia|].
    assert (forall pre post, cs = pre ++ post -> normal (fold_left (fun g c => fit1 sizes c g) pre (fitted sizes cs f n) i)) as Hc
      by (intros pre post E; apply (Hn n pre post); auto).
    destruct (round_rel sizes cs _ i Hc) as [Hp' Hr'].
    rewrite factors_zipmul by (rewrite ?all_factors_length, ?round_factors_length; auto).
    pose proof (normal_pos _ (Hc cs [] (eq_sym (app_nil_r cs)))) as Hpos.
    split; [now apply Rmult_lt_0_compat|]. split; [exact Hpos|].
    replace (S n * length cs)%nat with (length cs + n * length cs)%nat by lia. eapply rel_trans; [exact Hr'|].
    rewrite <- Rmult_assoc. rewrite <- (Nat.add_0_r (n * length cs)). apply rel_mul; try lra; [nra|exact Hr|apply rel_refl; lra].
Qed.

Lemma div_finite_inv x y : is_finite x = true -> is_finite (d_div x y) = true -> B2R (d_div x y) <> 0 ->
  is_finite y = true /\ B2R y <> 0 /\ B2R (d_div x y) = RN (B2R x / B2R y).
Proof.
  intros Fx Fd Nd.
  assert (is_finite y = true /\ B2R y <> 0) as [Fy Ny].
  { destruct y as [s|s| |s m e Hb].
    - exfalso. destruct x as [s'|s'| |s' m' e' Hb']; try discriminate Fx; discriminate Fd.
    - exfalso. destruct x as [s'|s'| |s' m' e' Hb']; try discriminate Fx; apply Nd; reflexivity.
    - exfalso. destruct x as [s'|s'| |s' m' e' Hb']; try discriminate Fx; discriminate Fd.
    - split; [reflexivity|]. cbn. apply F2R_neq_0. cbn. destruct s; discriminate. }
  split; auto. split; auto. destruct (Rlt_or_le (Rabs (RN (B2R x / B2R y))) (p2 1024)) as [H|H].
  - destruct (d_div_round x y _ _ (fin_B2R x Fx) (fin_B2R y Fy) Ny H) as [_ E]. exact E.
  - exfalso. pose proof (Bdiv_correct 53 1024 Hprec Hemax mode_NE x y Ny) as C. cbv zeta in C.
    rewrite Rlt_bool_false in C by exact H. unfold d_div in Fd. destruct (Bdiv mode_NE x y); try discriminate Fd;
      cbn in C; destruct (xorb (Bsign x) (Bsign y)); discriminate C.
Qed.

(** sums of non-negative doubles: one relative error per addition, subnormal or not *)
Lemma rel_plus a b : repr a -> repr b -> 0 <= a -> 0 <= b -> rel 1 (RN (a + b)) (a + b).
Proof.
  intros Ra Rb Pa Pb. destruct (RN_plus_err a b Ra Rb) as (e & He & E). destruct (RN_plus_err' a b Ra Rb) as (e' & He' & E').
  assert (ulpr <= p2 (-52)) as Hu by (apply bpow_le; lia). apply Rabs_le_inv in He, He'.
  assert (0 <= RN (a + b)) by (apply RN_ge_repr; [apply repr_0|lra]).
  unfold rel, EE. rewrite pow_1. split; [rewrite E' at 1|rewrite E at 1]; apply Rmult_le_compat_l; lra.
Qed.
Lemma sum_rel l : forall acc T j, is_finite (fold_left d_add l acc) = true -> (forall x, In x l -> 0 <= B2R x) -> 0 <= B2R acc -> 0 <= T ->
  rel j (B2R acc) T -> rel (j + length l) (B2R (fold_left d_add l acc)) (T + sumR (map B2R l)).
Proof.
  induction l as [|x l IH]; intros acc T j Hf Hl Ha HT Hr; cbn [fold_left length map sumR fold_right].
  - rewrite Nat.add_0_r, Rplus_0_r. exact Hr.
  - cbn [fold_left] in Hf. destruct (fold_add_finite l _ Hf) as [F1 _]. destruct (d_add_finite _ _ F1) as [Fa Fx].
    destruct (d_add_fin acc x _ _ (fin_B2R _ Fa) (fin_B2R _ Fx) F1) as [_ V].
    assert (repr (B2R acc)) as Ra by (apply (fin_repr acc); now apply fin_B2R).
    assert (repr (B2R x)) as Rx by (apply (fin_repr x); now apply fin_B2R).
    pose proof (Hl x (or_introl eq_refl)) as Px.
    change (fold_right Rplus 0 (map B2R l)) with (sumR (map B2R l)).
    replace (T + (B2R x + sumR (map B2R l))) with (T + B2R x + sumR (map B2R l)) by ring.
    replace (j + S (length l))%nat with ((1 + j) + length l)%nat by lia. apply IH; auto; try lra.
    + intros y Hy. apply Hl. now right.
    + rewrite V. apply RN_ge_repr; [apply repr_0|lra].
    + rewrite V. eapply rel_trans; [now apply rel_plus|]. apply rel_add; [exact Hr|apply rel_refl; exact Px].
Qed.

(** one scaling matches its marginal *)
Lemma fit1_margin sizes c g k : let cells := filter (fun i => idx_eqb (proj (g_dims c) i) k) (all_indices sizes) in
  normal (g_at c k) -> normal (d_div (g_at c k) (marginD sizes (g_dims c) k g)) ->
  (forall i, In i cells -> is_finite (g i) = true /\ B2R (g i) = 0 \/ normal (g i) /\ normal (fit1 sizes c g i)) ->
  rel (length cells + 2) (marginR sizes (g_dims c) k (fun i => B2R (fit1 sizes c g i))) (B2R (g_at c k)).
Proof.
  intros cells Hm Hq Hc. set (s := marginD sizes (g_dims c) k g) in *. set (m := g_at c k) in *. set (q := d_div m s) in *.
  pose proof (normal_pos _ Hm) as Pm. pose proof (normal_pos _ Hq) as Pq. destruct Hm as [Fm _], Hq as [Fq Lq].
  destruct (div_finite_inv m s Fm Fq ltac:(fold q; lra)) as (Fs & Ns & Eq). fold q in Eq.
  assert (forall i, In i cells -> 0 <= B2R (g i)) as Hnn by (intros i Hi; destruct (Hc i Hi) as [[_ H]|[H _]]; [lra|apply normal_pos in H; lra]).
  assert (rel (length cells) (B2R s) (sumR (map (fun i => B2R (g i)) cells))) as Hs.
  { unfold s, marginD. fold cells. rewrite <- (map_length g cells), <- (map_map g B2R), <- (Rplus_0_l (sumR _)).
    apply (sum_rel (map g cells) d_zero 0 0); [exact Fs| |cbn; lra|lra|apply rel_refl; lra].
    intros x Hx. apply in_map_iff in Hx as (i & <- & Hi). now apply Hnn. }
  set (G := sumR (map (fun i => B2R (g i)) cells)) in *.
  assert (0 <= G) as PG by (apply sumR_nonneg; apply Forall_forall; intros x Hx; apply in_map_iff in Hx as (i & <- & Hi); now apply Hnn).
  assert (0 < B2R s) as Ps.
  { destruct Hs as [_ H2]. destruct (Rtotal_order (B2R s) 0) as [H|[H|H]]; [|contradiction|exact H].
    exfalso. assert (B2R m / B2R s <= 0) by (unfold Rdiv; apply Rinv_lt_0_compat in H; nra).
    assert (RN (B2R m / B2R s) <= 0) by (apply RN_le_repr; [apply repr_0|auto]). lra. }
  assert (0 < G) as PG' by (destruct Hs as [H1 H2]; pose proof (EE_pow (length cells)); apply Rnot_le_lt; intros HG; nra).
  assert (rel 1 (B2R q) (B2R m / B2R s)) as Rq.
  { rewrite Eq. apply rel_RN. right. apply Rnot_lt_le. intros Hlt. rewrite Eq in Lq.
    pose proof (RN_le_repr _ (p2 (-1022)) (repr_p2 (-1022) ltac:(lia)) (Rlt_le _ _ Hlt)) as Hle.
    pose proof (bpow_lt radix2 (-1022) (-1021) ltac:(lia)). lra. }
  assert (rel 1 (marginR sizes (g_dims c) k (fun i => B2R (fit1 sizes c g i))) (sumR (map (fun i => B2R (g i) * B2R q) cells))) as Hsum.
  { unfold marginR. fold cells. apply rel_sum. intros i Hi.
    assert (proj (g_dims c) i = k) as Ek by (apply filter_In in Hi as [_ Hi]; now apply idx_eqb_true).
    destruct (Hc i Hi) as [[Fg Zg]|[N1 N2]].
    - rewrite Zg, Rmult_0_l. replace (B2R (fit1 sizes c g i)) with 0; [apply rel_refl; lra|]. unfold fit1. rewrite Ek. fold s m q.
      destruct (d_eqb s d_zero); [reflexivity|].
      assert (Rabs (RN (B2R (g i) * B2R q)) < p2 1024) as Hb by (rewrite Zg, Rmult_0_l, (RN_id 0 repr_0), Rabs_R0; apply bpow_gt_0).
      destruct (d_mul_round (g i) q _ _ (fin_B2R _ Fg) (fin_B2R _ Fq) Hb) as [_ ->]. rewrite Zg, Rmult_0_l, (RN_id 0 repr_0). reflexivity.
    - destruct (fit1_rel sizes c g i N1 N2) as [_ H]. rewrite Ek in H. exact H. }
  assert (sumR (map (fun i => B2R (g i) * B2R q) cells) = G * B2R q) as EG.
  { unfold G. clear. induction cells as [|i l IH]; unfold sumR in *; cbn [map fold_right]; [ring|]. rewrite IH. ring. }
  rewrite EG in Hsum.
  replace (length cells + 2)%nat with (1 + (1 + length cells))%nat by lia. eapply rel_trans; [exact Hsum|].
  replace (B2R m) with (G * (B2R m / G)) by (field; lra).
  replace (1 + length cells)%nat with (0 + (1 + length cells))%nat by lia.
  assert (0 < B2R m / G /\ 0 < B2R m / B2R s) as [PA PB] by (split; apply Rdiv_lt_0_compat; auto).
  apply rel_mul; try lra; [apply rel_refl; lra|]. eapply rel_trans; [exact Rq|]. unfold Rdiv.
  replace (length cells) with (0 + length cells)%nat by lia.
  pose proof (Rinv_0_lt_compat _ Ps). pose proof (Rinv_0_lt_compat _ PG').
  apply rel_mul; try lra; [apply rel_refl; lra|]. apply rel_inv; auto.
Qed.

Section Claims.
Variables (fuel : nat) (seed : ndarray double) (ilist : list (ndarray Z)) (mlist : list (ndarray double)).
Hypothesis Hrange : d_range ilist mlist.
Hypothesis Hprop : all_proper d_zero ilist mlist.
Hypothesis Hwf : wf_array seed.
Hypothesis Hcells : (prodZ (shape seed) < 2 ^ 60)%Z.
Hypothesis Hfuel : (prodZ (shape seed) < Z.of_nat fuel)%Z.
Let cs := dcons_of ilist mlist.
Let sizes := shape seed.
Let s := entry d_zero seed.

Lemma round_product_claim res : py_ipf fuel seed ilist mlist = Ok res ->
  exists n xs, (1 <= n <= 1000)%nat /\ ir_iters res = Z.of_nat n /\ length xs = length cs /\
    forall i, index_in sizes i -> stays_normal sizes cs s n i ->
      0 < factorsR cs xs i /\ within (n * length cs) (B2R (entry d_zero (ir_array res) i)) (B2R (s i) * factorsR cs xs i).
Proof.
  intros Hres. destruct (fit_claim fuel seed ilist mlist Hrange Hprop Hwf Hcells Hfuel res Hres) as (n & Hn & Hit & Ha & _).
  cbv zeta in Ha. exists n, (all_factors sizes cs s n). split; auto. split; auto. split; [apply all_factors_length|].
  intros i Hi Hs. pose proof (Hs 0%nat [] cs ltac:(lia) eq_refl) as H0. cbn in H0.
  destruct (rounds_rel sizes cs s n i (normal_pos _ H0) Hs) as (Hp & _ & Hr). split; auto.
  rewrite Ha. fold sizes cs s. rewrite entry_NDA_map by exact Hi. exact Hr.
Qed.

Lemma factors_swap (ds : list (gcon double)) : forall xs i j i' j',
  (forall c, In c ds -> (proj (g_dims c) i = proj (g_dims c) i' /\ proj (g_dims c) j = proj (g_dims c) j') \/
     (proj (g_dims c) i = proj (g_dims c) j' /\ proj (g_dims c) j = proj (g_dims c) i')) ->
  factorsR ds xs i * factorsR ds xs j = factorsR ds xs i' * factorsR ds xs j'.
Proof.
  induction ds as [|c ds IH]; intros [|x xs] i j i' j' H; cbn [factorsR]; try lra.
  specialize (IH xs i j i' j' (fun c Hc => H c (or_intror Hc))).
  set (a := factorsR ds xs i) in *. set (b := factorsR ds xs j) in *. set (a' := factorsR ds xs i') in *. set (b' := factorsR ds xs j') in *.
  assert (x (proj (g_dims c) i) * x (proj (g_dims c) j) = x (proj (g_dims c) i') * x (proj (g_dims c) j')) as E
    by (destruct (H c (or_introl eq_refl)) as [[-> ->]|[-> ->]]; ring).
  transitivity ((x (proj (g_dims c) i) * x (proj (g_dims c) j)) * (a * b)); [ring|]. rewrite E, IH. ring.
Qed.

Lemma round_odds_claim res : py_ipf fuel seed ilist mlist = Ok res -> (Z.of_nat (length cs) <= 10 ^ 9)%Z ->
  exists n, (1 <= n <= 1000)%nat /\ ir_iters res = Z.of_nat n /\ forall i j i' j',
  index_in sizes i -> index_in sizes j -> index_in sizes i' -> index_in sizes j' ->
  (forall c, In c cs -> (proj (g_dims c) i = proj (g_dims c) i' /\ proj (g_dims c) j = proj (g_dims c) j') \/
     (proj (g_dims c) i = proj (g_dims c) j' /\ proj (g_dims c) j = proj (g_dims c) i')) ->
  stays_normal sizes cs s n i -> stays_normal sizes cs s n j -> stays_normal sizes cs s n i' -> stays_normal sizes cs s n j' ->
  let r := fun x => B2R (entry d_zero (ir_array res) x) in let s := fun x => B2R (s x) in
  0 < r i' * r j' * (s i * s j) /\
  Rabs (r i * r j * (s i' * s j') / (r i' * r j' * (s i * s j)) - 1) <= INR n * INR (length cs) * p2 (-49).
Proof.
  intros Hres HK. destruct (round_product_claim res Hres) as (n & xs & Hn & Hit & Hl & H). exists n. split; auto. split; auto.
  intros i j i' j' Hi Hj Hi' Hj' Hc Si Sj Si' Sj' r t.
  assert (forall x, index_in sizes x -> stays_normal sizes cs s n x -> 0 < r x /\ 0 < t x /\ 0 < factorsR cs xs x /\
            rel (n * length cs) (r x) (t x * factorsR cs xs x)) as Hx.
  { intros x Ix Sx. destruct (H x Ix Sx) as [Hp [W1 W2]]. pose proof (Sx 0%nat [] cs ltac:(lia) eq_refl) as H0. cbn in H0.
    apply normal_pos in H0. fold (t x) (r x) in *. repeat split; auto.
    assert (0 < t x * factorsR cs xs x) as Hm by now apply Rmult_lt_0_compat. pose proof (EE_pow (n * length cs)) as E.
    unfold EE in E. apply Rnot_le_lt. intros Hle. nra. }
  destruct (Hx i Hi Si) as (Ri & Ti & Fi & Li), (Hx j Hj Sj) as (Rj & Tj & Fj & Lj).
  destruct (Hx i' Hi' Si') as (Ri' & Ti' & Fi' & Li'), (Hx j' Hj' Sj') as (Rj' & Tj' & Fj' & Lj'). clear Hx H.
  pose proof (factors_swap cs xs i j i' j' Hc) as Esw.
  set (N := (n * length cs)%nat) in *.
  assert (0 < t i * t j /\ 0 < t i' * t j' /\ 0 < r i * r j /\ 0 < r i' * r j') as (P1 & P2 & P3 & P4)
    by (repeat split; now apply Rmult_lt_0_compat).
  assert (0 < r i' * r j' * (t i * t j)) as PB by now apply Rmult_lt_0_compat.
  assert (0 < r i * r j * (t i' * t j')) as PA by now apply Rmult_lt_0_compat.
  split; [exact PB|].
  assert (rel (N + N) (r i * r j * (t i' * t j')) ((t i * factorsR cs xs i) * (t j * factorsR cs xs j) * (t i' * t j'))) as HA.
  { rewrite <- (Nat.add_0_r (N + N)). apply rel_mul; try (apply Rlt_le; repeat apply Rmult_lt_0_compat; assumption).
    - apply rel_mul; try (apply Rlt_le; repeat apply Rmult_lt_0_compat; assumption); assumption.
    - apply rel_refl. lra. }
  assert (rel (N + N) (r i' * r j' * (t i * t j)) ((t i' * factorsR cs xs i') * (t j' * factorsR cs xs j') * (t i * t j))) as HB.
  { rewrite <- (Nat.add_0_r (N + N)). apply rel_mul; try (apply Rlt_le; repeat apply Rmult_lt_0_compat; assumption).
    - apply rel_mul; try (apply Rlt_le; repeat apply Rmult_lt_0_compat; assumption); assumption.
    - apply rel_refl. lra. }
  replace ((t i' * factorsR cs xs i') * (t j' * factorsR cs xs j') * (t i * t j))
    with ((t i * factorsR cs xs i) * (t j * factorsR cs xs j) * (t i' * t j')) in HB
    by (transitivity (t i' * t j' * (t i * t j) * (factorsR cs xs i' * factorsR cs xs j')); [rewrite <- Esw|]; ring).
  assert (rel (N + N + (N + N)) (r i * r j * (t i' * t j')) (r i' * r j' * (t i * t j))) as HR
    by (eapply rel_trans; [exact HA|]; destruct HB; split; assumption).
  set (A := r i * r j * (t i' * t j')) in *. set (B := r i' * r j' * (t i * t j)) in *.
  assert (INR (N + N + (N + N)) = 4 * (INR n * INR (length cs))) as EN by (unfold N; rewrite !plus_INR, !mult_INR; ring).
  assert (p2 (-49) = 8 * p2 (-52)) as E49 by (change 8 with (p2 3); rewrite <- bpow_plus; reflexivity).
  assert (p2 (-51) = 2 * p2 (-52)) as E51 by (change 2 with (p2 1) at 1; rewrite <- bpow_plus; reflexivity).
  assert (INR (N + N + (N + N)) * p2 (-52) <= / 2) as Hsm.
  { rewrite EN. assert (INR n <= 1000) as B1 by (replace 1000 with (INR 1000) by (rewrite INR_IZR_INZ; f_equal); apply le_INR; lia).
    assert (INR (length cs) <= 1000000000) as B2 by (rewrite INR_IZR_INZ; apply IZR_le; exact HK).
    pose proof (pos_INR n). pose proof (pos_INR (length cs)).
    assert (p2 (-52) <= p2 (-51)) by (apply bpow_le; lia).
    assert (p2 (-52) * p2 52 = 1) as E by (rewrite <- bpow_plus; reflexivity).
    assert (p2 52 = 4503599627370496) as E52 by (simpl; lra). rewrite E52 in E.
    assert (INR n * INR (length cs) <= 1000 * 1000000000) by (apply Rmult_le_compat; auto). pose proof (bpow_gt_0 radix2 (-52)). nra. }
  pose proof (rel_abs _ A B (Rlt_le _ _ PB) Hsm HR) as HF. rewrite EN, E51 in HF.
  replace (A / B - 1) with ((A - B) / B) by (field; lra). unfold Rdiv. rewrite Rabs_mult, (Rabs_right (/ B)) by (left; now apply Rinv_0_lt_compat).
  apply Rmult_le_reg_r with B; auto. rewrite Rmult_assoc, Rinv_l, Rmult_1_r by lra. rewrite E49.
  eapply Rle_trans; [exact HF|]. right. ring.
Qed.

Lemma round_last_claim res pre c : py_ipf fuel seed ilist mlist = Ok res -> cs = pre ++ [c] -> (prodZ sizes <= 2 ^ 50)%Z ->
  exists n, (n < 1000)%nat /\ ir_iters res = Z.of_nat (S n) /\
  let g := fold_left (fun g c => fit1 sizes c g) pre (fitted sizes cs s n) in
  forall k, index_in (g_sizes c) k -> normal (g_at c k) -> normal (d_div (g_at c k) (marginD sizes (g_dims c) k g)) ->
  (forall i, index_in sizes i -> proj (g_dims c) i = k ->
     is_finite (g i) = true /\ B2R (g i) = 0 \/ normal (g i) /\ normal (fit1 sizes c g i)) ->
  let r := marginR sizes (g_dims c) k (fun i => B2R (entry d_zero (ir_array res) i)) in
  Rabs (r - B2R (g_at c k)) <= B2R (g_at c k) * ((IZR (prodZ sizes) + 2) * p2 (-51)).
Proof.
  intros Hres Ec Hp. destruct (fit_claim fuel seed ilist mlist Hrange Hprop Hwf Hcells Hfuel res Hres) as (n & Hn & Hit & Ha & _).
  destruct n as [|n]; [lia|]. exists n. split; [lia|]. split; auto. intros g k Hk Nm Nq Hc r. cbv zeta in Ha.
  set (cells := filter (fun i => idx_eqb (proj (g_dims c) i) k) (all_indices sizes)).
  assert (forall i, In i cells -> index_in sizes i /\ proj (g_dims c) i = k) as Hin.
  { intros i Hi. apply filter_In in Hi as [Hi Hj]. split; [now apply in_all_indices|now apply idx_eqb_true]. }
  assert (rel (length cells + 2) (marginR sizes (g_dims c) k (fun i => B2R (fit1 sizes c g i))) (B2R (g_at c k))) as HR.
  { apply fit1_margin; auto. intros i Hi. destruct (Hin i Hi). now apply Hc. }
  assert (r = marginR sizes (g_dims c) k (fun i => B2R (fit1 sizes c g i))) as ->.
  { unfold r, marginR. f_equal. apply map_ext_in. intros i Hi. fold cells in Hi. destruct (Hin i Hi) as [Hi1 _].
    rewrite Ha. fold sizes cs s. rewrite entry_NDA_map by exact Hi1. cbn [fitted].
    assert (fold_left (fun g c => fit1 sizes c g) cs (fitted sizes cs s n) = fit1 sizes c g) as ->; [|reflexivity].
    unfold g. clear -Ec. generalize (fitted sizes cs s n). rewrite Ec. intros f. now rewrite fold_left_app. }
  pose proof (normal_pos _ Nm) as Pm.
  assert (INR (length cells + 2) <= IZR (prodZ sizes) + 2) as Hlen.
  { rewrite plus_INR. apply Rplus_le_compat; [|cbn; lra]. rewrite INR_IZR_INZ. apply IZR_le.
    rewrite <- length_all_indices by (destruct Hwf as (_ & Hpos & _); eapply Forall_impl; [|exact Hpos]; cbv beta; intros; lia). pose proof (filter_length_partition (fun i => idx_eqb (proj (g_dims c) i) k) (all_indices sizes)) as Hpt. fold cells in Hpt. apply Nat2Z.inj_le. rewrite <- Hpt. apply Nat.le_add_r. }
  assert ((IZR (prodZ sizes) + 2) * p2 (-52) <= / 2) as Hsm.
  { apply IZR_le in Hp. assert (p2 (-52) * p2 52 = 1) as E by (rewrite <- bpow_plus; reflexivity).
    assert (p2 52 = 4503599627370496) as E52 by (simpl; lra). rewrite E52 in E. change (2 ^ 50)%Z with 1125899906842624%Z in Hp.
    pose proof (bpow_gt_0 radix2 (-52)). nra. }
  assert (INR (length cells + 2) * p2 (-52) <= / 2) as Hs2
    by (eapply Rle_trans; [apply Rmult_le_compat_r; [apply bpow_ge_0|exact Hlen]|exact Hsm]).
  eapply Rle_trans; [exact (rel_abs _ _ _ (Rlt_le _ _ Pm) Hs2 HR)|].
  apply Rmult_le_compat_l; [lra|]. apply Rmult_le_compat_r; [apply bpow_ge_0|exact Hlen].
Qed.
End Claims.

(** * A concrete case *)
Definition exR_s : ndarray double := NDA [2; 2]%Z (dz [1; 1; 3; 4]%Z).
Lemma exR_seed : wf_array exR_s. Proof. apply shape_by. vm_compute. reflexivity. Qed.
Definition normalb (x : double) : bool := is_finite x && d_leb (d_lit 1 (-1021)) x.
Lemma normal_by x : normalb x = true -> normal x.
Proof.
  unfold normalb. intros H. apply andb_prop in H. destruct H as [F H]. split; auto.
  apply (d_leb_true _ _ _ _ (d_lit_exact 1 (-1021) ltac:(lia) ltac:(lia) ltac:(lia)) (fin_B2R x F)) in H. rewrite Rmult_1_l in H. exact H.
Qed.
Fixpoint prefixes {A} (l : list A) : list (list A) := [] :: match l with [] => [] | a :: l' => map (cons a) (prefixes l') end.
Lemma in_prefixes {A} (l pre post : list A) : l = pre ++ post -> In pre (prefixes l).
Proof.
  revert l. induction pre as [|a pre IH]; intros l ->; [destruct (_ ++ _); now left|]. right. apply in_map. now apply IH.
Qed.
Definition staysb sizes cs f n i : bool :=
  forallb (fun m => forallb (fun pre => normalb (fold_left (fun g c => fit1 sizes c g) pre (fitted sizes cs f m) i)) (prefixes cs)) (seq 0 n).
Lemma stays_by sizes cs f n i : staysb sizes cs f n i = true -> stays_normal sizes cs f n i.
Proof.
  unfold staysb. rewrite forallb_forall. intros H m pre post Hm E. apply normal_by.
  specialize (H m ltac:(apply in_seq; lia)). rewrite forallb_forall in H. apply H. now apply in_prefixes with post.
Qed.
Lemma exR_stays i : In i (all_indices [2; 2]%Z) -> stays_normal [2; 2]%Z (dcons_of exI_i exI_m) (entry d_zero exR_s) 4 i.
Proof.
  intros Hi. apply stays_by. revert i Hi. apply forallb_forall. vm_compute. reflexivity.
Qed.
Lemma exR_last i : In i (all_indices [2; 2]%Z) ->
  let sizes := [2; 2]%Z in let cs := dcons_of exI_i exI_m in
  let g := fold_left (fun g c => fit1 sizes c g) (firstn 1 cs) (fitted sizes cs (entry d_zero exR_s) 3) in
  forall c, In c (skipn 1 cs) -> let k := proj (g_dims c) i in
    normal (g i) /\ normal (fit1 sizes c g i) /\ normal (g_at c k) /\ normal (d_div (g_at c k) (marginD sizes (g_dims c) k g)).
Proof.
  intros Hi sizes cs g c Hc k.
  assert (forallb (fun i => forallb (fun c => let k := proj (g_dims c) i in normalb (g i) && normalb (fit1 sizes c g i) && normalb (g_at c k) &&
    normalb (d_div (g_at c k) (marginD sizes (g_dims c) k g))) (skipn 1 cs)) (all_indices sizes) = true) as H by (vm_compute; reflexivity).
  rewrite forallb_forall in H. specialize (H i Hi). rewrite forallb_forall in H. specialize (H c Hc). cbv zeta in H. fold k in H.
  apply andb_prop in H as [H H4]. apply andb_prop in H as [H H3]. apply andb_prop in H as [H1 H2].
  repeat split; apply normal_by; assumption.
Qed.
