(** Multiples of the seed: the first scaling removes the factor. *)
From Coq Require Import Reals Psatz QArith Qcanon.
From Flocq Require Import Core.Core IEEE754.BinarySingleNaN.
From Verif Require Import Base Spec SpecFacts NDArray IndexProofs Float64 FloatProofs FloatExt ArrayOps ArrayProofs Bind BindProofs Micro Qis
  SynthSpec MicroProofs QisProofs QisClaims Ipf IpfSpec IpfProofs MicroDbl IpfClaims SeedSpec.
Open Scope Z_scope.

(** * A table only matters up to the first scaling *)

Section Same.
Context {M T : Type} (SO : ScaleOps M T) (EO : ErrOps T) (add : T -> T -> T) (sizes : list Z).

Definition alike (f g : list Z -> T) : Prop := forall i, index_in sizes i -> f i = g i.

Lemma gmargin_alike dims f g k : alike f g -> gmargin sizes dims SO add f k = gmargin sizes dims SO add g k.
Proof.
  intros H. unfold gmargin. f_equal. apply map_ext_in. intros i Hi. apply filter_In in Hi as [Hi _]. apply H. now apply in_all_indices.
Qed.
Lemma step_alike (c : gcon M) f g : alike f g -> alike (step SO add sizes c f) (step SO add sizes c g).
Proof. intros H i Hi. unfold step, scaled. rewrite (gmargin_alike _ f g) by exact H. now rewrite (H i Hi). Qed.
Lemma fold_alike l : forall f g, alike f g -> alike (fold_left (fun f c => step SO add sizes c f) l f) (fold_left (fun f c => step SO add sizes c f) l g).
Proof. induction l as [|c l IH]; intros f g H; cbn [fold_left]; auto. apply IH. now apply step_alike. Qed.
Lemma sweep_alike cs f g : alike f g -> alike (sweep SO add sizes cs f) (sweep SO add sizes cs g).
Proof. apply fold_alike. Qed.
Lemma max_alike (cs : list (gcon M)) f g : alike f g -> max_error SO EO add sizes cs f = max_error SO EO add sizes cs g.
Proof.
  intros H. unfold max_error. generalize (e_lowest EO). induction cs as [|c cs IH]; intros m; cbn [fold_left]; auto.
  replace (errors_of SO EO add sizes g c) with (errors_of SO EO add sizes f c); [apply IH|].
  unfold errors_of. apply map_ext. intros k. unfold cell_error. now rewrite (gmargin_alike _ f g).
Qed.
Lemma conv_alike cs f g : alike f g -> converged SO EO add sizes cs f = converged SO EO add sizes cs g.
Proof. intros H. unfold converged. now rewrite (max_alike cs f g). Qed.
Lemma sweeps_alike cs left : forall f g n, alike f g ->
  alike (fst (sweeps SO EO add sizes cs left f n)) (fst (sweeps SO EO add sizes cs left g n)) /\
  snd (sweeps SO EO add sizes cs left f n) = snd (sweeps SO EO add sizes cs left g n).
Proof.
  induction left as [|left IH]; intros f g n H; cbn [sweeps]; [now split|].
  pose proof (sweep_alike cs f g H) as H1. rewrite (conv_alike cs _ _ H1). destruct (converged _ _ _ _ _ _); [now split|]. now apply IH.
Qed.
Lemma sweeps_first c cs left f g n : alike (step SO add sizes c f) (step SO add sizes c g) ->
  alike (fst (sweeps SO EO add sizes (c :: cs) (S left) f n)) (fst (sweeps SO EO add sizes (c :: cs) (S left) g n)) /\
  snd (sweeps SO EO add sizes (c :: cs) (S left) f n) = snd (sweeps SO EO add sizes (c :: cs) (S left) g n).
Proof.
  intros H. cbn [sweeps]. assert (alike (sweep SO add sizes (c :: cs) f) (sweep SO add sizes (c :: cs) g)) as H1.
  { unfold sweep. cbn [fold_left]. now apply fold_alike. }
  rewrite (conv_alike _ _ _ H1). destruct (converged _ _ _ _ _ _); [now split|]. now apply sweeps_alike.
Qed.
End Same.

Section Call.
Context {M T : Type} (MO : MargOps M) (SO : ScaleOps M T) (EO : ErrOps T) (madd : M -> M -> M) (add : T -> T -> T) (dm : M) (dt : T).
Hypothesis Hmadd : forall x y, n_add (mg_num MO) x y = Ok (madd x y).
Hypothesis Hpop : forall x, (exists p, mg_pop MO x = Ok p) \/ (exists w, mg_pop MO x = UB w).
Hypothesis Hadd : forall x y, n_add (sc_num SO) x y = Ok (add x y).

Lemma seed_same fuel seed seed' ilist mlist : g_range dm ilist mlist -> all_proper dm ilist mlist -> wf_array seed -> wf_array seed' ->
  shape seed' = shape seed -> prodZ (shape seed) < 2 ^ 60 -> prodZ (shape seed) < Z.of_nat fuel ->
  (forall c cs pop, gcons_of dm ilist mlist = c :: cs -> accepted MO madd dm ilist mlist seed pop -> well_indexed (shape seed) c ->
     alike (shape seed) (step SO add (shape seed) c (entry dt seed')) (step SO add (shape seed) c (entry dt seed))) ->
  py_ipf_gen MO SO EO fuel seed' ilist mlist = py_ipf_gen MO SO EO fuel seed ilist mlist.
Proof.
  intros Hr Hpr Hw Hw' Esh Hs Hfu Hfirst. unfold py_ipf_gen.
  destruct (py_lists_gen dm ilist mlist Hr) as [[Hv ->]|[_ (e & ->)]]; cbn [bind]; [|reflexivity].
  set (cs := gcons_of dm ilist mlist) in *. pose proof (micro_new_tri MO madd Hmadd Hpop (T := T) cs (range_gsmall _ _ _ Hr) (proj2 Hr)) as H.
  destruct (micro_new MO (map g_dims cs) (map gnd cs)) as [ms|e|w|]; cbn [bind]; try reflexivity.
  destruct H as (sizes & pop & Hi & Hf & Hl & Hl2 & Hn & Hp & ->).
  rewrite (as_nd_ok dt seed), (as_nd_ok dt seed') by (rewrite ?Esh; auto). cbn [bind ms_pop]. rewrite Esh.
  destruct (check_seed_cases (shape seed) sizes) as [[<- Es]|[_ (e & Es)]].
  2:{ unfold ipf_solve. cbn [ms_array]. rewrite !sizes_mk, sizes_mkp, Es. reflexivity. }
  assert (forall c, In c cs -> well_indexed (shape seed) c) as Hwi.
  { intros c Hc. apply (well_indexed_of cs); auto. now apply (range_gsmall _ _ _ Hr). }
  rewrite !(ipf_solve_ok SO EO add) by auto.
  assert (accepted MO madd dm ilist mlist seed pop) as Ha by (repeat (split; [now auto|]); auto).
  change (Z.to_nat 1000) with (S 999). destruct cs as [|c cs'] eqn:Ec; [simpl in *; lia|].
  pose proof (sweeps_first SO EO add (shape seed) c cs' 999 (entry dt seed') (entry dt seed) 0
    (Hfirst c cs' pop eq_refl Ha (Hwi c (or_introl eq_refl)))) as [A B].
  destruct (sweeps SO EO add (shape seed) (c :: cs') (S 999) (entry dt seed') 0) as [f' n'].
  destruct (sweeps SO EO add (shape seed) (c :: cs') (S 999) (entry dt seed) 0) as [f n]. cbn [fst snd] in A, B. subst n'.
  cbn [bind is_arr is_conv is_iters is_max]. rewrite (mk_ext (shape seed) f' f) by exact A.
  now rewrite (conv_alike SO EO add _ _ f' f A), (max_alike SO EO add _ _ f' f A).
Qed.
End Call.

(** * Doubles: powers of two *)
Open Scope R_scope.

Lemma RN_scale k x : x = 0 \/ p2 (-1022) <= Rabs x /\ p2 (-1022) <= Rabs (x * p2 k) -> RN (x * p2 k) = RN x * p2 k.
Proof.
  intros [->|[H1 H2]]; [now rewrite !Rmult_0_l, RN_0, Rmult_0_l|]. unfold RN. rewrite fx_FLT.
  rewrite !(round_FLT_FLX radix2 (-1074) 53) by assumption.
  assert (x <> 0) as Hx by (intros ->; rewrite Rabs_R0 in H1; pose proof (bpow_gt_0 radix2 (-1022)); lra).
  assert (cexp radix2 (FLX_exp 53) (x * p2 k) = (cexp radix2 (FLX_exp 53) x + k)%Z) as E.
  { unfold cexp, FLX_exp. rewrite mag_mult_bpow by exact Hx. lia. }
  unfold round, scaled_mantissa. rewrite E.
  replace (x * p2 k * p2 (- (cexp radix2 (FLX_exp 53) x + k))) with (x * p2 (- cexp radix2 (FLX_exp 53) x)).
  - unfold F2R. cbn [Fnum Fexp]. rewrite bpow_plus. ring.
  - rewrite Z.opp_add_distr, bpow_plus. rewrite (bpow_opp _ k). field. apply Rgt_not_eq, bpow_gt_0.
Qed.

(** zero, or between 2^lo and 2^hi *)
Definition span (lo hi : Z) (r : R) : Prop := r = 0 \/ p2 lo <= r <= p2 hi.
Lemma span_nonneg lo hi r : span lo hi r -> 0 <= r.
Proof. pose proof (bpow_gt_0 radix2 lo). intros [->|[H1 _]]; lra. Qed.
Lemma span_scale lo hi k r : span lo hi r -> span (lo + k) (hi + k) (r * p2 k).
Proof.
  pose proof (bpow_gt_0 radix2 k). intros [->|[H1 H2]]; [left; ring|right]. rewrite !bpow_plus. split; apply Rmult_le_compat_r; lra.
Qed.
Lemma span_round lo hi k r : (-1022 <= lo)%Z -> (-1022 <= lo + k)%Z -> span lo hi r -> RN (r * p2 k) = RN r * p2 k.
Proof.
  intros L1 L2 H. apply RN_scale. pose proof (span_nonneg _ _ _ H) as P. pose proof (span_scale _ _ k _ H) as H'. pose proof (span_nonneg _ _ _ H') as P'.
  destruct H as [->|[H _]]; [now left|right]. destruct H' as [H'|[H' _]].
  - pose proof (bpow_gt_0 radix2 k). pose proof (bpow_gt_0 radix2 lo). assert (0 < r * p2 k) by (apply Rmult_lt_0_compat; lra). lra.
  - rewrite !Rabs_pos_eq by assumption. split; [apply Rle_trans with (2 := H)|apply Rle_trans with (2 := H')]; now apply bpow_le.
Qed.
Lemma span_RN lo hi r : (-1074 <= lo)%Z -> (lo <= hi)%Z -> span lo hi r -> span lo hi (RN r).
Proof.
  intros L1 L2 [->|[H1 H2]]; [left; apply RN_0|right]. split; [apply RN_ge_repr|apply RN_le_repr]; auto; apply repr_p2; lia.
Qed.
Lemma span_lt lo hi r : (hi < 1024)%Z -> span lo hi r -> Rabs r < p2 1024.
Proof.
  intros L H. rewrite Rabs_pos_eq by now apply (span_nonneg lo hi). destruct H as [->|[_ H]]; [apply bpow_gt_0|].
  apply Rle_lt_trans with (1 := H). now apply bpow_lt.
Qed.

(** sums stop growing at 2^254 when the terms are at most 2^200 *)
Lemma top_sum : RN (p2 254 + p2 200) = p2 254.
Proof.
  assert (fin (d_lit 1 254) (p2 254)) as F1 by (replace (p2 254) with (IZR 1 * p2 254) by ring; apply d_lit_exact; lia).
  assert (fin (d_lit 1 200) (p2 200)) as F2 by (replace (p2 200) with (IZR 1 * p2 200) by ring; apply d_lit_exact; lia).
  assert (d_add (d_lit 1 254) (d_lit 1 200) = d_lit 1 254) as E by (apply B2SF_inj; vm_compute; reflexivity).
  assert (fin (d_add (d_lit 1 254) (d_lit 1 200)) (RN (p2 254 + p2 200))) as F3.
  { apply d_add_round; auto. rewrite Rabs_pos_eq by (apply RN_nonneg; pose proof (bpow_gt_0 radix2 254); pose proof (bpow_gt_0 radix2 200); lra).
    apply Rle_lt_trans with (p2 255); [|apply bpow_lt; lia]. apply RN_le_repr; [apply repr_p2; lia|].
    change (p2 255) with (p2 (254 + 1)). rewrite bpow_plus. change (p2 1) with 2. assert (p2 200 <= p2 254) by (apply bpow_le; lia). lra. }
  rewrite E in F3. exact (fin_unique _ _ _ F3 F1).
Qed.
Lemma add_span a b : span (-200) 254 a -> span (-200) 200 b -> span (-200) 254 (RN (a + b)).
Proof.
  intros [->|[A1 A2]] [->|[B1 B2]].
  - left. rewrite Rplus_0_r. apply RN_0.
  - rewrite Rplus_0_l. apply span_RN; [lia|lia|]. right. split; auto. apply Rle_trans with (1 := B2). apply bpow_le. lia.
  - rewrite Rplus_0_r. apply span_RN; [lia|lia|]. right. now split.
  - right. pose proof (bpow_gt_0 radix2 (-200)). split.
    + apply RN_ge_repr; [apply repr_p2; lia|]. lra.
    + rewrite <- top_sum. apply RN_le. lra.
Qed.
Lemma sum_span a b : span (-200) 254 a -> span (-200) 200 b -> span (-200) 255 (a + b).
Proof.
  pose proof (bpow_gt_0 radix2 (-200)). assert (p2 254 + p2 200 <= p2 255) as T.
  { change (p2 255) with (p2 (254 + 1)). rewrite bpow_plus. change (p2 1) with 2. assert (p2 200 <= p2 254) by (apply bpow_le; lia). lra. }
  pose proof (bpow_gt_0 radix2 254). pose proof (bpow_gt_0 radix2 200).
  intros [->|[A1 A2]] [->|[B1 B2]]; [left; ring| | |]; right; split; lra.
Qed.

Section Pow.
Context (k : Z) (Hk : (-200 <= k <= 200)%Z).

(** [x'] is [x] times 2^k, both positive zero or positive *)
Definition twin (lo hi : Z) (x' x : double) : Prop := exists r, fin x r /\ fin x' (r * p2 k) /\ span lo hi r.

Lemma add_twin a' a x' x : twin (-200) 254 a' a -> twin (-200) 200 x' x -> twin (-200) 254 (d_add a' x') (d_add a x).
Proof.
  intros (r & Fa & Fa' & Ha) (s & Fx & Fx' & Hx). pose proof (add_span r s Ha Hx) as H. pose proof (sum_span r s Ha Hx) as H1. exists (RN (r + s)). split; [|split; auto].
  - apply d_add_round; auto. eapply span_lt; [|exact H]. lia.
  - rewrite <- (span_round (-200) 255 k (r + s)) by (auto; lia). replace ((r + s) * p2 k) with (r * p2 k + s * p2 k) by ring.
    apply d_add_round; auto. replace (r * p2 k + s * p2 k) with ((r + s) * p2 k) by ring. rewrite (span_round (-200) 255 k (r + s)) by (auto; lia).
    eapply span_lt; [|apply span_scale; exact H]. lia.
Qed.
Lemma fold_twin {A} (f' f : A -> double) l : (forall i, In i l -> twin (-200) 200 (f' i) (f i)) -> forall a' a, twin (-200) 254 a' a ->
  twin (-200) 254 (fold_left d_add (map f' l) a') (fold_left d_add (map f l) a).
Proof.
  induction l as [|i l IH]; intros H a' a Ha; cbn [map fold_left]; auto. apply IH; [intros; apply H; now right|]. apply add_twin; auto. apply H. now left.
Qed.
Lemma twin_zero : twin (-200) 254 d_zero d_zero.
Proof. exists 0. split; [apply fin_zero|]. split; [rewrite Rmult_0_l; apply fin_zero|now left]. Qed.

Lemma fin_pos x r : fin x r -> 0 < r -> exists m e H, x = B754_finite false m e H.
Proof.
  intros [F E] P. destruct x as [s|s| |[] m e H]; try discriminate; [simpl in E; lra| |now exists m, e, H].
  exfalso. simpl in E. assert (F2R (Float radix2 (Zneg m) e) < 0) by now apply F2R_lt_0. simpl in *. lra.
Qed.
Lemma fin_eqb x r : fin x r -> d_eqb x d_zero = true <-> r = 0.
Proof.
  intros F. destruct F as [F <-]. unfold d_eqb. rewrite Beqb_correct by auto. cbn [B2R d_zero]. destruct (Req_bool_spec (B2R x) 0); split; auto; discriminate.
Qed.
Lemma mul_div_twin f' f m s' s : twin (-200) 200 f' f -> (f = d_zero -> f' = d_zero) -> moderate m -> twin (-200) 254 s' s -> d_eqb s d_zero = false ->
  (f = d_zero \/ 0 < B2R f) ->
  d_mul f' (d_div m s') = d_mul f (d_div m s).
Proof.
  intros (r & Ff & Ff' & Hr) Zf Hm (t & Fs & Fs' & Ht) Es Sf.
  assert (t <> 0) as Ht0. { intros E. apply (fin_eqb _ _ Fs) in E. congruence. }
  destruct Ht as [|Ht]; [contradiction|]. pose proof (bpow_gt_0 radix2 k) as Pk.
  assert (0 < t) as Pt by (pose proof (bpow_gt_0 radix2 (-200)); lra).
  assert (0 < t * p2 k) as Pt' by now apply Rmult_lt_0_compat.
  destruct (fin_pos _ _ Fs Pt) as (ms & es & Hms & Es1). destruct (fin_pos _ _ Fs' Pt') as (ms' & es' & Hms' & Es2).
  destruct Hm as [->|[Fm Hm]].
  - (* marginal entry zero *)
    replace (d_div d_zero s') with d_zero by (rewrite Es2; reflexivity). replace (d_div d_zero s) with d_zero by (rewrite Es1; reflexivity).
    destruct Sf as [E|P]; [rewrite E, (Zf E); reflexivity|]. rewrite (proj2 Ff) in P.
    destruct (fin_pos _ _ Ff P) as (? & ? & ? & ->). destruct (fin_pos _ _ Ff' (Rmult_lt_0_compat _ _ P Pk)) as (? & ? & ? & ->). reflexivity.
  - set (v := B2R m) in *. assert (fin m v) as Fv by (split; auto).
    assert (span (-454) 400 (v / t)) as Hq.
    { right. unfold Rdiv. split.
      - replace (p2 (-454)) with (p2 (-200) * / p2 254) by (rewrite <- bpow_opp, <- bpow_plus; reflexivity).
        apply Rmult_le_compat; [apply bpow_ge_0|apply Rlt_le, Rinv_0_lt_compat, bpow_gt_0|apply Hm|]. apply Rinv_le; [exact Pt|apply Ht].
      - replace (p2 400) with (p2 200 * / p2 (-200)) by (rewrite <- bpow_opp, <- bpow_plus; reflexivity).
        apply Rmult_le_compat; [|apply Rlt_le, Rinv_0_lt_compat; exact Pt|apply Hm|].
        { pose proof (bpow_gt_0 radix2 (-200)). lra. }
        apply Rinv_le; [apply bpow_gt_0|apply Ht]. }
    assert (v / (t * p2 k) = v / t * p2 (- k)) as Eq.
    { rewrite bpow_opp. field. split; lra. }
    set (q := v / t) in *.
    assert (fin (d_div m s) (RN q)) as Fq.
    { apply d_div_round; auto. fold q. eapply span_lt; [|apply span_RN; [| |exact Hq]]; lia. }
    assert (RN (q * p2 (- k)) = RN q * p2 (- k)) as Er by (apply (span_round (-454) 400); auto; lia).
    assert (span (-454) 400 (RN q)) as HRq by (apply span_RN; auto; lia).
    assert (fin (d_div m s') (RN q * p2 (- k))) as Fq'.
    { rewrite <- Er, <- Eq. apply d_div_round; auto; [lra|]. rewrite Eq, Er. eapply span_lt; [|apply span_scale; exact HRq]. lia. }
    assert (0 < RN q) as Pq.
    { destruct HRq as [E|[E _]]; [|pose proof (bpow_gt_0 radix2 (-454)); lra]. exfalso. destruct Hq as [Z|[Z _]].
      - unfold q, Rdiv in Z. apply Rmult_integral in Z as [Z|Z]; [pose proof (bpow_gt_0 radix2 (-200)); lra|]. pose proof (Rinv_0_lt_compat _ Pt). lra.
      - assert (p2 (-454) <= RN q) as Z' by (apply RN_ge_repr; [apply repr_p2; lia|exact Z]). pose proof (bpow_gt_0 radix2 (-454)). lra. }
    assert (0 < RN q * p2 (- k)) as Pq' by (apply Rmult_lt_0_compat; [exact Pq|apply bpow_gt_0]).
    destruct Sf as [E|P].
    { rewrite E, (Zf E). destruct (fin_pos _ _ Fq Pq) as (? & ? & ? & ->). destruct (fin_pos _ _ Fq' Pq') as (? & ? & ? & ->). reflexivity. }
    rewrite (proj2 Ff) in P. destruct Hr as [Hr|Hr]; [lra|]. destruct HRq as [HRq|HRq]; [lra|].
    assert (r * p2 k * (RN q * p2 (- k)) = r * RN q) as Em.
    { replace (r * p2 k * (RN q * p2 (- k))) with (r * RN q * (p2 k * p2 (- k))) by ring. rewrite <- bpow_plus, Z.add_opp_diag_r. simpl. ring. }
    assert (span (-654) 600 (r * RN q)) as Hp.
    { right. split.
      - change (-654)%Z with (-200 + -454)%Z. rewrite bpow_plus. apply Rmult_le_compat; try apply bpow_ge_0; [apply Hr|apply HRq].
      - change 600%Z with (200 + 400)%Z. rewrite bpow_plus. apply Rmult_le_compat; [lra|lra|apply Hr|apply HRq]. }
    assert (span (-654) 600 (RN (r * RN q))) as Hp' by (apply span_RN; auto; lia).
    assert (fin (d_mul f (d_div m s)) (RN (r * RN q))) as F1 by (apply d_mul_round; auto; eapply span_lt; [|exact Hp']; lia).
    assert (fin (d_mul f' (d_div m s')) (RN (r * RN q))) as F2.
    { rewrite <- Em. apply d_mul_round; auto. rewrite Em. eapply span_lt; [|exact Hp']; lia. }
    assert (0 < RN (r * RN q)) as P3.
    { assert (p2 (-654) <= RN (r * RN q)) as Z'.
      { apply RN_ge_repr; [apply repr_p2; lia|]. destruct Hp as [Z|[Z _]]; auto. pose proof (Rmult_lt_0_compat _ _ P Pq). lra. }
      pose proof (bpow_gt_0 radix2 (-654)). lra. }
    destruct (fin_pos _ _ F1 P3) as (m1 & e1 & H1 & E1). destruct (fin_pos _ _ F2 P3) as (m2 & e2 & H2 & E2).
    apply B2R_inj; [rewrite E2; reflexivity|rewrite E1; reflexivity|]. now rewrite (proj2 F1), (proj2 F2).
Qed.

Lemma fin_2k : fin (d_lit 1 k) (p2 k).
Proof. replace (p2 k) with (IZR 1 * p2 k) by ring. apply d_lit_exact; lia. Qed.
Lemma times_zero : d_mul d_zero (d_lit 1 k) = d_zero.
Proof. destruct (fin_pos _ _ fin_2k (bpow_gt_0 _ _)) as (? & ? & ? & ->). reflexivity. Qed.
Lemma moderate_twin x : moderate x -> twin (-200) 200 (d_mul x (d_lit 1 k)) x.
Proof.
  intros [->|[F H]].
  - rewrite times_zero. exists 0. split; [apply fin_zero|]. split; [rewrite Rmult_0_l; apply fin_zero|now left].
  - exists (B2R x). split; [now split|]. assert (span (-200) 200 (B2R x)) as Hs by now right. split; auto.
    assert (RN (B2R x * p2 k) = B2R x * p2 k) as E.
    { rewrite (span_round (-200) 200 k) by (auto; lia). rewrite RN_id; auto. apply (fin_repr x). now split. }
    rewrite <- E. apply d_mul_round; [now split|apply fin_2k|]. rewrite E. eapply span_lt; [|apply span_scale; exact Hs]. lia.
Qed.
Lemma moderate_sign x : moderate x -> x = d_zero \/ 0 < B2R x.
Proof. intros [->|[F [H _]]]; [now left|right]. pose proof (bpow_gt_0 radix2 (-200)). lra. Qed.

Context {M : Type} (cv : M -> double) (sizes : list Z) (f : list Z -> double) (Hf : forall i, index_in sizes i -> moderate (f i)).
Let f' (i : list Z) : double := d_mul (f i) (d_lit 1 k).

Lemma step_times (c : gcon M) : (forall i, index_in sizes i -> moderate (cv (g_at c (proj (g_dims c) i)))) ->
  alike sizes (step (DblScale cv) d_add sizes c f') (step (DblScale cv) d_add sizes c f).
Proof.
  intros Hm i Hi. unfold step, scaled. cbn [sc_num sc_scale DblScale n_eqb n_zero DblOps].
  set (s' := gmargin sizes (g_dims c) (DblScale cv) d_add f' (proj (g_dims c) i)). set (s := gmargin sizes (g_dims c) (DblScale cv) d_add f (proj (g_dims c) i)).
  assert (twin (-200) 254 s' s) as Hs.
  { apply fold_twin; [|apply twin_zero]. intros j Hj. apply filter_In in Hj as [Hj _]. apply moderate_twin, Hf. now apply in_all_indices. }
  assert (d_eqb s' d_zero = d_eqb s d_zero) as E.
  { destruct Hs as (r & F & F' & _). apply Bool.eq_iff_eq_true. rewrite (fin_eqb _ _ F), (fin_eqb _ _ F'). pose proof (bpow_gt_0 radix2 k). split; [|intros ->; ring].
    intros Z. apply Rmult_integral in Z as [Z|Z]; [exact Z|lra]. }
  rewrite E. destruct (d_eqb s d_zero) eqn:Ez; [reflexivity|]. apply mul_div_twin; auto.
  - now apply moderate_twin, Hf.
  - intros Z. unfold f'. rewrite Z. apply times_zero.
  - now apply moderate_sign, Hf.
Qed.
End Pow.
