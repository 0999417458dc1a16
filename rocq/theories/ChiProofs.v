(** The reported chi-squared statistic is accurate (C85). *)
From Coq Require Import Reals Psatz.
From Flocq Require Import Core.Core IEEE754.BinarySingleNaN.
From Verif Require Import Base Spec SpecFacts NDArray Float64 FloatProofs Bind Micro Stat StatSpec Qis SynthSpec QisExpect SplitProofs QisProofs QisClaims RealSpec
  ExpectRound StatProofs StatClaims StatFlat IpfSpec IpfFitSpec IpfRoundSpec IpfRound QuantSpec SynthiSpec Ipf Qisi QisiClaims FloatExt BindProofs QisiZeros
  Synthi IndepProofs ChiSpec.
Open Scope R_scope.

Lemma p2_pos e : 0 < p2 e. Proof. apply bpow_gt_0. Qed.

(** a double of at least one half is a multiple of 2^-53 *)
Lemma half_multiple v : repr v -> / 2 <= v -> exists m : Z, v = IZR m * p2 (-53).
Proof.
  intros Hr Hv. unfold repr, generic_format in Hr. set (m := Ztrunc (scaled_mantissa radix2 fx v)) in *. set (c := cexp radix2 fx v) in *.
  assert (-53 <= c)%Z as Hc.
  { unfold c, cexp. rewrite fx_FLT. unfold FLT_exp. assert (0 <= mag radix2 v)%Z; [|lia].
    apply mag_ge_bpow. rewrite Rabs_pos_eq by lra. change (p2 (0 - 1)) with (p2 (-1)). simpl. lra. }
  exists (m * 2 ^ (c + 53))%Z. rewrite Hr at 1. unfold F2R. cbn [Fnum Fexp]. rewrite mult_IZR, IZR_p2, Rmult_assoc, <- bpow_plus by lia.
  do 2 f_equal. lia.
Qed.

(** a count and an expected value coincide or are not very close *)
Lemma apart n v : (0 <= n <= 2 ^ 53)%Z -> repr v -> p2 (-400) <= v -> IZR n - v = 0 \/ p2 (-400) <= Rabs (IZR n - v) /\
  (/ 2 <= v -> p2 (-53) <= Rabs (IZR n - v)) /\ (v < / 2 -> v <= Rabs (IZR n - v)).
Proof.
  intros Hn Hr Hv. assert (p2 (-400) <= p2 (-53)) as L by (apply bpow_le; lia). pose proof (p2_pos (-400)) as P0.
  destruct (Rlt_dec v (/ 2)) as [H|H].
  - right. destruct (Z.eq_dec n 0) as [->|Hz].
    + rewrite Rminus_0_l, Rabs_Ropp, Rabs_pos_eq by lra. repeat split; lra.
    + assert (1 <= IZR n) by (apply IZR_le; lia). rewrite Rabs_pos_eq by lra. 
      assert (p2 (-400) <= / 2) by (replace (/ 2) with (p2 (-1)) by (simpl; lra); apply bpow_le; lia). repeat split; lra.
  - assert (/ 2 <= v) as Hh by lra. destruct (half_multiple v Hr Hh) as (m & Em).
    assert (IZR n - v = IZR (n * 2 ^ 53 - m) * p2 (-53)) as E.
    { rewrite minus_IZR, mult_IZR, IZR_p2 by lia. rewrite Rmult_minus_distr_r, Rmult_assoc, <- bpow_plus. change (p2 (53 + -53)) with 1. lra. }
    destruct (Z.eq_dec (n * 2 ^ 53 - m) 0) as [Z0|Z0]; [left; rewrite E, Z0; lra|right].
    assert (p2 (-53) <= Rabs (IZR n - v)) as G.
    { rewrite E, Rabs_mult, (Rabs_pos_eq (p2 (-53))) by (left; apply p2_pos). rewrite <- abs_IZR.
      assert (1 <= IZR (Z.abs (n * 2 ^ 53 - m))) by (apply IZR_le; lia). pose proof (p2_pos (-53)). nra. }
    repeat split; lra.
Qed.

Definition termD (n : Z) (e : double) : double := d_div (d_mul (d_sub (d_ofZ n) e) (d_sub (d_ofZ n) e)) e.
Definition termR (n : Z) (e : double) : R := (IZR n - B2R e) ^ 2 / B2R e.

Lemma RN_sq x : RN x * RN x = RN (Rabs x) * RN (Rabs x).
Proof. unfold Rabs. destruct Rcase_abs; [rewrite RN_opp; ring|ring]. Qed.

Lemma term_ok n e : (0 <= n <= 2 ^ 53)%Z -> moderate e ->
  exists x, fin (termD n e) x /\ 0 <= x <= p2 900 /\ rel 4 x (termR n e) /\ 0 <= termR n e.
Proof.
  intros Hn (Fe & He1 & He2). assert (fin e (B2R e)) as Fe' by now split. set (v := B2R e) in *.
  assert (repr v) as Hr by now apply (fin_repr e). pose proof (p2_pos (-400)) as P0.
  assert (fin (d_ofZ n) (IZR n)) as Fn by (apply d_ofZ_exact; lia).
  assert (0 <= IZR n <= p2 53) as Nb by (rewrite <- IZR_p2 by lia; split; apply IZR_le; lia).
  assert (p2 53 <= p2 400) as L1 by (apply bpow_le; lia).
  set (d := IZR n - v). set (q := RN d).
  assert (Rabs d <= p2 400) as Hd by (unfold d; apply Rabs_le; lra).
  assert (Rabs q <= p2 400) as Hq by (unfold q; rewrite RN_abs; apply RN_le_repr; [apply repr_p2; lia|exact Hd]).
  assert (fin (d_sub (d_ofZ n) e) q) as Fs.
  { apply d_sub_round; auto. fold d q. apply Rle_lt_trans with (1 := Hq). apply bpow_lt. lia. }
  assert (0 <= q * q <= p2 800) as Hqq.
  { split; [nra|]. replace 800%Z with (400 + 400)%Z by lia. rewrite bpow_plus. rewrite <- (Rabs_pos_eq (q * q)) by nra. rewrite Rabs_mult.
    apply Rmult_le_compat; auto using Rabs_pos. }
  assert (fin (d_mul (d_sub (d_ofZ n) e) (d_sub (d_ofZ n) e)) (RN (q * q))) as Fm.
  { apply d_mul_round; auto. rewrite Rabs_pos_eq by (apply RN_nonneg; lra). apply Rle_lt_trans with (p2 800); [|apply bpow_lt; lia].
    apply RN_le_repr; [apply repr_p2; lia|lra]. }
  assert (RN (q * q) <= p2 800) as Hm by (apply RN_le_repr; [apply repr_p2; lia|lra]).
  assert (0 <= RN (q * q)) as Hm0 by (apply RN_nonneg; lra).
  (* the exact quotient *)
  assert (0 <= termR n e) as T0.
  { unfold termR. fold v d. apply Rmult_le_pos; [apply pow2_ge_0|left; apply Rinv_0_lt_compat; lra]. }
  (* bound on the computed quotient *)
  assert (RN (q * q) / v <= p2 900 /\ (RN (q * q) = 0 \/ p2 (-1000) <= RN (q * q) / v) /\ rel 3 (RN (q * q)) (d ^ 2)) as (B1 & B2 & B3).
  { destruct (apart n v Hn Hr He1) as [Z0|(A1 & A2 & A3)].
    - fold d in Z0. assert (q = 0) as Eq by (unfold q; rewrite Z0; apply RN_0). rewrite Eq, Rmult_0_l, RN_0, Z0.
      split; [unfold Rdiv; rewrite Rmult_0_l; left; apply p2_pos|]. split; [now left|]. replace (0 ^ 2) with 0 by ring. apply rel_refl. lra.
    - fold d in A1, A2, A3. assert (rel 1 (Rabs q) (Rabs d)) as R1.
      { unfold q. rewrite RN_abs. apply rel_RN. right. apply Rle_trans with (2 := A1). apply bpow_le; lia. }
      assert (q * q = Rabs q * Rabs q) as Eq by (rewrite <- Rabs_mult, Rabs_pos_eq; [reflexivity|nra]).
      assert (d ^ 2 = Rabs d * Rabs d) as Ed by (rewrite <- Rabs_mult, Rabs_pos_eq; [ring|nra]).
      assert (rel 2 (q * q) (d ^ 2)) as R2 by (rewrite Eq, Ed; apply (rel_mul 1 1); auto using Rabs_pos).
      assert (forall w, repr w -> w <= Rabs d -> w <= Rabs q) as M.
      { intros w Hw Hle. unfold q. rewrite RN_abs. now apply RN_ge_repr. }
      assert (p2 (-400) <= Rabs q) as Q1 by (apply M; [apply repr_p2; lia|exact A1]).
      assert (p2 (-800) <= q * q) as Q2.
      { replace (-800)%Z with (-400 + -400)%Z by lia. rewrite bpow_plus, Eq. apply Rmult_le_compat; lra. }
      assert (rel 3 (RN (q * q)) (d ^ 2)) as R3.
      { apply (rel_trans 1 2 _ (q * q)); auto. apply rel_RN. right. apply Rle_trans with (2 := Q2). apply bpow_le; lia. }
      split; [|split; [|exact R3]].
      + destruct (Rlt_dec v (/ 2)) as [H|H].
        * assert (Rabs q <= p2 54) as Q3.
          { unfold q. rewrite RN_abs. apply RN_le_repr; [apply repr_p2; lia|]. unfold d. replace (p2 54) with (2 * p2 53) by (rewrite Rmult_comm, p2_dbl; reflexivity).
            assert (1 <= p2 53) by (apply (bpow_le radix2 0); lia). apply Rabs_le. lra. }
          assert (RN (q * q) <= p2 108) as Q4.
          { apply RN_le_repr; [apply repr_p2; lia|]. replace 108%Z with (54 + 54)%Z by lia. rewrite bpow_plus, Eq. apply Rmult_le_compat; auto using Rabs_pos. }
          apply Rle_trans with (p2 108 * p2 400).
          -- unfold Rdiv. apply Rmult_le_compat; auto; [left; apply Rinv_0_lt_compat; lra|].
             replace (p2 400) with (/ p2 (-400)) by (rewrite <- bpow_opp; reflexivity). apply Rinv_le; lra.
          -- rewrite <- bpow_plus. apply bpow_le. lia.
        * apply Rle_trans with (p2 800 * 2); [|rewrite p2_dbl; apply bpow_le; lia]. unfold Rdiv. apply Rmult_le_compat; auto; [left; apply Rinv_0_lt_compat; lra|].
          replace 2 with (/ / 2) by lra. apply Rinv_le; lra.
      + right. destruct (Rlt_dec v (/ 2)) as [H|H].
        * assert (p2 (-800) <= RN (q * q)) as Q5 by (apply RN_ge_repr; [apply repr_p2; lia|exact Q2]).
          apply Rle_trans with (p2 (-800)); [apply bpow_le; lia|]. apply Rmult_le_reg_r with v; [lra|]. unfold Rdiv. rewrite Rmult_assoc, Rinv_l by lra.
          pose proof (p2_pos (-800)). nra.
        * assert (p2 (-53) <= Rabs q) as Q6 by (apply M; [apply repr_p2; lia|apply A2; lra]).
          assert (p2 (-106) <= RN (q * q)) as Q7.
          { apply RN_ge_repr; [apply repr_p2; lia|]. replace (-106)%Z with (-53 + -53)%Z by lia. rewrite bpow_plus, Eq. pose proof (p2_pos (-53)). apply Rmult_le_compat; lra. }
          apply Rle_trans with (p2 (-106) * p2 (-400)); [rewrite <- bpow_plus; apply bpow_le; lia|]. pose proof (p2_pos (-106)).
          unfold Rdiv. apply Rmult_le_compat; auto; try lra. replace (p2 (-400)) with (/ p2 400) by (rewrite <- bpow_opp; reflexivity). apply Rinv_le; lra. }
  assert (0 <= RN (q * q) / v) as D0 by (apply Rmult_le_pos; [exact Hm0|left; apply Rinv_0_lt_compat; lra]).
  exists (RN (RN (q * q) / v)). split; [|split; [|split; [|exact T0]]].
  - unfold termD. apply d_div_round; auto; [lra|]. rewrite Rabs_pos_eq by now apply RN_nonneg. apply Rle_lt_trans with (p2 900); [|apply bpow_lt; lia].
    apply RN_le_repr; [apply repr_p2; lia|exact B1].
  - split; [now apply RN_nonneg|]. apply RN_le_repr; [apply repr_p2; lia|exact B1].
  - apply (rel_trans 1 3 _ (RN (q * q) / v)).
    + apply rel_RN. destruct B2 as [->|B2]; [left; unfold Rdiv; apply Rmult_0_l|right]. apply Rle_trans with (2 := B2). apply bpow_le; lia.
    + unfold termR. fold v d. replace 3%nat with (3 + 0)%nat by lia. apply rel_div; auto; try lra; [apply pow2_ge_0|apply rel_refl; lra].
Qed.

Lemma pearson_acc n e : length n = length e -> (Z.of_nat (length n) <= 2 ^ 50)%Z -> (forall x, In x n -> (0 <= x <= 2 ^ 53)%Z) ->
  (forall x, In x e -> moderate x) ->
  is_finite (pearson n e) = true /\ 0 <= B2R (pearson n e) /\ within (length n + 4) (B2R (pearson n e)) (pearsonR n e) /\ 0 <= pearsonR n e.
Proof.
  intros Hl Hs Hn He. set (l := combine n e). assert (length l = length n) as Hll by (unfold l; rewrite combine_length; lia).
  assert (forall p, In p l -> exists x, fin (termD (fst p) (snd p)) x /\ 0 <= x <= p2 900 /\ rel 4 x (termR (fst p) (snd p)) /\ 0 <= termR (fst p) (snd p)) as HT.
  { intros [x y] Hp. cbn [fst snd]. apply term_ok; [now apply Hn, (in_combine_l n e _ y)|now apply He, (in_combine_r n e x)]. }
  assert (forall p, In p l -> 0 <= B2R (termD (fst p) (snd p)) <= p2 900) as HB.
  { intros p Hp. destruct (HT p Hp) as (x & (_ & ->) & H & _). exact H. }
  set (f := fun p : Z * double => termD (fst p) (snd p)). set (g := fun p : Z * double => termR (fst p) (snd p)).
  assert (pearson n e = fold_left d_add (map f l) d_zero) as EP.
  { unfold pearson. f_equal. apply map_ext. intros [x y]. reflexivity. }
  assert (pearsonR n e = sumR (map g l)) as ER.
  { unfold pearsonR. f_equal. apply map_ext. intros [x y]. reflexivity. }
  assert (sumR (map (fun p => B2R (f p)) l) <= INR (length l) * p2 900) as HS.
  { clear - HB. induction l as [|p l IH]; [cbn; lra|]. cbn [map length]. change (sumR (?a :: ?b)) with (a + sumR b). rewrite S_INR.
    specialize (IH (fun q Hq => HB q (or_intror Hq))). pose proof (HB p (or_introl eq_refl)). unfold f in *. lra. }
  assert (0 <= sumR (map (fun p => B2R (f p)) l)) as HS0 by (apply sumR_nonneg; intros p Hp; now apply HB).
  assert (INR (length l) <= p2 50) as HN by (rewrite INR_IZR_INZ, <- IZR_p2 by lia; apply IZR_le; lia).
  assert (EE ^ length l <= 2) as HE.
  { assert (INR (length l) * p2 (-52) <= / 4) as Q.
    { replace (/ 4) with (p2 50 * p2 (-52)) by (rewrite <- bpow_plus; simpl; lra). apply Rmult_le_compat_r; [left; apply p2_pos|exact HN]. }
    pose proof (EE_bound (length l) ltac:(lra)). lra. }
  destruct (sum_ok f (fun p => B2R (f p)) l) with (a := d_zero) (y := 0) (P := 0) (j := 0%nat) as (z & Fz & Hz & Rz); try lra.
  - intros p Hp. destruct (HT p Hp) as (x & Fx & Hx & _). unfold f. destruct Fx as [F1 F2]. split; [now split|]. rewrite F2. lra.
  - apply fin_zero.
  - apply rel_refl. lra.
  - rewrite Rplus_0_l, Nat.add_0_l. apply Rle_trans with (p2 950 * 2); [|rewrite p2_dbl; apply bpow_le; lia].
    apply Rmult_le_compat; [exact HS0|pose proof (EE_pow (length l)); lra| |exact HE]. apply Rle_trans with (1 := HS).
    replace 950%Z with (50 + 900)%Z by lia. rewrite bpow_plus. apply Rmult_le_compat_r; [left; apply p2_pos|exact HN].
  - rewrite Rplus_0_l, Nat.add_0_l in Rz. rewrite <- EP in Fz. destruct Fz as [Fz1 Fz2]. rewrite Fz2, ER.
    split; [exact Fz1|]. split; [exact Hz|]. split; [|apply sumR_nonneg; intros p Hp; destruct (HT p Hp) as (x & _ & _ & _ & H); exact H].
    apply rel_within. rewrite <- Hll. apply rel_trans with (1 := Rz). apply rel_sum. intros p Hp.
    destruct (HT p Hp) as (x & (_ & F2) & _ & H & _). unfold f, g. now rewrite F2.
Qed.

(** the statistic is zero only if the counts are the expected values *)
Lemma pearsonR_zero n e : length n = length e -> (forall x, In x e -> moderate x) -> pearsonR n e = 0 <-> map IZR n = map B2R e.
Proof.
  revert e. induction n as [|x n IH]; intros [|y e] Hl He; try discriminate; [split; reflexivity|].
  injection Hl as Hl. unfold pearsonR. cbn [combine map]. change (sumR (?a :: ?b)) with (a + sumR b). fold (pearsonR n e).
  destruct (He y (or_introl eq_refl)) as (_ & Hy & _). pose proof (p2_pos (-400)).
  assert (0 < / B2R y) as Hi by (apply Rinv_0_lt_compat; lra).
  assert (0 <= (IZR x - B2R y) ^ 2 / B2R y) as T by (apply Rmult_le_pos; [apply pow2_ge_0|lra]).
  assert (0 <= pearsonR n e) as S.
  { apply sumR_nonneg. intros [a b] Hab. apply in_combine_r in Hab. destruct (He b (or_intror Hab)) as (_ & Hb & _).
    apply Rmult_le_pos; [apply pow2_ge_0|left; apply Rinv_0_lt_compat; lra]. }
  specialize (IH e Hl (fun z Hz => He z (or_intror Hz))). split; intros E.
  - assert (pearsonR n e = 0) as E1 by lra. assert ((IZR x - B2R y) ^ 2 / B2R y = 0) as E2 by lra. f_equal; [|now apply IH].
    unfold Rdiv in E2. apply Rmult_integral in E2 as [E2|E2]; [|lra]. assert (IZR x - B2R y = 0); [nra|lra].
  - injection E as E1 E2. apply IH in E2. rewrite E1, E2. unfold Rdiv. rewrite Rminus_diag_eq by reflexivity. ring.
Qed.

Lemma within_zero k x y : 0 <= x -> 0 <= y -> within k x y -> x = 0 <-> y = 0.
Proof. intros Hx Hy [H1 H2]. fold EE in H1, H2. split; intros ->; lra. Qed.

Lemma pearson_accurate n e : length n = length e -> (Z.of_nat (length n) <= 2 ^ 50)%Z -> (forall x, In x n -> (0 <= x <= 2 ^ 53)%Z) ->
  (forall x, In x e -> moderate x) -> accurate (length n) (pearson n e) n e.
Proof.
  intros Hl Hs Hn He. destruct (pearson_acc n e Hl Hs Hn He) as (H1 & H2 & H3 & H4). split; [exact H1|]. split; [exact H2|]. split; [exact H3|].
  rewrite (within_zero _ _ _ H2 H4 H3). now apply pearsonR_zero.
Qed.

Open Scope Z_scope.

Lemma map_in_all {A} (f : list Z -> A) sizes x : In x (map f (all_indices sizes)) -> exists i, index_in sizes i /\ x = f i.
Proof. intros H. apply in_map_iff in H as (i & <- & Hi). apply in_all_indices in Hi. eauto. Qed.

Lemma chi_qis_claim L fuel ilist mlist skips res : in_range ilist mlist -> py_qis L fuel ilist mlist skips = Ok res ->
  let n := flat (qr_pop_array res) in let e := flat (qr_expectation res) in
  Z.of_nat (length n) <= 2 ^ 50 -> (forall x, In x e -> moderate x) -> accurate (length n) (qr_chisq res) n e.
Proof.
  intros Hr E n e Hs He. pose proof (stats_qis_claim L fuel ilist mlist skips res Hr E) as [-> _]. fold n e.
  destruct (qis_ok_inv L fuel ilist mlist skips res Hr E) as (sizes & r & _ & Hf & [Hrn Hrt] & _ & _ & Ea & Ee & Hp & _).
  subst n e. rewrite Ea, Ee in *. cbn [flat] in *. apply pearson_accurate; auto; [now rewrite !map_length|].
  intros x Hx. apply map_in_all in Hx as (i & Hi & ->). pose proof (le_total sizes r i Hrn Hi). pose proof (Hrn i Hi). lia.
Qed.

(** up to ten marginals without zeros: every expected value is moderate *)
Lemma chi_positive_claim L fuel ilist mlist skips res : in_range ilist mlist -> py_qis L fuel ilist mlist skips = Ok res ->
  (length mlist <= 10)%nat -> (forall c k, In c (cons_of ilist mlist) -> index_in (c_sizes c) k -> 0 < c_at c k) ->
  let n := flat (qr_pop_array res) in let e := flat (qr_expectation res) in
  Z.of_nat (length n) <= 2 ^ 50 -> accurate (length n) (qr_chisq res) n e.
Proof.
  intros Hr E Hlen Hpos n e Hs. apply (chi_qis_claim L fuel ilist mlist skips res); auto.
  set (cs := cons_of ilist mlist) in *.
  destruct (qis_ok_inv L fuel ilist mlist skips res Hr E) as (sizes & r & Hvc & Hf & [Hrn Hrt] & _ & Ht & Ea & Ee & Hp & _).
  pose proof Hvc as (Hl2 & Himp & _). fold cs in Ee, Ht, Hl2, Himp.
  assert (forall c i, In c cs -> index_in sizes i -> 1 <= c_at c (proj (c_dims c) i) <= qr_pop res) as Hb.
  { intros c i Hc Hi. assert (index_in (c_sizes c) (proj (c_dims c) i)) as Hk by (apply (QisProofs.proj_in cs sizes); auto).
    rewrite <- (Ht c Hc). specialize (Hpos c _ Hc Hk) as H1. split; [lia|]. unfold c_total. apply le_total; auto.
    intros k Hk'. specialize (Hpos c k Hc Hk'). lia. }
  rewrite Ee. cbn [flat]. intros x Hx. apply map_in_all in Hx as (i & Hi & ->).
  assert (1 <= qr_pop res) as Hp1.
  { destruct cs as [|c cs']; [simpl in Hl2; lia|]. specialize (Hb c i (or_introl eq_refl) Hi). lia. }
  assert (length cs <= 10)%nat as Hc10 by (unfold cs, cons_of; rewrite map_length, combine_length; lia).
  destruct (expectation_range cs sizes (qr_pop res) 32 Hf ltac:(lia) ltac:(lia) ltac:(lia) Hb i Hi) as (v & [F1 F2] & V1 & V2).
  split; [exact F1|]. rewrite F2. split.
  - apply Rle_trans with (2 := V1). apply bpow_le. lia.
  - apply Rle_trans with (1 := V2). apply bpow_le. lia.
Qed.

Lemma chi_qisi_claim L fuel seed ilist mlist skips res : qisi_range ilist mlist seed -> py_qisi L fuel seed ilist mlist skips = Ok res ->
  let n := flat (qr_pop_array res) in let e := flat (qr_expectation res) in
  Z.of_nat (length n) <= 2 ^ 50 -> (forall x, In x e -> moderate x) -> accurate (length n) (qr_chisq res) n e.
Proof.
  intros Hr E n e Hs He. pose proof (stats_qisi_claim L fuel seed ilist mlist skips res Hr E) as [-> _]. fold n e.
  pose proof (qisi_cases L fuel seed ilist mlist skips Hr) as H. cbv zeta in H. rewrite E in H.
  destruct H as (_ & _ & Hf & _ & _ & Hp & r & [Hrn Hrt] & _ & Ea & ex & Ee & _).
  subst n e. rewrite Ea, Ee in *. cbn [flat] in *. apply pearson_accurate; auto; [now rewrite !map_length|].
  intros x Hx. apply map_in_all in Hx as (i & Hi & ->). pose proof (le_total (shape seed) r i Hrn Hi). pose proof (Hrn i Hi). lia.
Qed.

(** a structural zero of the seed or of a marginal: the fitted table is zero or NaN there *)
Lemma fit1_zn sizes c f i : zn (f i) = true \/ zn (g_at c (proj (g_dims c) i)) = true -> zn (fit1 sizes c f i) = true.
Proof.
  intros H. unfold fit1. cbv zeta. destruct (d_eqb _ _); [reflexivity|]. destruct H as [H|H]; [now apply zn_mul|now apply zn_mul_r, zn_div].
Qed.
Lemma sweep_zn sizes cs i : forall f, zn (f i) = true \/ (exists c, In c cs /\ zn (g_at c (proj (g_dims c) i)) = true) ->
  zn (fold_left (fun g c => fit1 sizes c g) cs f i) = true.
Proof.
  induction cs as [|c cs IH]; intros f H; cbn [fold_left].
  - destruct H as [H|(c & [] & _)]. exact H.
  - apply IH. destruct H as [H|(c' & [<-|Hc] & H)]; [left; apply fit1_zn; auto|left; apply fit1_zn; auto|right; eauto].
Qed.
Lemma fitted_zn sizes cs f i n : (1 <= n)%nat -> zn (f i) = true \/ (exists c, In c cs /\ zn (g_at c (proj (g_dims c) i)) = true) ->
  zn (fitted sizes cs f n i) = true.
Proof.
  induction n as [|n IH]; [lia|]. intros _ H. cbn [fitted]. apply sweep_zn. destruct n as [|n]; [exact H|left; apply IH; auto; lia].
Qed.

Lemma chi_zero_claim L fuel seed ilist mlist skips res : qisi_range ilist mlist seed -> qisi_good fuel ilist mlist seed ->
  (forall i, index_in (shape seed) i -> d_ltb (entry d_zero seed i) d_zero = false) ->
  py_qisi L fuel seed ilist mlist skips = Ok res ->
  (exists i, index_in (shape seed) i /\
    (d_eqb (entry d_zero seed i) d_zero = true \/ exists c, In c (cons_of ilist mlist) /\ c_at c (proj (c_dims c) i) = 0)) ->
  is_nan (qr_chisq res) = true /\ qr_pvalue res = d_one.
Proof.
  intros Hr Hg Hn E (i & Hi & Hz). pose proof (qisi_zero_claim L fuel seed ilist mlist skips res Hr Hg Hn E i Hi Hz) as H0.
  destruct (synthi_claim L fuel seed ilist mlist skips res Hr Hg E) as (points & people & g & _ & _ & Href & _).
  pose proof (qisi_cases L fuel seed ilist mlist skips Hr) as H. cbv zeta in H. rewrite E in H.
  destruct H as (_ & _ & Hf & _ & _ & Hp & r & _ & _ & Ea & ex & Ee & Ex & Ep & _).
  rewrite Ea in H0. rewrite entry_NDA_map in H0 by auto.
  assert (zn (ex i) = true) as Hzn.
  { destruct Href as (_ & n & Hn1 & _ & _ & Hfit). specialize (Hfit i Hi). rewrite Ee in Hfit. rewrite entry_NDA_map in Hfit by auto.
    rewrite Hfit. apply fitted_zn; [lia|]. destruct Hz as [Hz|(c & Hc & Hz)].
    - left. destruct (entry d_zero seed i) as [s|s| |s m e' B]; try discriminate; [reflexivity|destruct s; discriminate|destruct s; discriminate].
    - right. exists (GC (c_dims c) (c_sizes c) (fun k => d_ofZ (left_of [] c k))). split; [apply in_map_iff; eauto|]. cbn [g_at g_dims].
      replace (left_of [] c (proj (c_dims c) i)) with 0; [reflexivity|]. unfold left_of. rewrite Hz. reflexivity. }
  assert (is_nan (qr_chisq res) = true) as Hnan.
  { rewrite Ex. unfold chi_val. apply fold_add_nan. right. exists (chi_term (r i) (ex i)). split.
    - apply in_map_iff. exists i. split; auto. now apply in_all_indices.
    - rewrite H0. now apply chi_term_nan. }
  split; auto. rewrite Ep, (nan_eq _ Hnan). apply pvalue_nan.
Qed.

(** * Deciding [moderate] *)
Definition moderateb (x : double) : bool := is_finite x && d_leb (d_lit 1 (-400)) x && d_leb x (d_lit 1 400).
Lemma moderate_by l : forallb moderateb l = true -> forall x, In x l -> moderate x.
Proof.
  intros H x Hx. rewrite forallb_forall in H. specialize (H x Hx). unfold moderateb in H. apply andb_prop in H as [H H3]. apply andb_prop in H as [H1 H2].
  assert (forall e, -1074 <= e <= 970 -> fin (d_lit 1 e) (p2 e)) as F.
  { intros e He. pose proof (d_lit_exact 1 e ltac:(lia) ltac:(lia) ltac:(lia)) as F. now rewrite Rmult_1_l in F. }
  split; [exact H1|]. split.
  - now apply (d_leb_true _ x _ _ (F (-400) ltac:(lia)) (fin_B2R x H1)).
  - now apply (d_leb_true x _ _ _ (fin_B2R x H1) (F 400 ltac:(lia))).
Qed.
