(** C83 for independent marginals and a unit seed: the fits never overshoot. *)
From Coq Require Import ZArith Reals Lra Lia List Bool.
From Flocq Require Import Core.Core IEEE754.BinarySingleNaN.
From Verif Require Import Base Spec NDArray Float64 FloatProofs RealSpec SpecFacts IndexProofs ArrayOps ArrayProofs Bind BindProofs SobolClaims Micro MicroProofs Stat Qis
  SynthSpec SplitProofs QisProofs Ipf IpfSpec IpfFitSpec IpfRound Qisi QisiClaims QuantSpec QuantProofs SynthiSpec Synthi IndepSpec IndepProofs IndepClaim QisExpect CoverSpec CoverClaim.
Open Scope Z_scope.

(** what is left of a constraint *)
Definition leftc (p : list (list Z)) (c : con) : con := CON (c_dims c) (c_sizes c) (left_of p c).

Lemma left_fits cs sizes pop (seed : list Z -> double) p t : implied cs sizes -> NoDup (flat_map c_dims cs) -> positive sizes -> (1 <= length cs)%nat ->
  pop * (Z.of_nat (length cs) * (2 * prodZ sizes + Z.of_nat (length cs) + 1)) <= 2 * 10 ^ 7 ->
  (forall c, In c cs -> c_total c = pop) -> Forall (index_in sizes) p -> Z.of_nat (length p) < pop ->
  (forall i, index_in sizes i -> seed i = d_one) -> refit cs sizes seed (left_of p) t -> ~ overshoots cs sizes (left_of p) t.
Proof.
  intros Himp Hnd Hpos Hlen Hb Htot Hp Hlt Hseed (Hleft & n & Hn & Hbefore & Hlast & Hti) Hov.
  set (ds := map _ cs) in *. set (cs' := map (leftc p) cs). set (pop' := pop - Z.of_nat (length p)).
  assert (implied cs' sizes) as Himp'.
  { destruct Himp as [H1 H2]. split.
    - intros d. rewrite <- H1. split; intros (c & Hc & Hd).
      + apply in_map_iff in Hc as (c0 & <- & Hc). exists c0. auto.
      + exists (leftc p c). split; [now apply in_map|]. exact Hd.
    - intros c Hc. apply in_map_iff in Hc as (c0 & <- & Hc). apply (H2 c0 Hc). }
  assert (forall c, In c cs' -> nonneg c) as Hnn'.
  { intros c Hc k Hk. apply in_map_iff in Hc as (c0 & <- & Hc). now apply Hleft. }
  assert (forall c, In c cs' -> c_total c = pop') as Htot'.
  { intros c Hc. apply in_map_iff in Hc as (c0 & <- & Hc). unfold c_total. cbn [leftc c_sizes c_at]. unfold pop'. rewrite <- (Htot c0 Hc).
    rewrite <- (total_rem cs sizes Himp c0 (fun x => occurrences x p) (Z.of_nat (length p)) Hc) by (now apply (occ_counts sizes (map (fun _ => []) sizes) (map_length _ _))).
    unfold total. apply sumZ_map_ext. intros k _. symmetry. now apply rem_left. }
  assert (flat_map c_dims cs' = flat_map c_dims cs) as Edims.
  { unfold cs'. clear. induction cs as [|c l IH]; cbn; auto. now rewrite IH. }
  assert (NoDup (flat_map c_dims cs')) as Hnd' by now rewrite Edims.
  assert (length cs' = length cs) as El by apply map_length.
  assert (1 <= length cs')%nat as Hlen' by lia.
  assert (0 < pop') as Hpop' by (unfold pop'; lia).
  assert (Z.of_nat (length (all_indices sizes)) = prodZ sizes) as EN.
  { apply length_all_indices. eapply Forall_impl; [|exact Hpos]. cbn. intros; lia. }
  pose proof (prodZ_pos _ Hpos) as PN.
  assert (pop' * Z.of_nat (length cs' * (2 * length (all_indices sizes) + length cs' + 1)) <= 2 * 10 ^ 7) as Hb'.
  { rewrite El. replace (Z.of_nat (length cs * (2 * length (all_indices sizes) + length cs + 1)))
      with (Z.of_nat (length cs) * (2 * prodZ sizes + Z.of_nat (length cs) + 1)) by lia. unfold pop'. nia. }
  assert (Forall2 holds ds cs') as Hh.
  { unfold ds, cs'. clear. induction cs as [|c l IH]; cbn; constructor; auto. split; [reflexivity|]. split; reflexivity. }
  assert (Inv sizes pop' cs' [] (fitted sizes ds seed 1)) as HI.
  { cbn [fitted]. apply (steps cs' sizes pop' Himp' Hnn' Htot' Hnd' Hpos Hpop' Hlen' Hb') with (post := cs') (pre := []); auto.
    now apply (start cs' sizes pop' Himp' Hnd' Hpos Hpop' Hlen' Hb'). }
  pose proof (result_fits cs' sizes pop' Himp' Hnn' Htot' Hnd' Hpos Hpop' Hlen' Hb' _ ds Hh HI) as Hfit.
  assert (n = 1)%nat as ->.
  { destruct (Nat.eq_dec n 1); auto. exfalso. apply (Hbefore 1%nat); [lia|exact Hfit]. }
  assert (forall i, index_in sizes i -> is_finite (t i) = true /\ (0 <= B2R (t i))%R) as Hcells.
  { intros i Hi. rewrite Hti by auto.
    destruct (result_rel cs' sizes pop' Himp' Hnd' Hpos Hpop' Hlen' Hb' _ i HI Hi) as (y & [Fy Ey] & Py & _). rewrite Ey. auto. }
  destruct Hov as [(i & Hi & Hx)|(c & k & Hc & Hk & Hov)].
  { destruct (Hcells i Hi) as [F P]. destruct Hx as [Hx|Hx]; [congruence|lra]. }
  assert (d_leb d_1em8 (d_abs (d_sub (marginD sizes (c_dims c) k t) (d_ofZ (left_of p c k)))) = false) as Hm.
  { replace (marginD sizes (c_dims c) k t) with (marginD sizes (c_dims c) k (fitted sizes ds seed 1)).
    - apply (Hfit (GC (c_dims c) (c_sizes c) (fun k => d_ofZ (left_of p c k))) k); [|exact Hk]. unfold ds. apply in_map_iff. eauto.
    - unfold marginD. f_equal. apply map_ext_in. intros i Hi. apply filter_In in Hi as [Hi _]. apply in_all_indices in Hi. now rewrite Hti. }
  assert (0 <= left_of p c k <= pop') as Hlr.
  { split; [now apply Hleft|]. rewrite <- (Htot' (leftc p c)) by now apply in_map. apply (le_total (c_sizes c) (left_of p c) k); [|exact Hk].
    intros j Hj. now apply Hleft. }
  assert (1 <= Z.of_nat (length cs)) as HK by lia.
  assert (pop * (2 * prodZ sizes + 2) <= 2 * 10 ^ 7) as Hq.
  { eapply Z.le_trans; [|exact Hb]. apply Z.mul_le_mono_nonneg_l; [unfold pop' in Hpop'; lia|]. nia. }
  apply margin_close in Hm; auto; [lra| | |].
  - unfold pop' in *. nia.
  - unfold pop' in *. nia.
  - eapply Forall_impl; [|exact Hpos]. cbn. intros; lia.
Qed.

Lemma syn_index cs sizes seed points people g : synthesised cs sizes seed points people g -> Forall (index_in sizes) people.
Proof.
  induction 1; [constructor| |]; apply Forall_app; split; auto; constructor; auto; eapply selected_index; eauto.
Qed.

Lemma qisi_independent L fuel ilist mlist sizes pop skips res : independent ilist mlist sizes pop ->
  let K := Z.of_nat (length (cons_of ilist mlist)) in pop * (K * (2 * prodZ sizes + K + 1)) <= 2 * 10 ^ 7 -> prodZ sizes < Z.of_nat fuel ->
  py_qisi L fuel (ones sizes) ilist mlist skips = Ok res -> qr_conv res = true.
Proof.
  intros (Hv & Hr & Himp & Hdis & H2 & Hnn & Htot & Hpop) K Hb Hfu E.
  pose proof (small_N fuel ilist mlist sizes pop Hr Himp H2 Hpop Hb) as [SN SN2].
  assert (pop <= 10 ^ 7) as Hpb by nia.
  assert (qisi_range ilist mlist (ones sizes)) as Hqr.
  { split; auto. split; [intros c Hc; rewrite (Htot c Hc); lia|]. split; [now apply (seed_wf fuel ilist mlist sizes pop)|]. cbn [ones shape]. lia. }
  assert (qisi_good fuel ilist mlist (ones sizes)) as Hqg.
  { split; [|exact Hfu]. intros c Hc. split; [now apply Hdis|]. now apply (dims_lt fuel ilist mlist sizes Hr Himp Hdis H2). }
  destruct (qr_conv res) eqn:Ecv; auto. exfalso.
  destruct (qisi_draws L fuel (ones sizes) ilist mlist skips res Hqr Hqg E Ecv) as (points & people & g & p & x & q & t & Hl & Hpt & Hs & Ho & Ep & Ht & Hov).
  cbn [ones shape] in *. pose proof (syn_index _ _ _ _ _ _ Hs) as Hin. rewrite Ep in Hin. apply Forall_app in Hin as [Hin _].
  pose proof (qisi_cases L fuel (ones sizes) ilist mlist skips Hqr) as Hcs. cbv zeta in Hcs. rewrite E in Hcs.
  destruct Hcs as (_ & _ & _ & _ & Ht' & _).
  revert Hov. eapply left_fits with (pop := pop); eauto.
  - now apply disjoint_NoDup.
  - now apply (sizes_pos fuel ilist mlist sizes).
  - lia.
  - assert (exists c, In c (cons_of ilist mlist)) as (c & Hc) by (destruct (cons_of ilist mlist) as [|c l]; [cbn in H2; lia|exists c; now left]).
    rewrite <- (Htot c Hc), (Ht' c Hc), <- Hl, Ep, app_length. cbn [length]. lia.
  - intros i Hi. cbv beta. change (entry d_zero (ones sizes) i = d_one). unfold ones. now rewrite entry_NDA_map.
Qed.

(** * Examples *)
From Verif Require Import QisExamples IpfExamples QisiExamples.
Definition exT_m : list (ndarray Z) := [NDA [2] [12; 8]; NDA [3] [5; 4; 11]].
Lemma exT_ok : independent exJ_i exT_m [2; 3] 20 /\
  (let K := Z.of_nat (length (cons_of exJ_i exT_m)) in 20 * (K * (2 * prodZ [2; 3]%Z + K + 1)) <= 2 * 10 ^ 7) /\ prodZ [2; 3]%Z < Z.of_nat 40 /\
  cells (py_qisi L0 40 (ones [2; 3]) exJ_i exT_m 0) = Some (true, [2; 3; 7; 3; 1; 4]).
Proof.
  split; [apply indep_by; vm_compute; reflexivity|]. split; [vm_compute; discriminate|]. split; [reflexivity|]. vm_compute. reflexivity.
Qed.

Lemma stuck_by (o : outcome qis_result) N : match o with Ok r => negb (qr_conv r) && (N * (qr_pop r + 1) <=? 2 ^ 50) | _ => false end = true ->
  exists r, o = Ok r /\ qr_conv r = false /\ N * (qr_pop r + 1) <= 2 ^ 50.
Proof.
  destruct o as [r| | |]; try discriminate. intros H. apply andb_true_iff in H as [H1 H2]. exists r. split; auto. split; [now apply negb_true_iff|now apply Z.leb_le].
Qed.
Lemma exK_stuck : qisi_range exJ_i exK_m exK_s /\ qisi_good 40 exJ_i exK_m exK_s /\
  exists r, py_qisi L0 40 exK_s exJ_i exK_m 0 = Ok r /\ qr_conv r = false /\ prodZ (shape exK_s) * (qr_pop r + 1) <= 2 ^ 50.
Proof. split; [exact exK_range|]. split; [apply qisi_good_by; vm_compute; reflexivity|]. apply stuck_by. vm_compute. reflexivity. Qed.
