(** The claims about qisi. *)
From Verif Require Import Base Spec SpecFacts NDArray IndexProofs Float64 FloatProofs ArrayOps ArrayProofs Bind BindProofs
  SobolTable SobolSpec Sobol SobolTableProofs SobolProofs SobolClaims Micro Stat Qis SynthSpec MicroProofs PickProofs SampleProofs
  SplitProofs QisProofs StatProofs QisClaims Ipf IpfSpec IpfProofs MicroDbl IpfClaims Qisi QisiProofs.
Open Scope Z_scope.

(** * All the things that can happen *)

(** sizes and totals the theorems cover *)
Definition qisi_range (ilist mlist : list (ndarray Z)) (seed : ndarray double) : Prop :=
  in_range ilist mlist /\ (forall c, In c (cons_of ilist mlist) -> c_total c < 2 ^ 61) /\ wf_array seed /\ prodZ (shape seed) < 2 ^ 60.

(** the call is bound to return or raise: no index list repeats a dimension or names all of them, and the loops of
    the model are given enough steps *)
Definition qisi_good (fuel : nat) (ilist mlist : list (ndarray Z)) (seed : ndarray double) : Prop :=
  (forall c, In c (cons_of ilist mlist) -> proper (length (shape seed)) (c_dims c)) /\ prodZ (shape seed) < Z.of_nat fuel.

Lemma rems_zero cs sizes : rems cs sizes (fun _ => 0) = map nd_of cs.
Proof.
  unfold rems. apply map_ext. intros c. unfold nd_of. apply mk_ext. intros k _. unfold rem, margin, sum_where. rewrite sumZ_map_const. lia.
Qed.

(** construction and solve, as called by qisi and by Integeriser *)
Definition qisi_core (L : libm) (fuel : nat) (seed : ndarray double) (cs : list con) (skips : Z) :=
  let* q := qisi_new fuel (map c_dims cs) (map nd_of cs) skips in
  let* s := as_nd seed in
  let* x := qisi_solve L fuel q (map nd_of cs) s in
  Ok (ms_pop (qi_ms q), x).

Lemma qisi_core_cases L fuel seed cs skips : (forall c, In c cs -> csmall c) -> (forall sizes, implied cs sizes -> prodZ sizes < 2 ^ 60) ->
  (forall c, In c cs -> c_total c < 2 ^ 61) -> wf_array seed -> prodZ (shape seed) < 2 ^ 60 -> let sizes := shape seed in
  let good := (forall c, In c cs -> proper (length sizes) (c_dims c)) /\ prodZ sizes < Z.of_nat fuel in
  match qisi_core L fuel seed cs skips with
  | Ok (pop, (st, exn, (c, p, g))) => valid_code cs sizes /\ fits sizes /\ u32 skips <= 2 ^ 31 /\
      (forall c, In c cs -> c_total c = pop) /\ pop < 2 ^ 32 /\
      exists r ex, counts sizes pop r /\ (i_conv st = true <-> left_ok cs sizes r) /\ i_arr st = mk sizes r /\ exn = mk sizes ex /\
        c = chi_val sizes r ex /\ p = fst (pvalue L (dof_val sizes) c) /\ g = deg_val L sizes r
  | Throw _ => True
  | UB _ => ~ good
  | Diverge => ~ good \/ (fuel < 32)%nat \/ 2 ^ 31 < u32 skips
  end.
Proof.
  intros Hsm Hprod H61 Hw Hs60 sizes good. unfold qisi_core, qisi_new.
  destruct (micro_new_spec (T := Z) cs Hsm Hprod) as [(s & Hvc & E)|[Hno (e & E)]]; rewrite E; cbn [bind]; auto. clear E.
  pose proof Hvc as (Hl2 & Himp & Hd2 & Hnn & Hpop & Hag).
  assert (fits s) as Hfit by (apply (implied_fits cs); auto). cbn [ms_sizes].
  set (pop := pop_of (c_total (hd con0 cs))) in *.
  destruct (Nat.le_gt_cases (length s) 1111) as [Hdim|Hdim].
  2:{ unfold sobol_new. destruct (N.ltb_spec (N.of_nat (length s)) 1); [lia|].
      destruct (N.ltb_spec 1111 (N.of_nat (length s))); [|lia]. cbn [orb bind]. exact I. }
  destruct (sobol_new_ok (N.of_nat (length s)) 0 (Nat.max fuel 32) ltac:(lia) ltac:(lia) ltac:(lia)) as (cols & s0 & Es & Htab & Hdir & Him & Hview).
  rewrite Nat2N.id in Htab. cbn [N.ltb N.compare] in Hview.
  assert (sobol_new fuel (N.of_nat (length s)) 0 = Ok s0) as Es'.
  { unfold sobol_new in *. destruct ((N.of_nat (length s) <? 1)%N || (1111 <? N.of_nat (length s))%N)%bool; auto. }
  rewrite Es'. cbn [bind]. pose proof (u32_range skips) as Hu.
  destruct (skip_cases cols _ s0 (Z.to_N (u32 skips)) fuel Hdir Hview ltac:(lia)) as [[Ek Hk]|(sb & Ek & Hsb & Hk)]; rewrite Ek; cbn [bind].
  { right. destruct Hk; [left; auto|right; lia]. }
  rewrite (as_nd_ok d_zero) by auto. cbn [bind]. unfold qisi_solve. cbn [qi_ms ms_array ms_indices ms_sizes ms_pop].
  rewrite sizes_mk, sizes_mkp. fold sizes.
  destruct (check_seed_cases sizes s) as [[Esz Ec]|[_ (e & Ec)]]; rewrite Ec; cbn [bind]; auto. subst s. clear Ec.
  rewrite !nd_new_ok by auto. cbn [bind]. assert (length cols = length sizes) as Hlc by (destruct Htab; auto).
  assert (counts sizes 0 (fun _ => 0)) as Hc0 by (split; [lia|]; unfold total; rewrite sumZ_map_const; lia).
  pose proof (recompute_cases cs sizes Hsm Himp Hfit Hnn H61 Hd2 fuel (entry d_zero seed) (fun _ => 0) 0 (fun _ => None) Hc0 ltac:(lia)) as Hrc.
  rewrite rems_zero in Hrc. fold sizes in Hrc |- *.
  destruct (recompute_ipf fuel (map c_dims cs) (map nd_of cs) (mk sizes (entry d_zero seed)) (mkp sizes (fun _ => None))) as [sol|e|w|]; cbn [bind]; auto.
  destruct Hrc as [f ->]. rewrite nd_copy_same by auto. cbn [bind]. rewrite index_new_ok by auto. cbn [bind].
  rewrite make_mappings_ok by auto. cbn [bind]. rewrite nd_assign_mkp by auto. cbn [bind]. rewrite Es'. cbn [bind ix_idx].
  assert (iinv cs sizes cols 0 (QIS s0 (repeat 0 (length sizes)) (map nd_of cs) (mk sizes (fun _ => 0)) true (mk sizes f))) as Hi0.
  { exists (fun _ => 0), (SV 0 0 (N.of_nat (length sizes))), f. cbn [i_sobol i_main i_margs i_arr i_conv i_sol v_n].
    split; auto. split; auto. split; auto. split; [now rewrite rems_zero|]. split; auto. split; [|split; auto; apply repeat_length].
    split; auto. intros _ c k Hc Hk'. unfold rem, margin, sum_where. rewrite sumZ_map_const. pose proof (Hnn c Hc k Hk'). lia. }
  pose proof (qisi_loop_cases cs sizes Hsm Himp Hfit Hnn H61 Hd2 ltac:(lia) fuel (entry d_zero seed) cols Hlc Hdir (Z.to_nat pop) 0 _ ltac:(lia) Hi0) as Hlp.
  unfold repeatM. fold pop.
  match goal with |- context [foldM ?F ?l ?x] => change (foldM F l x) with (foldM (fun (_ : unit) s => qisi_step fuel (map c_dims cs) (mk sizes (entry d_zero seed)) s) l x) end.
  destruct (foldM _ (repeat tt (Z.to_nat pop)) _) as [st|e|w|]; cbn [bind]; auto.
  destruct Hlp as (r & v & f' & Hv' & Hn' & Hcnt & _ & Ea & Hcv & _ & _).
  pose proof (view_n_le _ _ _ Hv') as Hle. unfold limit in Hle.
  assert (forall c, In c cs -> 0 <= c_total c < 2 ^ 62) as Ht0.
  { intros c Hc. destruct (Hsm c Hc) as (_ & _ & Ht). unfold c_total. pose proof (total_le_abs (c_sizes c) (c_at c)). split; [|lia].
    apply total_nonneg. intros i Hi. apply (Hnn c Hc i Hi). }
  assert (forall c, In c cs -> c_total c = pop) as Htot.
  { intros c Hc. assert (In (hd con0 cs) cs) as Hh by (destruct cs; [easy|now left]).
    pose proof (Hpop c (hd con0 cs) Hc Hh) as Ep. fold pop in Ep. pose proof (Ht0 c Hc).
    destruct (Z.lt_ge_cases (c_total c) (2 ^ 52)) as [Hs|Hb].
    - now rewrite pop_of_small in Ep by lia.
    - pose proof (pop_of_big (c_total c) ltac:(lia)). lia. }
  assert (0 <= pop) as Hp0.
  { destruct cs as [|c cs']; [simpl in Hl2; lia|]. pose proof (Htot c (or_introl eq_refl)). pose proof (Ht0 c (or_introl eq_refl)). lia. }
  replace (0 + Z.of_nat (Z.to_nat pop)) with pop in * by lia.
  assert (pop < 2 ^ 32) as Hp32 by lia.
  rewrite Ea, chisq_ok by auto. cbn [bind]. rewrite sizes_mk. destruct (dof_ok sizes Hfit) as [-> _]. cbn [bind].
  rewrite (degeneracy_ok sizes Hfit L r pop Hcnt Hp32). cbn [bind qi_ms ms_pop].
  split; auto. split; auto. split; [lia|]. split; auto. split; auto. exists r, f. auto 10.
Qed.


Lemma py_qisi_core L fuel seed ilist mlist skips : in_range ilist mlist -> vectors ilist mlist ->
  py_qisi L fuel seed ilist mlist skips =
  (let* '(pop, (st, ex, (c, p, g))) := qisi_core L fuel seed (cons_of ilist mlist) skips in
   let* ex := from_nd ex in let* arr := from_nd (i_arr st) in Ok (QR arr ex (i_conv st) pop c p g)).
Proof.
  intros Hr Hv. unfold py_qisi, qisi_core. destruct (py_lists_cases ilist mlist Hr) as [[_ ->]|[Hno _]]; [|tauto]. cbn [bind].
  destruct (qisi_new _ _ _ _); cbn [bind]; auto. destruct (as_nd seed); cbn [bind]; auto.
  destruct (qisi_solve _ _ _ _ _) as [[[st ex] [[c p] g]]| | |]; cbn [bind]; auto.
Qed.

Lemma qisi_cases L fuel seed ilist mlist skips : qisi_range ilist mlist seed -> let cs := cons_of ilist mlist in let sizes := shape seed in
  match py_qisi L fuel seed ilist mlist skips with
  | Ok res => vectors ilist mlist /\ valid_code cs sizes /\ fits sizes /\ u32 skips <= 2 ^ 31 /\
      (forall c, In c cs -> c_total c = qr_pop res) /\ qr_pop res < 2 ^ 32 /\
      exists r, counts sizes (qr_pop res) r /\ (qr_conv res = true <-> left_ok cs sizes r) /\
        qr_pop_array res = NDA sizes (map r (all_indices sizes)) /\
        exists ex, qr_expectation res = NDA sizes (map ex (all_indices sizes)) /\ qr_chisq res = chi_val sizes r ex /\
          qr_pvalue res = fst (pvalue L (dof_val sizes) (qr_chisq res)) /\ qr_degeneracy res = deg_val L sizes r
  | Throw _ => True
  | UB _ => ~ qisi_good fuel ilist mlist seed
  | Diverge => ~ qisi_good fuel ilist mlist seed \/ (fuel < 32)%nat \/ 2 ^ 31 < u32 skips
  end.
Proof.
  intros (Hr & H61 & Hw & Hs60) cs sizes. assert (forall c, In c cs -> csmall c) as Hsm by (intros c; now apply range_small).
  destruct (py_lists_cases ilist mlist Hr) as [[Hv _]|[Hv (e & E)]].
  2:{ unfold py_qisi. now rewrite E. }
  rewrite py_qisi_core by auto. fold cs. pose proof Hr as [_ Hprod]. fold cs in Hprod.
  pose proof (qisi_core_cases L fuel seed cs skips Hsm Hprod H61 Hw Hs60) as H. cbv zeta in H. fold sizes in H.
  destruct (qisi_core L fuel seed cs skips) as [[pop [[st exn] [[c p] g]]]|e|w|]; cbn [bind]; auto.
  destruct H as (Hvc & Hfit & Hu & Ht & Hp & r & ex & Hc & Hcv & Ea & Ex & H1 & H2 & H3). rewrite Ea, Ex, !from_nd_mk by auto.
  cbn [bind qr_pop qr_conv qr_pop_array qr_expectation qr_chisq qr_pvalue qr_degeneracy].
  split; auto. split; auto. split; auto. split; auto. split; auto. split; auto. exists r. split; auto. split; auto. split; auto. exists ex. auto.
Qed.

(** * The claims *)

Lemma qisi_population_claim L fuel seed ilist mlist skips res : qisi_range ilist mlist seed -> py_qisi L fuel seed ilist mlist skips = Ok res ->
  let a := qr_pop_array res in
  shape a = shape seed /\ implied (cons_of ilist mlist) (shape a) /\ wf_array a /\ (forall i, index_in (shape a) i -> 0 <= entry 0 a i) /\
  total (shape a) (entry 0 a) = qr_pop res /\ (forall c, In c (cons_of ilist mlist) -> c_total c = qr_pop res).
Proof.
  intros Hr E. pose proof (qisi_cases L fuel seed ilist mlist skips Hr) as H. cbv zeta in H. rewrite E in H.
  destruct H as (Hv & Hvc & Hf & _ & Ht & _ & r & [Hrn Hrt] & _ & -> & _). cbn [shape].
  split; auto. split; [apply Hvc|]. split; [apply wf_NDA_map; auto|]. split; [|split; auto; now rewrite total_NDA].
  intros i Hi. rewrite entry_NDA_map by auto. auto.
Qed.

Lemma qisi_conv_claim L fuel seed ilist mlist skips res : qisi_range ilist mlist seed -> py_qisi L fuel seed ilist mlist skips = Ok res ->
  (qr_conv res = true <->
   forall c, In c (cons_of ilist mlist) -> meets (shape (qr_pop_array res)) (entry 0 (qr_pop_array res)) c).
Proof.
  intros Hr E. pose proof (qisi_cases L fuel seed ilist mlist skips Hr) as H. cbv zeta in H. rewrite E in H.
  destruct H as (Hv & Hvc & Hf & _ & Ht & _ & r & Hc & -> & -> & _).
  cbn [shape]. rewrite (left_ok_meets _ _ ltac:(apply Hvc) r (qr_pop res)) by auto. unfold meets.
  split; intros H c Hin k Hk; specialize (H c Hin k Hk); now rewrite margin_NDA in *.
Qed.

Lemma qisi_safe_claim L fuel seed ilist mlist skips : qisi_range ilist mlist seed -> qisi_good fuel ilist mlist seed ->
  u32 skips <= 2 ^ 31 -> (32 <= fuel)%nat ->
  (exists res, py_qisi L fuel seed ilist mlist skips = Ok res) \/ (exists e, py_qisi L fuel seed ilist mlist skips = Throw e).
Proof.
  intros Hr Hg Hs Hf. pose proof (qisi_cases L fuel seed ilist mlist skips Hr) as H. cbv zeta in H.
  destruct (py_qisi L fuel seed ilist mlist skips); eauto; [tauto|]. destruct H as [H|[H|H]]; [tauto|lia|lia].
Qed.

Lemma qisi_rejects_claim L fuel seed ilist mlist skips : in_range ilist mlist -> let cs := cons_of ilist mlist in
  (exists c, In c cs /\ c_total c < 2 ^ 52) -> ~ (vectors ilist mlist /\ valid cs) ->
  exists e, py_qisi L fuel seed ilist mlist skips = Throw e.
Proof.
  intros Hr cs Ht Hno. destruct (validation_claim (T := Z) ilist mlist Hr Ht) as [_ [_ H]]. destruct (H Hno) as (e & E).
  exists e. unfold py_qisi, qisi_new. destruct (py_lists to_nd ilist mlist) as [[ix mg]| | |]; cbn [bind] in *; try discriminate; try congruence.
  rewrite E. reflexivity.
Qed.

(** a seed of another shape is refused *)
Lemma qisi_seed_claim L fuel seed ilist mlist skips : qisi_range ilist mlist seed -> ~ implied (cons_of ilist mlist) (shape seed) ->
  u32 skips <= 2 ^ 31 -> (32 <= fuel)%nat -> exists e, py_qisi L fuel seed ilist mlist skips = Throw e.
Proof.
  intros (Hr & H61 & Hw & Hs60) Hno Hsk Hfu. set (cs := cons_of ilist mlist) in *. assert (forall c, In c cs -> csmall c) as Hsm by (intros c; now apply range_small).
  unfold py_qisi. destruct (py_lists_cases ilist mlist Hr) as [[Hv ->]|[Hv (e & ->)]]; cbn [bind]; eauto.
  fold cs. unfold qisi_new. pose proof Hr as [_ Hprod]. fold cs in Hprod.
  destruct (micro_new_spec (T := Z) cs Hsm Hprod) as [(s & Hvc & E)|[_ (e & E)]]; rewrite E; cbn [bind]; eauto. clear E.
  pose proof Hvc as (Hl2 & Himp & Hd2 & _). cbn [ms_sizes].
  destruct (Nat.le_gt_cases (length s) 1111) as [Hdim|Hdim].
  2:{ unfold sobol_new. destruct (N.ltb_spec (N.of_nat (length s)) 1); [lia|].
      destruct (N.ltb_spec 1111 (N.of_nat (length s))); [|lia]. cbn [orb bind]. eauto. }
  destruct (sobol_new_ok (N.of_nat (length s)) 0 fuel ltac:(lia) ltac:(lia) ltac:(lia)) as (cols & s0 & Es & Htab & Hdir & Him & Hview).
  rewrite Es. cbn [bind]. pose proof (u32_range skips) as Hu. cbn [N.ltb N.compare] in Hview.
  destruct (skip_cases cols _ s0 (Z.to_N (u32 skips)) fuel Hdir Hview ltac:(lia)) as [[Ek Hk]|(sb & Ek & Hsb & Hk)]; rewrite Ek; cbn [bind]; [exfalso; lia|].
  rewrite (as_nd_ok d_zero) by auto. cbn [bind]. unfold qisi_solve. cbn [qi_ms ms_array]. rewrite sizes_mk, sizes_mkp.
  destruct (check_seed_cases (shape seed) s) as [[Esz Ec]|[_ (e & Ec)]]; [subst s; tauto|]. rewrite Ec. cbn [bind]. eauto.
Qed.

(** C11: the generator moved by skips is never read *)
Lemma qisi_skips_claim L fuel seed ilist mlist s s' : (32 <= fuel)%nat -> u32 s <= 2 ^ 31 -> u32 s' <= 2 ^ 31 ->
  py_qisi L fuel seed ilist mlist s = py_qisi L fuel seed ilist mlist s'.
Proof.
  intros Hf Hs Hs'. unfold py_qisi. destruct (py_lists to_nd ilist mlist) as [[ix mg]| | |]; cbn [bind]; auto. unfold qisi_new.
  destruct (micro_new IntMarg ix mg) as [ms| | |]; cbn [bind]; auto. set (n := N.of_nat (length (ms_sizes ms))).
  destruct (sobol_new fuel n 0) as [sb| | |] eqn:E; cbn [bind]; auto.
  assert (1 <= n <= 1111)%N as Hn.
  { unfold sobol_new in E. destruct (N.ltb_spec n 1); [discriminate|]. destruct (N.ltb_spec 1111 n); [discriminate|]. lia. }
  destruct (sobol_new_ok n 0 fuel Hn ltac:(lia) Hf) as (cols & s0 & Es & _ & Hdir & _ & Hview). rewrite E in Es. injection Es as <-.
  cbn [N.ltb N.compare] in Hview. pose proof (u32_range s) as Hu. pose proof (u32_range s') as Hu'.
  destruct (skip_cases cols _ sb (Z.to_N (u32 s)) fuel Hdir Hview ltac:(lia)) as [[_ Hk]|(s1 & -> & _ & _)]; [exfalso; lia|].
  destruct (skip_cases cols _ sb (Z.to_N (u32 s')) fuel Hdir Hview ltac:(lia)) as [[_ Hk]|(s2 & -> & _ & _)]; [exfalso; lia|].
  cbn [bind]. destruct (as_nd seed); cbn [bind]; auto.
Qed.

(** C14: an accepted marginal on all dimensions hangs the first recomputation *)
Lemma qisi_covering_claim L fuel seed ilist mlist skips : qisi_range ilist mlist seed -> let cs := cons_of ilist mlist in
  vectors ilist mlist -> valid cs -> implied cs (shape seed) -> (length (shape seed) <= 1111)%nat ->
  (forall c, In c cs -> NoDup (c_dims c)) -> (exists c, In c cs /\ length (c_dims c) = length (shape seed)) ->
  prodZ (shape seed) < Z.of_nat fuel -> py_qisi L fuel seed ilist mlist skips = Diverge.
Proof.
  intros (Hr & H61 & Hw & Hs60) cs Hv Hval Hi Hd Hnd Hex Hfu. assert (forall c, In c cs -> csmall c) as Hsm by (intros c; now apply range_small).
  set (sizes := shape seed) in *. pose proof (wf_fits _ Hw Hs60) as Hf. fold sizes in Hf.
  pose proof (valid_code_of_valid cs Hsm Hval sizes Hi) as Hvc0.
  unfold py_qisi. destruct (py_lists_cases ilist mlist Hr) as [[_ ->]|[Hv' _]]; [|tauto]. cbn [bind].
  fold cs. unfold qisi_new. pose proof Hr as [_ Hprod]. fold cs in Hprod.
  destruct (micro_new_spec (T := Z) cs Hsm Hprod) as [(s & Hvc & E)|[Hno _]]; [|exfalso; eauto]. rewrite E. cbn [bind]. clear E.
  pose proof Hvc as (Hl2 & Himp & Hd2 & Hnn & Hpop & Hag). pose proof (implied_unique _ _ _ Himp Hi) as ->. cbn [ms_sizes].
  set (pop := pop_of (c_total (hd con0 cs))) in *.
  destruct (sobol_new_ok (N.of_nat (length sizes)) 0 (Nat.max fuel 32) ltac:(lia) ltac:(lia) ltac:(lia)) as (cols & s0 & Es & Htab & Hdir & Him & Hview).
  cbn [N.ltb N.compare] in Hview.
  assert (sobol_new fuel (N.of_nat (length sizes)) 0 = Ok s0) as Es'.
  { unfold sobol_new in *. destruct ((N.of_nat (length sizes) <? 1)%N || (1111 <? N.of_nat (length sizes))%N)%bool; auto. }
  rewrite Es'. cbn [bind]. pose proof (u32_range skips) as Hu.
  destruct (skip_cases cols _ s0 (Z.to_N (u32 skips)) fuel Hdir Hview ltac:(lia)) as [[Ek Hk]|(sb & Ek & Hsb & Hk)]; rewrite Ek; cbn [bind]; auto.
  rewrite (as_nd_ok d_zero) by auto. cbn [bind]. unfold qisi_solve. cbn [qi_ms ms_array ms_indices ms_sizes ms_pop].
  fold sizes. rewrite sizes_mk, sizes_mkp, check_seed_same. cbn [bind]. rewrite !nd_new_ok by auto. cbn [bind].
  assert (recompute_ipf fuel (map c_dims cs) (map nd_of cs) (mk sizes (entry d_zero seed)) (mkp sizes (fun _ => None)) = Diverge) as ->; auto.
  unfold recompute_ipf. destruct (micro_new_spec (T := double) cs Hsm Hprod) as [(s' & Hvc' & E)|[Hno _]]; [|exfalso; eauto]. rewrite E. cbn [bind].
  pose proof (implied_unique _ _ _ (proj1 (proj2 Hvc')) Hi) as ->. clear E Hvc'.
  assert (forall x (k : ipf_state (T := double) -> outcome (nd double)), x = Diverge -> bind x k = Diverge) as B by (intros x k ->; reflexivity). apply B. clear B.
  unfold ipf_solve. cbn [ms_array ms_indices]. rewrite sizes_mk, sizes_mkp, check_seed_same. cbn [bind].
  rewrite index_new_ok by now apply fits_ne. cbn [bind]. rewrite make_mappings_ok by auto. cbn [bind].
  rewrite copy_seed_ok by auto. cbn [bind].
  set (gcs := map (fun c => GC (c_dims c) (c_sizes c) (c_at c)) cs).
  assert (map c_dims cs = map g_dims gcs) as -> by (unfold gcs; now rewrite map_map).
  assert (map nd_of cs = map gnd gcs) as -> by (unfold gcs; now rewrite map_map).
  assert (forall c, In c gcs -> fits (g_sizes c)) as Hfg.
  { intros c Hc. apply in_map_iff in Hc as (c' & <- & Hc'). apply (Hsm c' Hc'). }
  assert (forall l, incl l gcs -> mapM (fun m : nd Z => nd_new (T := double) (nd_sizes m)) (map gnd l) = Ok (map (fun c => mkp (g_sizes c) (fun _ => None)) l)) as Hnew.
  { induction l as [|c l IH]; intros Hinc; simpl; auto. rewrite nd_new_ok by (apply Hfg, Hinc; now left). cbn [bind].
    rewrite IH by (intros x Hx; apply Hinc; now right). reflexivity. }
  rewrite !(Hnew gcs (incl_refl _)). cbn [bind]. change (Z.to_nat 1000) with (S 999). cbn [ipf_loop].
  rewrite (rscale_diverges (DblScale d_ofZ) d_add); auto.
  - intros c Hc. apply in_map_iff in Hc as (c' & <- & Hc').
    pose proof (cdims cs sizes Himp c' Hc') as Hcd. pose proof (csizes cs sizes Himp c' Hc') as Hcs. pose proof (clen cs sizes Himp c' Hc') as Hcl.
    destruct (Hsm c' Hc') as ((Hne & _) & _). specialize (Hnd c' Hc'). cbn [g_dims g_sizes].
    assert (c_dims c' <> []) as Hne' by (intros E0; rewrite E0 in Hcl; destruct (c_sizes c'); [now apply Hne|discriminate]).
    assert (length (c_dims c') <= length sizes)%nat as Hle.
    { assert (incl (c_dims c') (zrange (Z.of_nat (length sizes)))) as Hinc.
      { intros x Hx. apply in_zrange. unfold valid_dims in Hcd. rewrite Forall_forall in Hcd. now apply Hcd. }
      apply NoDup_incl_length in Hinc; auto. rewrite length_zrange in Hinc. lia. }
    destruct (Nat.eq_dec (length (c_dims c')) (length sizes)) as [El|Nl]; [right|left].
    + repeat (split; [now auto|]). auto.
    + unfold well_indexed. cbn [g_dims g_sizes]. repeat (split; [solve [auto]|]). split; [lia|auto].
  - destruct Hex as (c & Hc & El). eexists. split; [apply in_map, Hc|]. auto.
Qed.
