(** The calls of ipf and qisi with a multiple of a seed. *)
From Coq Require Import Reals Psatz QArith Qcanon.
From Flocq Require Import Core.Core IEEE754.BinarySingleNaN.
From Verif Require Import Base Spec SpecFacts NDArray IndexProofs Float64 FloatProofs FloatExt ArrayOps ArrayProofs Bind BindProofs
  SobolTable SobolSpec Sobol SobolTableProofs SobolProofs SobolClaims Micro Stat Qis SynthSpec MicroProofs PickProofs SampleProofs SplitProofs
  QisProofs StatProofs QisClaims Ipf IpfSpec IpfProofs MicroDbl IpfClaims IpfDbl IpfExact IpfExamples Qisi QisiProofs QisiClaims QisiExamples SeedSpec SeedProofs.
Open Scope Z_scope.

Lemma entry_times k seed i : -200 <= k <= 200 -> entry d_zero (times k seed) i = d_mul (entry d_zero seed i) (d_lit 1 k).
Proof.
  intros Hk. unfold entry. cbn [shape flat times]. rewrite <- (times_zero k Hk) at 1. exact (map_nth (fun x => d_mul x (d_lit 1 k)) (flat seed) d_zero _).
Qed.
Lemma moderate_entry a i : Forall moderate (flat a) -> moderate (entry d_zero a i).
Proof.
  intros H. unfold entry. match goal with |- moderate (nth ?n ?l ?d) => destruct (nth_in_or_default n l d) as [E| ->]; [|now left] end.
  rewrite Forall_forall in H. now apply H.
Qed.
Lemma wf_times k seed : wf_array seed -> wf_array (times k seed).
Proof. intros (H1 & H2 & H3). split; auto. split; auto. cbn [times flat shape]. now rewrite map_length. Qed.

Lemma ipf_times_claim fuel seed ilist mlist k : d_range ilist mlist -> all_proper d_zero ilist mlist -> wf_array seed ->
  prodZ (shape seed) < 2 ^ 60 -> prodZ (shape seed) < Z.of_nat fuel -> -200 <= k <= 200 -> Forall moderate (flat seed) ->
  (forall m, hd_error mlist = Some m -> Forall moderate (flat m)) ->
  py_ipf fuel (times k seed) ilist mlist = py_ipf fuel seed ilist mlist.
Proof.
  intros Hr Hpr Hw Hs Hfu Hk Hseed Hm. unfold py_ipf. apply (seed_same DblMarg (DblScale (fun m => m)) DblErr d_add d_add d_zero d_zero); auto.
  - apply dpop_cases.
  - now apply wf_times.
  - intros c cs pop Ec Ha Hwi i Hi.
    rewrite <- (step_times k Hk (fun m => m) (shape seed) (entry d_zero seed)); auto.
    + apply step_alike; auto. intros j _. now apply entry_times.
    + intros j _. now apply moderate_entry.
    + intros j _. unfold gcons_of in Ec. destruct ilist as [|i0 il]; [discriminate|]. destruct mlist as [|m ml]; [discriminate|].
      injection Ec as <- _. cbn [gcon_of g_at fst snd]. apply moderate_entry. now apply Hm.
Qed.

(** * Exact arithmetic *)

Lemma qsum_mul q l : forall a b, b = (q * a)%Qc -> fold_left Qcplus (map (Qcmult q) l) b = (q * fold_left Qcplus l a)%Qc.
Proof. induction l as [|x l IH]; intros a b ->; cbn [map fold_left]; auto. apply IH. ring. Qed.
Lemma step_timesQ q sizes (c : gcon Qc) f : q <> 0%Qc -> alike sizes (step QcScale Qcplus sizes c (fun i => (q * f i)%Qc)) (step QcScale Qcplus sizes c f).
Proof.
  intros Hq i Hi. unfold step, scaled. cbn [sc_num sc_scale QcScale n_eqb n_zero QcOps]. unfold gmargin. cbn [n_zero sc_num QcScale QcOps].
  rewrite <- (map_map f (Qcmult q)). rewrite (qsum_mul q _ 0%Qc 0%Qc) by ring. set (s := fold_left Qcplus _ 0%Qc).
  destruct (Qc_eq_bool s 0) eqn:E.
  - apply qc_eqb in E. rewrite E. replace (q * 0)%Qc with 0%Qc by ring. destruct (Qc_eq_bool 0 0) eqn:E0; [reflexivity|].
    assert (Qc_eq_bool 0 0 = true) by now apply qc_eqb. congruence.
  - assert (s <> 0%Qc) as Hs by (intros Z; apply qc_eqb in Z; congruence).
    destruct (Qc_eq_bool (q * s) 0) eqn:E1.
    + apply qc_eqb in E1. apply Qcmult_integral in E1 as [E1|E1]; contradiction.
    + field. split; auto.
Qed.
Lemma ipf_exact_times_claim fuel seed ilist mlist q : g_range 0%Qc ilist mlist -> all_proper 0%Qc ilist mlist -> wf_array seed ->
  prodZ (shape seed) < 2 ^ 60 -> prodZ (shape seed) < Z.of_nat fuel -> q <> 0%Qc ->
  py_ipf_exact fuel (timesQ q seed) ilist mlist = py_ipf_exact fuel seed ilist mlist.
Proof.
  intros Hr Hpr Hw Hs Hfu Hq. unfold py_ipf_exact. apply (seed_same QcMarg QcScale QcErr Qcplus Qcplus 0%Qc 0%Qc); auto.
  - apply qpop_cases.
  - destruct Hw as (H1 & H2 & H3). split; auto. split; auto. cbn [timesQ flat shape]. now rewrite map_length.
  - intros c cs pop Ec Ha Hwi i Hi. rewrite <- (step_timesQ q (shape seed) c (entry 0%Qc seed) Hq i Hi). apply step_alike; auto.
    intros j _. unfold entry. cbn [shape flat timesQ]. replace 0%Qc with (q * 0)%Qc at 1 by ring. apply map_nth.
Qed.

(** * qisi *)

Lemma moderate_ofZ z : 0 <= z < 2 ^ 63 -> moderate (d_ofZ z).
Proof.
  intros Hz. destruct (Z.eq_dec z 0) as [->|N]; [left; reflexivity|right].
  destruct (d_ofZ_round z) as [F E].
  { rewrite Z.abs_eq by lia. apply Z.le_trans with (2 ^ 63); [lia|]. apply Z.pow_le_mono_r; lia. }
  split; auto. rewrite E. split.
  - apply Rle_trans with (p2 0); [apply bpow_le; lia|]. apply RN_ge_repr; [apply repr_p2; lia|]. apply (IZR_le 1). lia.
  - apply Rle_trans with (p2 63); [|apply bpow_le; lia]. apply RN_le_repr; [apply repr_p2; lia|]. rewrite <- IZR_p2 by lia. apply IZR_le. lia.
Qed.

Section Loop.
Context (cs : list con) (sizes : list Z).
Context (Hsm : forall c, In c cs -> csmall c) (Himp : implied cs sizes) (Hfit : fits sizes) (Hnn : forall c, In c cs -> nonneg c).
Context (H61 : forall c, In c cs -> c_total c < 2 ^ 61) (H2 : (2 <= length sizes)%nat) (H63 : Z.of_nat (length sizes) < 2 ^ 63).
Context (fuel : nat) (seed seed' : list Z -> double) (Hgood : good cs sizes fuel).
Context (k : Z) (Hk : -200 <= k <= 200) (Hseed : forall i, index_in sizes i -> moderate (seed i)).
Context (Htimes : forall i, index_in sizes i -> seed' i = d_mul (seed i) (d_lit 1 k)).

Lemma total_entry c j : index_in (c_sizes c) j -> Z.abs (c_at c j) <= total (c_sizes c) (fun j => Z.abs (c_at c j)).
Proof.
  intros Hj. unfold total. apply in_all_indices in Hj. induction (all_indices (c_sizes c)) as [|x l IH]; [easy|].
  cbn [map sumZ fold_right]. fold (sumZ (map (fun j => Z.abs (c_at c j)) l)).
  assert (0 <= sumZ (map (fun j => Z.abs (c_at c j)) l)) by (apply sumZ_nonneg; intros y Hy; apply in_map_iff in Hy as (z & <- & _); lia).
  destruct Hj as [->|Hj]; [lia|]. specialize (IH Hj). lia.
Qed.

Lemma recompute_times r t h : counts sizes t r -> t < 2 ^ 32 ->
  recompute_ipf fuel (map c_dims cs) (rems cs sizes r) (mk sizes seed') (mkp sizes h) =
  recompute_ipf fuel (map c_dims cs) (rems cs sizes r) (mk sizes seed) (mkp sizes h).
Proof.
  intros Hc Hb. unfold recompute_ipf.
  assert (rems cs sizes r = map nd_of (map (rcon sizes r) cs)) as Em by (unfold rems; now rewrite map_map).
  assert (map c_dims cs = map c_dims (map (rcon sizes r) cs)) as Ed by now rewrite map_map.
  destruct (micro_new_spec (T := double) (map (rcon sizes r) cs)) as [(s & Hv & E1)|[_ (e & E1)]].
  { intros c Hin. apply in_map_iff in Hin as (c' & <- & Hin). now apply (rcon_small cs sizes Hsm Himp Hnn H61 H2 r t). }
  { intros s Hs. apply implied_rcon in Hs. rewrite (implied_unique _ _ _ Hs Himp). now apply fits_prod. }
  2:{ rewrite <- Em, <- Ed in E1. rewrite E1. reflexivity. }
  destruct Hv as (Hl2 & Hi & _ & Hng & _). apply implied_rcon in Hi. pose proof (implied_unique _ _ _ Hi Himp) as ->. clear Hi.
  rewrite <- Em, <- Ed in E1. rewrite E1. cbn [bind]. clear E1.
  set (pop := pop_of _). clearbody pop. rewrite Em, Ed, !map_map.
  change (map (fun x => c_dims (rcon sizes r x)) cs) with (map (fun x => g_dims (gc sizes r x)) cs). rewrite <- (map_map (gc sizes r) g_dims).
  change (map (fun x => nd_of (rcon sizes r x)) cs) with (map (fun x => gnd (gc sizes r x)) cs). rewrite <- (map_map (gc sizes r) gnd).
  assert (forall c, In c (map (gc sizes r) cs) -> well_indexed sizes c) as Hwi.
  { destruct Hgood as [Hp _]. intros c Hin. apply in_map_iff in Hin as (c' & <- & Hin). destruct (Hp c' Hin) as [Hnd Hlt].
    pose proof (cdims cs sizes Himp c' Hin). pose proof (csizes cs sizes Himp c' Hin) as Hs. pose proof (clen cs sizes Himp c' Hin) as Hlc.
    destruct (Hsm c' Hin) as ((Hne & _) & _). split; [|now auto]. cbn [gc g_dims]. intros E0. rewrite E0 in Hlc.
    destruct (c_sizes c'); [now apply Hne|discriminate]. }
  assert (prodZ sizes < Z.of_nat fuel) as Hfu by apply Hgood.
  rewrite (ipf_solve_ok (DblScale d_ofZ) DblErr d_add sizes _ (fun _ _ => eq_refl) Hfit Hwi fuel Hfu _ seed').
  rewrite (ipf_solve_ok (DblScale d_ofZ) DblErr d_add sizes _ (fun _ _ => eq_refl) Hfit Hwi fuel Hfu _ seed).
  rewrite map_length in Hl2. destruct cs as [|c0 cs'] eqn:Ecs; [simpl in Hl2; lia|]. cbn [map]. change (Z.to_nat 1000) with (S 999).
  assert (alike sizes (step (DblScale d_ofZ) d_add sizes (gc sizes r c0) seed') (step (DblScale d_ofZ) d_add sizes (gc sizes r c0) seed)) as Hst.
  { intros i Hi. rewrite <- (step_times k Hk d_ofZ sizes seed Hseed (gc sizes r c0)); auto.
    - apply step_alike; auto.
    - intros j Hj. cbn [gc g_at g_dims]. apply moderate_ofZ.
      assert (index_in (c_sizes c0) (proj (c_dims c0) j)) as Hpj.
      { rewrite <- (csizes _ sizes Himp c0 (or_introl eq_refl)). apply index_in_valid_proj; auto. apply (cdims _ sizes Himp). now left. }
      assert (In (rcon sizes r c0) (map (rcon sizes r) (c0 :: cs'))) as Hin by now left.
      split; [exact (Hng _ Hin _ Hpj)|].
      destruct (rcon_small _ sizes Hsm Himp Hnn H61 H2 r t c0 (or_introl eq_refl) Hc Hb) as (_ & _ & Ht).
      pose proof (total_entry (rcon sizes r c0) _ Hpj) as Hte. cbn [rcon c_at c_sizes] in Hte, Ht. lia. }
  destruct (sweeps_first (DblScale d_ofZ) DblErr d_add sizes (gc sizes r c0) (map (gc sizes r) cs') 999 seed' seed 0 Hst) as [A _].
  destruct (sweeps (DblScale d_ofZ) DblErr d_add sizes (gc sizes r c0 :: map (gc sizes r) cs') (S 999) seed' 0) as [f' n'].
  destruct (sweeps (DblScale d_ofZ) DblErr d_add sizes (gc sizes r c0 :: map (gc sizes r) cs') (S 999) seed 0) as [f n]. cbn [fst] in A.
  cbn [bind is_arr]. now rewrite (mk_ext sizes f' f) by exact A.
Qed.

Context (cols : list (list N)) (Hcols : length cols = length sizes) (Hdir : Forall valid_directions cols).

Lemma qisi_step_times t s : 0 <= t -> iinv cs sizes cols t s ->
  qisi_step fuel (map c_dims cs) (mk sizes seed') s = qisi_step fuel (map c_dims cs) (mk sizes seed) s.
Proof.
  intros Ht0 (r & v & f & Hv & Hn & Hc & Em & Ea & Ecv & Ef & Hl). unfold qisi_step.
  pose proof (view_n_le _ _ _ Hv) as Hle. destruct (N.eq_dec (v_n v) limit) as [El|Nl].
  - rewrite (sobol_buf_end cols v _ Hv El). reflexivity.
  - destruct (sobol_buf_ok cols v _ Hdir Hv) as (sb & Eb & Hv'); [lia|]. rewrite Eb. cbn [bind].
    assert (0 <= t < 2 ^ 32 - 1) as Hb by (unfold limit in *; lia).
    assert (length (point_of cols (v_n v + 1)) = length sizes) as Hlp by (rewrite <- Hcols; unfold point_of; now rewrite map_length).
    rewrite Ef, sizes_mk.
    destruct (get_index_cases sizes f (point_of cols (v_n v + 1)) (i_main s) Hfit H2 H63 Hlp Hl) as [(e & ->)|(main & -> & Hm)]; cbn [bind]; auto.
    rewrite Ea, (increment_ok sizes Hfit r t main) by (auto; lia). cbn [bind]. rewrite Em.
    destruct (decrement_ok cs sizes Hsm Himp Hnn r t main (i_conv s) Hc ltac:(lia) Hm) as (conv' & -> & Hcv). cbn [bind].
    rewrite nd_get_mk by auto. cbn [bind]. rewrite nd_set_mk by auto. cbn [bind]. rewrite nd_get_mk by auto. cbn [bind].
    pose proof (counts_inc sizes t r main Hm Hc) as Hc'. destruct (d_ltb _ d_zero); [|reflexivity].
    pose proof (recompute_times (inc r main) (t + 1) (fun i => Some (fupd f main (d_sub (f main) d_one) i)) Hc' ltac:(lia)) as Hrc.
    fold (mk sizes (fupd f main (d_sub (f main) d_one))) in Hrc. rewrite Hrc. reflexivity.
Qed.

Lemma qisi_loop_times n : forall t s, 0 <= t -> iinv cs sizes cols t s ->
  foldM (fun (_ : unit) s => qisi_step fuel (map c_dims cs) (mk sizes seed') s) (repeat tt n) s =
  foldM (fun (_ : unit) s => qisi_step fuel (map c_dims cs) (mk sizes seed) s) (repeat tt n) s.
Proof.
  induction n as [|n IH]; intros t s Ht Hi; [reflexivity|]. simpl repeat. cbn [foldM]. rewrite (qisi_step_times t s Ht Hi).
  pose proof (qisi_step_cases cs sizes Hsm Himp Hfit Hnn H61 H2 H63 fuel seed cols Hcols Hdir t s Ht Hi) as H.
  destruct (qisi_step fuel (map c_dims cs) (mk sizes seed) s) as [s1| | |]; cbn [bind]; auto. apply (IH (t + 1)); auto. lia.
Qed.
End Loop.

Lemma qisi_core_times L fuel seed cs skips k : (forall c, In c cs -> csmall c) -> (forall sizes, implied cs sizes -> prodZ sizes < 2 ^ 60) ->
  (forall c, In c cs -> c_total c < 2 ^ 61) -> wf_array seed -> prodZ (shape seed) < 2 ^ 60 ->
  (forall c, In c cs -> proper (length (shape seed)) (c_dims c)) -> prodZ (shape seed) < Z.of_nat fuel -> -200 <= k <= 200 -> Forall moderate (flat seed) ->
  qisi_core L fuel (times k seed) cs skips = qisi_core L fuel seed cs skips.
Proof.
  intros Hsm Hprod H61 Hw Hs60 Hprop Hfu Hk Hsd. set (sizes := shape seed) in *. unfold qisi_core, qisi_new.
  destruct (micro_new_spec (T := Z) cs Hsm Hprod) as [(s & Hvc & E)|[Hno (e & E)]]; rewrite E; cbn [bind]; [|reflexivity]. clear E.
  pose proof Hvc as (Hl2 & Himp & Hd2 & Hnn & Hpop & Hag).
  assert (fits s) as Hfit by (apply (implied_fits cs); auto). cbn [ms_sizes].
  set (pop := pop_of (c_total (hd con0 cs))) in *.
  destruct (Nat.le_gt_cases (length s) 1111) as [Hdim|Hdim].
  2:{ unfold sobol_new. destruct (N.ltb_spec (N.of_nat (length s)) 1); [lia|].
      destruct (N.ltb_spec 1111 (N.of_nat (length s))); [|lia]. reflexivity. }
  destruct (sobol_new_ok (N.of_nat (length s)) 0 (Nat.max fuel 32) ltac:(lia) ltac:(lia) ltac:(lia)) as (cols & s0 & Es & Htab & Hdir & Him & Hview).
  rewrite Nat2N.id in Htab. cbn [N.ltb N.compare] in Hview.
  assert (sobol_new fuel (N.of_nat (length s)) 0 = Ok s0) as Es'.
  { unfold sobol_new in *. destruct ((N.of_nat (length s) <? 1)%N || (1111 <? N.of_nat (length s))%N)%bool; auto. }
  rewrite Es'. cbn [bind]. destruct (sobol_do_skip _ _ _) as [sb| | |]; cbn [bind]; try reflexivity.
  rewrite (as_nd_ok d_zero seed), (as_nd_ok d_zero (times k seed)) by (auto using wf_times). cbn [bind]. unfold qisi_solve. cbn [qi_ms ms_array ms_indices ms_sizes ms_pop].
  change (shape (times k seed)) with (shape seed). fold sizes. rewrite !sizes_mk, sizes_mkp.
  destruct (check_seed_cases sizes s) as [[Esz Ec]|[_ (e & Ec)]]; rewrite Ec; cbn [bind]; [|reflexivity]. subst s. clear Ec.
  rewrite !nd_new_ok by auto. cbn [bind]. assert (length cols = length sizes) as Hlc by (destruct Htab; auto).
  assert (counts sizes 0 (fun _ => 0)) as Hc0 by (split; [lia|]; unfold total; rewrite sumZ_map_const; lia).
  assert (forall i, index_in sizes i -> moderate (entry d_zero seed i)) as Hmod by (intros i _; now apply moderate_entry).
  assert (forall i, index_in sizes i -> entry d_zero (times k seed) i = d_mul (entry d_zero seed i) (d_lit 1 k)) as Htm by (intros i _; now apply entry_times).
  pose proof (recompute_times cs sizes Hsm Himp Hfit Hnn H61 Hd2 fuel (entry d_zero seed) (entry d_zero (times k seed)) (conj Hprop Hfu) k Hk Hmod Htm (fun _ => 0) 0 (fun _ => None) Hc0 ltac:(lia)) as Hrc.
  rewrite rems_zero in Hrc. rewrite Hrc.
  pose proof (recompute_cases cs sizes Hsm Himp Hfit Hnn H61 Hd2 fuel (entry d_zero seed) (fun _ => 0) 0 (fun _ => None) Hc0 ltac:(lia)) as Hcs.
  rewrite rems_zero in Hcs.
  destruct (recompute_ipf fuel (map c_dims cs) (map nd_of cs) (mk sizes (entry d_zero seed)) (mkp sizes (fun _ => None))) as [sol|e|w|]; cbn [bind]; [|reflexivity|reflexivity|reflexivity].
  destruct Hcs as [f ->]. rewrite nd_copy_same by auto. cbn [bind]. rewrite index_new_ok by auto. cbn [bind].
  rewrite make_mappings_ok by auto. cbn [bind]. rewrite nd_assign_mkp by auto. cbn [bind]. rewrite Es'. cbn [bind ix_idx].
  assert (iinv cs sizes cols 0 (QIS s0 (repeat 0 (length sizes)) (map nd_of cs) (mk sizes (fun _ => 0)) true (mk sizes f))) as Hi0.
  { exists (fun _ => 0), (SV 0 0 (N.of_nat (length sizes))), f. cbn [i_sobol i_main i_margs i_arr i_conv i_sol v_n].
    split; auto. split; auto. split; auto. split; [now rewrite rems_zero|]. split; auto. split; [|split; auto; apply repeat_length].
    split; auto. intros _ c j Hc Hj. unfold rem, margin, sum_where. rewrite sumZ_map_const. pose proof (Hnn c Hc j Hj). lia. }
  pose proof (qisi_loop_times cs sizes Hsm Himp Hfit Hnn H61 Hd2 ltac:(lia) fuel (entry d_zero seed) (entry d_zero (times k seed)) (conj Hprop Hfu) k Hk Hmod Htm cols Hlc Hdir (Z.to_nat pop) 0 _ ltac:(lia) Hi0) as Hlp.
  unfold repeatM. fold pop.
  rewrite Hlp. reflexivity.
Qed.

Lemma qisi_times_claim L fuel seed ilist mlist skips k : qisi_range ilist mlist seed -> qisi_good fuel ilist mlist seed ->
  -200 <= k <= 200 -> Forall moderate (flat seed) ->
  py_qisi L fuel (times k seed) ilist mlist skips = py_qisi L fuel seed ilist mlist skips.
Proof.
  intros (Hr & H61 & Hw & Hs) (Hp & Hfu) Hk Hsd. destruct (py_lists_cases ilist mlist Hr) as [[Hv _]|[_ (e & E)]].
  - rewrite !py_qisi_core by auto. rewrite qisi_core_times; auto.
    + intros c Hc. now apply (range_small ilist mlist).
    + apply Hr.
  - unfold py_qisi. rewrite E. reflexivity.
Qed.

(** * Examples *)

(** a test for [moderate] on small whole numbers *)
Lemma moderate_dz l : Forall (fun z => 0 <= z < 2 ^ 63) l -> Forall moderate (dz l).
Proof. intros H. unfold dz. apply Forall_map. eapply Forall_impl; [|exact H]. intros z Hz. now apply moderate_ofZ. Qed.

Definition exT_s : ndarray double := NDA [2; 2] (dz [1; 1; 2; 3]).
Definition exT_3 : ndarray double := NDA [2; 2] (dz [3; 3; 6; 9]).
Definition exT_1 : ndarray double := NDA [2; 2] (dz [1; 1; 1; 1]).

Lemma thrice_by (o o' : outcome (ipf_result double)) : match o, o' with
    | Ok r, Ok r' => ir_conv r && ir_conv r' && negb (d_eqb (entry d_zero (ir_array r) [0; 1]) (entry d_zero (ir_array r') [0; 1])) && negb (is_nan (entry d_zero (ir_array r) [0; 1]))
    | _, _ => false end = true ->
  exists r r', o = Ok r /\ o' = Ok r' /\ ir_conv r = true /\ ir_conv r' = true /\
    exists i, index_in [2; 2] i /\ entry d_zero (ir_array r) i <> entry d_zero (ir_array r') i.
Proof.
  intros H. destruct o as [r| | |]; try discriminate. destruct o' as [r'| | |]; try discriminate.
  apply andb_true_iff in H as [H H4]. apply andb_true_iff in H as [H H3]. apply andb_true_iff in H as [H1 H2].
  exists r, r'. split; [reflexivity|]. split; [reflexivity|]. split; [exact H1|]. split; [exact H2|]. exists [0; 1]. split; [repeat constructor; lia|].
  intros E. rewrite <- E in H3. apply negb_true_iff in H3, H4. unfold d_eqb in H3. rewrite Beqb_refl, H4 in H3. discriminate.
Qed.
(** three times the seed: another result, in the last bit of a cell *)
Lemma thrice_claim : exists r r', py_ipf 5 exT_s exI_i exI_m = Ok r /\ py_ipf 5 exT_3 exI_i exI_m = Ok r' /\
  ir_conv r = true /\ ir_conv r' = true /\ exists i, index_in [2; 2] i /\ entry d_zero (ir_array r) i <> entry d_zero (ir_array r') i.
Proof. apply thrice_by. vm_compute. reflexivity. Qed.

Lemma overflow_times_by (o o' : outcome (ipf_result double)) : match o, o' with
    | Ok r, Ok r' => ir_conv r && (ir_iters r =? 1) && negb (ir_conv r') && forallb (fun x => match x with B754_zero false => true | _ => false end) (flat (ir_array r'))
    | _, _ => false end = true ->
  exists r r', o = Ok r /\ o' = Ok r' /\ Forall (fun x => is_finite x = true) (flat (times 1023 exT_1)) /\
    ir_conv r = true /\ ir_iters r = 1 /\ ir_conv r' = false /\ Forall (fun x => x = d_zero) (flat (ir_array (T := double) r')).
Proof.
  intros H. destruct o as [r| | |]; try discriminate. destruct o' as [r'| | |]; try discriminate.
  apply andb_true_iff in H as [H H4]. apply andb_true_iff in H as [H H3]. apply andb_true_iff in H as [H1 H2].
  exists r, r'. split; [reflexivity|]. split; [reflexivity|]. split.
  { apply Forall_forall. intros x Hx. assert (forallb is_finite (flat (times 1023 exT_1)) = true) as F by (vm_compute; reflexivity).
    rewrite forallb_forall in F. now apply F. }
  split; [exact H1|]. split; [now apply Z.eqb_eq|]. split; [now apply negb_true_iff|].
  apply Forall_forall. intros x Hx. rewrite forallb_forall in H4. specialize (H4 x Hx). destruct x as [[]| | |]; try discriminate. reflexivity.
Qed.
(** a seed so large that its sums overflow: ipf converges on the seed, and on 2^1023 times the seed returns zeros *)
Lemma overflow_times_claim : exists r r', py_ipf 5 exT_1 exI_i exI_m = Ok r /\ py_ipf 5 (times 1023 exT_1) exI_i exI_m = Ok r' /\
  Forall (fun x => is_finite x = true) (flat (times 1023 exT_1)) /\
  ir_conv r = true /\ ir_iters r = 1 /\ ir_conv r' = false /\ Forall (fun x => x = d_zero) (flat (ir_array r')).
Proof. apply overflow_times_by. vm_compute. reflexivity. Qed.
