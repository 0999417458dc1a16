(** integerise of an array with two or more dimensions: a zero stays a zero. *)
From Coq Require Import Reals Psatz.
From Flocq Require Import Core.Core IEEE754.BinarySingleNaN.
From Verif Require Import Base Spec SpecFacts NDArray IndexProofs Float64 FloatProofs FloatExt ArrayOps ArrayProofs Bind BindProofs RealSpec
  Sobol Micro Stat Qis SynthSpec MicroProofs QisProofs QisClaims Ipf IpfSpec IpfProofs IpfClaims Qisi QisiProofs QisiClaims QisiZeros
  Integerise IntegeriseSpec IntegeriseNd.
Open Scope Z_scope.

Lemma nd_zero_claim L fuel a res conv rmse : nd_range a -> prodZ (shape a) < Z.of_nat fuel ->
  py_integerise L fuel a = Ok (res, conv, rmse) ->
  forall i, index_in (shape a) i -> d_eqb (entry d_zero a i) d_zero = true -> entry 0 res i = 0.
Proof.
  intros Ha Hfu E. pose proof (nd_cases a Ha L fuel) as Hcases. rewrite E in Hcases. destruct Hcases as (r0 & Er0 & _).
  pose proof (a_fits a Ha) as Hf. pose proof (fits_prod _ Hf) as Hfp. pose proof Ha as (Hw & Hd2 & Hp40 & Hnn & _).
  unfold py_integerise in E. rewrite (as_nd_ok d_zero) in E by (auto; lia). cbn [bind] in E.
  unfold integeriser_new in E. rewrite sizes_mk in E. destruct (nd_sum _ _) as [tot| | |]; cbn [bind] in E; try discriminate.
  destruct (checked_round tot); cbn [bind] in E; try discriminate.
  destruct (Z.eqb_spec (Z.of_nat (length (shape a))) 1) as [E1|N1]; [lia|].
  destruct (marginals_cases a Ha) as [(e & Em & _)|(Em & Hrd)]; rewrite Em in E; cbn [bind] in E; try discriminate. clear Em.
  pose proof (cs_in a) as Hin. pose proof (cs_small a Ha) as Hsm. pose proof (cs_implied a) as Himp.
  pose proof (c_total_m a) as Hct. pose proof (m_total a Ha) as Hmt.
  set (cs := map _ (zrange _)) in Hin, Hsm, Himp.
  replace (map (fun d : Z => [d]) (zrange (Z.of_nat (length (shape a))))) with (map c_dims cs) in E by (unfold cs; now rewrite map_map).
  fold cs in E.
  assert (exists q st exn x, qisi_core L fuel a cs 0 = Ok (ms_pop (qi_ms q), (st, exn, x)) /\
    (let* res := nd_copy (i_arr st) nd_empty in
     let* ss := index_loop (nd_sizes res)
                 (fun i s => let* x := nd_get res i in let* y := nd_get (mk (shape a) (entry d_zero a)) i in
                             let e := d_sub (d_ofZ x) y in Ok (d_add s (d_mul e e))) d_zero in
     let* b := from_nd res in
     Ok (b, i_conv st, (d_sqrt (d_div ss (d_ofZ (nd_storage res)))))) = Ok (res, conv, rmse)) as (q & st & exn & x & Ec & Er).
  { unfold qisi_core. destruct (qisi_new _ _ _ _) as [q| | |]; cbn [bind] in E |- *; try discriminate.
    rewrite (as_nd_ok d_zero) by (auto; lia). cbn [bind].
    destruct (qisi_solve _ _ _ _ _) as [[[st exn] x]| | |]; cbn [bind] in E |- *; try discriminate. exists q, st, exn, x. split; auto.
    destruct (nd_copy _ _); cbn [bind] in E |- *; try discriminate.
    destruct (index_loop _ _ _); cbn [bind in_result in_conv in_rmse] in E |- *; try discriminate. exact E. }
  apply qisi_core_zero in Ec as (r & Ea & Hz); auto.
  - rewrite Ea, nd_copy_mk in Er by auto. cbn [bind] in Er. destruct (index_loop _ _ _); cbn [bind] in Er; try discriminate.
    rewrite from_nd_mk in Er by auto. cbn [bind] in Er. injection Er as <- _ _. intros i Hi Hs. rewrite entry_NDA_map by auto. apply Hz; unfold zstate_at; auto.
  - intros s Hs. rewrite (implied_unique cs s _ Hs Himp). lia.
  - intros c Hc. apply Hin in Hc as (d & Hd & ->). rewrite Hct. pose proof (Hmt d Hd). lia.
  - lia.
  - intros c Hc. apply Hin in Hc as (d & Hd & ->). split; [repeat constructor; intros []|]. cbn [c_dims length]. lia.
  - intros i Hi. rewrite Forall_forall in Hnn. destruct (Hnn (entry d_zero a i)) as [F P].
    { rewrite <- (a_flat a Ha). apply in_map. now apply in_all_indices. }
    now apply finite_nnb.
Qed.
