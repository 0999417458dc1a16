(** The calls behind C80: more iterations of ipf in exact arithmetic with two marginals. *)
From Coq Require Import QArith Qcanon Reals Lra Lia.
From Verif Require Import Base Spec SpecFacts NDArray IndexProofs Float64 ArrayOps ArrayProofs Bind BindProofs Micro Qis
  SynthSpec MicroProofs QisProofs QisClaims Ipf IpfSpec IpfProofs MicroDbl IpfClaims IpfExact IpfLimit RealSpec IntegeriseProofs Raking IpfConv
  Entropy MisfitSpec MisfitProofs QisExamples IpfExamples ConvExamples.
Open Scope Z_scope.

(** what a sweep keeps and holds after [left] sweeps holds after more *)
Lemma sweeps_more sizes (cs : list (gcon Qc)) (P : (list Z -> Qc) -> Prop) : (forall f, P f -> P (sweep QcScale Qcplus sizes cs f)) ->
  forall left left' f n, (left <= left')%nat -> P (fst (sweeps QcScale QcErr Qcplus sizes cs left f n)) -> P (fst (sweeps QcScale QcErr Qcplus sizes cs left' f n)).
Proof.
  intros HP. induction left as [|left IH]; intros left' f n Hl H.
  - cbn [sweeps fst] in H. destruct (sweeps QcScale QcErr Qcplus sizes cs left' f n) as [f' n'] eqn:E. cbn [fst].
    exact (sweeps_inv QcScale QcErr Qcplus sizes cs P HP left' f n f' n' E H).
  - destruct left' as [|left']; [lia|]. cbn [sweeps] in *. destruct (converged QcScale QcErr Qcplus sizes cs (sweep QcScale Qcplus sizes cs f)); auto.
    apply IH; [lia|auto].
Qed.

Section Claim.
Context (fuel : nat) (seed : ndarray Qc) (ilist : list (ndarray Z)) (mlist : list (ndarray Qc)).
Hypothesis Hr : g_range 0%Qc ilist mlist.
Hypothesis Hpr : all_proper 0%Qc ilist mlist.
Hypothesis Hws : wf_array seed.
Hypothesis Hs : prodZ (shape seed) < 2 ^ 60.
Hypothesis Hfu : prodZ (shape seed) < Z.of_nat fuel.
Let cs := gcons_of 0%Qc ilist mlist.
Let sizes := shape seed.

Lemma accepted_nonneg res : py_ipf_exact fuel seed ilist mlist = Ok res -> forall c, In c cs -> nonneg_con c.
Proof.
  intros E c Hc. unfold py_ipf_exact in E.
  destruct (ipf_cases QcMarg QcScale QcErr Qcplus Qcplus 0%Qc 0%Qc (fun _ _ => eq_refl) qpop_cases (fun _ _ => eq_refl)
    fuel seed ilist mlist Hr Hpr Hws Hs Hfu) as [(e & E')|[(w & E' & _)|(pop & Ha & Hf & Hwi & E')]]; try congruence.
  destruct Ha as (_ & _ & _ & _ & Hn & _). red. apply neg_check_q. auto.
Qed.

Definition tab (n : nat) : list Z -> Qc := fst (sweeps QcScale QcErr Qcplus sizes cs n (entry 0%Qc seed) 0).

(** the table after at most [n] rounds *)
Lemma limit_table res n : py_ipf_exact fuel seed ilist mlist = Ok res -> (0 < n)%nat ->
  (forall c, In c cs -> well_indexed sizes c) /\
  exists r, py_ipf_exact_limit n fuel seed ilist mlist = Ok r /\ forall i, index_in sizes i -> entry 0%Qc (ir_array r) i = tab n i.
Proof.
  intros E Hn. destruct (limit_ok fuel seed ilist mlist Hr Hpr Hws Hs Hfu res n E Hn) as (_ & Hwi & Hl). split; [exact Hwi|].
  unfold tab, sizes, cs. destruct (sweeps QcScale QcErr Qcplus (shape seed) (gcons_of 0%Qc ilist mlist) n (entry 0%Qc seed) 0) as [f' n'].
  eexists. split; [exact Hl|]. intros i Hi. cbn [ir_array fst]. now rewrite entry_NDA_map.
Qed.

Lemma marginQ_ext dims k (f g : list Z -> Qc) : (forall i, index_in sizes i -> f i = g i) -> marginQ sizes dims k f = marginQ sizes dims k g.
Proof. intros H. unfold marginQ. f_equal. apply map_ext_in. intros i Hi. apply filter_In in Hi as [Hi _]. apply H. now apply in_all_indices. Qed.

Lemma misfit_ext (l : list (gcon Qc)) (f g : list Z -> Qc) : (forall i, index_in sizes i -> f i = g i) -> misfit sizes l f = misfit sizes l g.
Proof. intros H. unfold misfit. f_equal. apply map_ext. intros c. f_equal. apply map_ext. intros k. unfold missQ. now rewrite (marginQ_ext _ _ f g H). Qed.

Context (res : ipf_result Qc) (E : py_ipf_exact fuel seed ilist mlist = Ok res).
Hypothesis Hpos : forall i, index_in (shape seed) i -> (0 <= entry 0%Qc seed i)%Qc.
Hypothesis H2 : length cs = 2%nat.

Lemma two_cs : exists a b, cs = [a; b].
Proof. destruct cs as [|a [|b [|c l]]]; try discriminate. eauto. Qed.

Lemma wi : forall c, In c cs -> well_indexed sizes c.
Proof. exact (proj1 (limit_table res 1 E ltac:(lia))). Qed.

Lemma sweep_misfit q f : (nonneg sizes f /\ (q2r (misfit sizes cs f) <= q)%R) ->
  nonneg sizes (sweep QcScale Qcplus sizes cs f) /\ (q2r (misfit sizes cs (sweep QcScale Qcplus sizes cs f)) <= q)%R.
Proof.
  apply (sweep_inv QcScale Qcplus sizes cs (fun f => nonneg sizes f /\ (q2r (misfit sizes cs f) <= q)%R)). clear f. intros f c Hc [Hf Hq]. split.
  - intros i Hi. apply step_nonneg; auto; [apply wi; auto|]. exact (accepted_nonneg res E c Hc).
  - pose proof wi as Hw. destruct two_cs as (a & b & Eab). rewrite Eab in *. eapply Rle_trans; [|exact Hq].
    apply step_two; auto; apply Hw; [now left|right; now left].
Qed.

Lemma tab_nonneg n : nonneg sizes (tab n).
Proof.
  destruct (sweeps_more sizes cs (fun f => nonneg sizes f /\ (q2r (misfit sizes cs f) <= q2r (misfit sizes cs (entry 0%Qc seed)))%R)
    (sweep_misfit _) 0 n (entry 0%Qc seed) 0 ltac:(lia)) as [H _]; auto. split; [exact Hpos|apply Rle_refl].
Qed.

Lemma tab_misfit n n' : (n <= n')%nat -> (misfit sizes cs (tab n') <= misfit sizes cs (tab n))%Qc.
Proof.
  intros Hn. apply q2r_le.
  apply (sweeps_more sizes cs (fun f => nonneg sizes f /\ (q2r (misfit sizes cs f) <= q2r (misfit sizes cs (tab n)))%R)
    (sweep_misfit _) n n' (entry 0%Qc seed) 0 Hn). split; [exact (tab_nonneg n)|apply Rle_refl].
Qed.

Lemma misfit_claim n n' : (0 < n <= n')%nat -> exists r r', py_ipf_exact_limit n fuel seed ilist mlist = Ok r /\
  py_ipf_exact_limit n' fuel seed ilist mlist = Ok r' /\
  (misfit sizes cs (entry 0%Qc (ir_array r')) <= misfit sizes cs (entry 0%Qc (ir_array r)))%Qc /\
  (misfit sizes cs (entry 0%Qc (ir_array r)) <= misfit sizes cs (entry 0%Qc seed))%Qc.
Proof.
  intros [Hn Hn']. destruct (limit_table res n E Hn) as (_ & r & Er & Tr). destruct (limit_table res n' E ltac:(lia)) as (_ & r' & Er' & Tr').
  exists r, r'. rewrite (misfit_ext cs _ _ Tr), (misfit_ext cs _ _ Tr'). split; [exact Er|]. split; [exact Er'|]. split; [now apply tab_misfit|].
  exact (tab_misfit 0 n ltac:(lia)).
Qed.

Lemma misfit_code_claim : (misfit sizes cs (entry 0%Qc (ir_array res)) <= misfit sizes cs (entry 0%Qc seed))%Qc.
Proof.
  destruct (misfit_claim (Z.to_nat 1000) (Z.to_nat 1000)) as (r & _ & Er & _ & _ & H); [lia|].
  rewrite limit_1000, E in Er. assert (r = res) as <- by (clear - Er; now inversion Er). exact H.
Qed.

Lemma tab_fitted a b n : cs = [a; b] -> (0 < n)%nat -> fitted sizes b (tab n).
Proof.
  intros Eab Hn. unfold tab. destruct n as [|n]; [lia|].
  destruct (sweeps QcScale QcErr Qcplus sizes cs (S n) (entry 0%Qc seed) 0) as [f' n'] eqn:Ew. cbn [fst].
  apply sweeps_last in Ew as (f0 & ->). rewrite Eab. unfold sweep. cbn [fold_left]. apply step_fitted.
Qed.

Lemma ratio_claim a b n n' q : cs = [a; b] -> (0 < n <= n')%nat -> (0 <= q)%Qc -> exists r r', py_ipf_exact_limit n fuel seed ilist mlist = Ok r /\
  py_ipf_exact_limit n' fuel seed ilist mlist = Ok r' /\
  (at_most q sizes a (entry 0%Qc (ir_array r)) -> at_most q sizes a (entry 0%Qc (ir_array r'))) /\
  (at_least q sizes a (entry 0%Qc (ir_array r)) -> at_least q sizes a (entry 0%Qc (ir_array r'))).
Proof.
  intros Eab [Hn Hn'] Hq. destruct (limit_table res n E Hn) as (_ & r & Er & Tr). destruct (limit_table res n' E ltac:(lia)) as (_ & r' & Er' & Tr').
  exists r, r'. split; [exact Er|]. split; [exact Er'|].
  assert (well_indexed sizes a) as Wa by (apply wi; rewrite Eab; now left). assert (well_indexed sizes b) as Wb by (apply wi; rewrite Eab; right; now left).
  assert (nonneg_con a) as Na by (apply (accepted_nonneg res E); rewrite Eab; now left).
  assert (nonneg_con b) as Nb by (apply (accepted_nonneg res E); rewrite Eab; right; now left).
  apply q2r_le in Hq. rewrite q2r_0 in Hq.
  assert (forall P : (list Z -> Qc) -> Prop, (forall f, nonneg sizes f -> fitted sizes b f -> P f -> P (step QcScale Qcplus sizes b (step QcScale Qcplus sizes a f))) ->
    P (tab n) -> P (tab n')) as G.
  { intros P HP H. apply (sweeps_more sizes cs (fun f => nonneg sizes f /\ fitted sizes b f /\ P f)) with (left := n); auto.
    - intros f (F1 & F2 & F3). rewrite Eab. unfold sweep. cbn [fold_left]. split; [|split; [apply step_fitted|now apply HP]].
      now apply h_nonneg.
    - split; [apply tab_nonneg|]. split; [now apply (tab_fitted a b)|exact H]. }
  split; intros H k Hk.
  - rewrite (marginQ_ext _ k _ _ Tr'). revert k Hk. apply (G (at_most q sizes a)).
    + intros f F1 F2 F3 k Hk. apply q2r_le. rewrite q2r_mult, margin_real. apply (up_kept sizes a b Wa Wb Na f F1 F2 (q2r q) Hq); [|now apply in_all_indices].
      intros k' Hk'. apply in_all_indices in Hk'. specialize (F3 k' Hk'). apply q2r_le in F3. now rewrite q2r_mult, margin_real in F3.
    + intros k Hk. rewrite <- (marginQ_ext _ k _ _ Tr). now apply H.
  - rewrite (marginQ_ext _ k _ _ Tr'). revert k Hk. apply (G (at_least q sizes a)).
    + intros f F1 F2 F3 k Hk. apply q2r_le. rewrite q2r_mult, margin_real. apply (down_kept sizes a b Wa Wb Na Nb f F1 F2 (q2r q) Hq); [|now apply in_all_indices].
      intros k' Hk'. apply in_all_indices in Hk'. specialize (F3 k' Hk'). apply q2r_le in F3. now rewrite q2r_mult, margin_real in F3.
    + intros k Hk. rewrite <- (marginQ_ext _ k _ _ Tr). now apply H.
Qed.
End Claim.

(** * Witnesses *)

(** three marginals: the total rises from the first to the second round *)
Definition qz (l : list Z) : list Qc := map (fun z => Q2Qc (inject_Z z)) l.
Definition ex3_s : ndarray Qc := NDA [2; 2; 2] (qz [1; 99; 1; 1; 99; 1; 99; 1]).
Definition ex3_i : list (ndarray Z) := [NDA [1] [0]; NDA [1] [1]; NDA [1] [2]].
Definition ex3_m : list (ndarray Qc) := [NDA [2] (qz [2; 2]); NDA [2] (qz [2; 2]); NDA [2] (qz [3; 1])].
(** two marginals: the largest miss rises from the first to the second round *)
Definition ex4_s : ndarray Qc := NDA [4; 2] (qz [99; 99; 1; 99; 99; 1; 99; 1]).
Definition ex4_i : list (ndarray Z) := [NDA [1] [0]; NDA [1] [1]].
Definition ex4_m : list (ndarray Qc) := [NDA [4] (qz [4; 1; 2; 2]); NDA [2] (qz [1; 8])].

Definition q_pos (x : Qc) : bool := q_ltb 0 x.
Lemma pos_by (a : ndarray Qc) : forallb q_pos (map (entry 0%Qc a) (all_indices (shape a))) = true -> forall i, index_in (shape a) i -> (0 < entry 0%Qc a i)%Qc.
Proof. intros H i Hi. rewrite forallb_forall in H. apply q2r_lt. apply q_ltb_lt. apply H. apply in_map. now apply in_all_indices. Qed.

Lemma rise_by (o o' : outcome (ipf_result Qc)) (v : ipf_result Qc -> Qc) :
  match o, o' with Ok r, Ok r' => q_ltb (v r) (v r') | _, _ => false end = true -> exists r r', o = Ok r /\ o' = Ok r' /\ (v r < v r')%Qc.
Proof. destruct o as [r| | |]; try discriminate. destruct o' as [r'| | |]; try discriminate. intros H. exists r, r'. repeat split. apply q2r_lt. now apply q_ltb_lt. Qed.

Lemma three_claim : exists fuel seed ilist mlist, g_range 0%Qc ilist mlist /\ all_proper 0%Qc ilist mlist /\ wf_array seed /\
  prodZ (shape seed) < 2 ^ 60 /\ prodZ (shape seed) < Z.of_nat fuel /\ length ilist = 3%nat /\
  (forall i, index_in (shape seed) i -> (0 < entry 0%Qc seed i)%Qc) /\
  exists r r', py_ipf_exact_limit 1 fuel seed ilist mlist = Ok r /\ py_ipf_exact_limit 2 fuel seed ilist mlist = Ok r' /\
    (misfit (shape seed) (gcons_of 0%Qc ilist mlist) (entry 0%Qc (ir_array r)) < misfit (shape seed) (gcons_of 0%Qc ilist mlist) (entry 0%Qc (ir_array r')))%Qc.
Proof.
  exists 9%nat, ex3_s, ex3_i, ex3_m. split; [apply (g_range_by _ _ _ [2; 2; 2]); vm_compute; reflexivity|].
  split; [apply (all_proper_by _ _ _ [2; 2; 2]); vm_compute; reflexivity|]. split; [apply shape_by; vm_compute; reflexivity|].
  split; [reflexivity|]. split; [reflexivity|]. split; [reflexivity|]. split; [apply pos_by; vm_compute; reflexivity|].
  apply (rise_by _ _ (fun r => misfit (shape ex3_s) (gcons_of 0%Qc ex3_i ex3_m) (entry 0%Qc (ir_array r)))). vm_compute. reflexivity.
Qed.

Lemma largest_claim : exists fuel seed ilist mlist, g_range 0%Qc ilist mlist /\ all_proper 0%Qc ilist mlist /\ wf_array seed /\
  prodZ (shape seed) < 2 ^ 60 /\ prodZ (shape seed) < Z.of_nat fuel /\ length ilist = 2%nat /\
  (forall i, index_in (shape seed) i -> (0 < entry 0%Qc seed i)%Qc) /\
  exists r r', py_ipf_exact_limit 1 fuel seed ilist mlist = Ok r /\ py_ipf_exact_limit 2 fuel seed ilist mlist = Ok r' /\
    (ir_max r < ir_max r')%Qc.
Proof.
  exists 9%nat, ex4_s, ex4_i, ex4_m. split; [apply (g_range_by _ _ _ [4; 2]); vm_compute; reflexivity|].
  split; [apply (all_proper_by _ _ _ [4; 2]); vm_compute; reflexivity|]. split; [apply shape_by; vm_compute; reflexivity|].
  split; [reflexivity|]. split; [reflexivity|]. split; [reflexivity|]. split; [apply pos_by; vm_compute; reflexivity|].
  apply (rise_by _ _ (fun r => ir_max r)). vm_compute. reflexivity.
Qed.

(** a call that meets the hypotheses, on which the total falls strictly and a ratio bound is in force *)
Definition exM_1 := py_ipf_exact_limit 1 5 exK_s exI_i exQ_m.
Definition exM_3 := py_ipf_exact_limit 3 5 exK_s exI_i exQ_m.
Definition exM_fit (r : ipf_result Qc) := misfit [2; 2] (gcons_of 0%Qc exI_i exQ_m) (entry 0%Qc (ir_array r)).

Lemma at_most_by q sizes (c : gcon Qc) f : forallb (fun k => negb (q_ltb (q * g_at c k) (marginQ sizes (g_dims c) k f))%Qc) (all_indices (g_sizes c)) = true -> at_most q sizes c f.
Proof.
  intros H k Hk. rewrite forallb_forall in H. apply in_all_indices in Hk. specialize (H k Hk). apply q2r_le. apply Rnot_lt_le. intros L.
  apply q_ltb_lt in L. rewrite L in H. discriminate.
Qed.
Lemma at_least_by q sizes (c : gcon Qc) f : forallb (fun k => negb (q_ltb (marginQ sizes (g_dims c) k f) (q * g_at c k))%Qc) (all_indices (g_sizes c)) = true -> at_least q sizes c f.
Proof.
  intros H k Hk. rewrite forallb_forall in H. apply in_all_indices in Hk. specialize (H k Hk). apply q2r_le. apply Rnot_lt_le. intros L.
  apply q_ltb_lt in L. rewrite L in H. discriminate.
Qed.
Definition exM_c : gcon Qc := gcon_of 0%Qc (NDA [1] [0]) (NDA [2] [Q2Qc 1; Q2Qc 1]).
Lemma bound_by (o : outcome (ipf_result Qc)) :
  match o with Ok r => forallb (fun k => negb (q_ltb (Q2Qc (4 # 3) * g_at exM_c k) (marginQ [2; 2] (g_dims exM_c) k (entry 0%Qc (ir_array r))))%Qc) (all_indices (g_sizes exM_c)) &&
                       forallb (fun k => negb (q_ltb (marginQ [2; 2] (g_dims exM_c) k (entry 0%Qc (ir_array r))) (Q2Qc (2 # 3) * g_at exM_c k))%Qc) (all_indices (g_sizes exM_c))
   | _ => false end = true -> exists r, o = Ok r /\ at_most (Q2Qc (4 # 3)) [2; 2] exM_c (entry 0%Qc (ir_array r)) /\ at_least (Q2Qc (2 # 3)) [2; 2] exM_c (entry 0%Qc (ir_array r)).
Proof.
  destruct o as [r| | |]; try discriminate. intros H. apply Bool.andb_true_iff in H as [H1 H2]. exists r. split; [reflexivity|].
  split; [now apply at_most_by|now apply at_least_by].
Qed.

Lemma exM_ok : g_range 0%Qc exI_i exQ_m /\ all_proper 0%Qc exI_i exQ_m /\ wf_array exK_s /\ prodZ (shape exK_s) < 2 ^ 60 /\
  prodZ (shape exK_s) < Z.of_nat 5 /\ (exists res, py_ipf_exact 5 exK_s exI_i exQ_m = Ok res) /\ length exI_i = 2%nat /\
  (forall i, index_in [2; 2] i -> (0 <= entry 0%Qc exK_s i)%Qc) /\
  (exists r3 r1, exM_3 = Ok r3 /\ exM_1 = Ok r1 /\ (exM_fit r3 < exM_fit r1)%Qc) /\
  (exists r1, exM_1 = Ok r1 /\ at_most (Q2Qc (4 # 3)) [2; 2] exM_c (entry 0%Qc (ir_array r1)) /\
     at_least (Q2Qc (2 # 3)) [2; 2] exM_c (entry 0%Qc (ir_array r1))) /\
  exists b, gcons_of 0%Qc exI_i exQ_m = [exM_c; b].
Proof.
  split; [exact exQ_range|]. split; [exact exQ_proper|]. split; [apply shape_by; vm_compute; reflexivity|]. split; [reflexivity|]. split; [reflexivity|].
  split; [apply is_ok_ex; vm_compute; reflexivity|]. split; [reflexivity|].
  split; [intros i Hi; apply in_2x2 in Hi; destruct Hi as [<-|[<-|[<-|[<-|[]]]]]; vm_compute; discriminate|].
  split; [apply (rise_by _ _ exM_fit); vm_compute; reflexivity|]. split; [apply bound_by; vm_compute; reflexivity|].
  eexists. reflexivity.
Qed.
