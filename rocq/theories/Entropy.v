(** The table returned by ipf has the smallest divergence from the seed among the tables with its marginals (C71). *)
From Coq Require Import QArith Qcanon Reals Lra Lia.
From Verif Require Import Base Spec SpecFacts NDArray IndexProofs ArrayProofs Float64 ArrayOps Bind BindProofs RealSpec IntegeriseProofs Micro Qis
  SynthSpec MicroProofs Ipf IpfSpec IpfProofs MicroDbl IpfClaims IpfExact Raking IpfLimit IpfConv IpfExamples EntropySpec.
Open Scope R_scope.

(** * Over the reals *)

Section Real.
Context (S : list (list Z)) (s f p : list Z -> R).
(** one entry per marginal: its cells, the cell of a state, and a factor for each cell *)
Context (ms : list (list (list Z) * (list Z -> list Z) * (list Z -> R))).
Definition prodx (ms : list (list (list Z) * (list Z -> list Z) * (list Z -> R))) (i : list Z) : R :=
  fold_right Rmult 1 (map (fun '(K, h, x) => x (h i)) ms).
Definition lam (ms : list (list (list Z) * (list Z -> list Z) * (list Z -> R))) (i : list Z) : R :=
  sumR (map (fun '(K, h, x) => ln (Rabs (x (h i)))) ms).

Lemma ln_prodx l i : prodx l i <> 0 -> ln (Rabs (prodx l i)) = lam l i.
Proof.
  induction l as [|[[K h] x] l IH]; unfold prodx, lam; cbn [map fold_right sumR]; intros N; [rewrite Rabs_R1; apply ln_1|].
  fold (prodx l i) in *. fold (sumR (map (fun '(K, h, x) => ln (Rabs (x (h i)))) l)). fold (lam l i).
  assert (x (h i) <> 0 /\ prodx l i <> 0) as [N1 N2] by (split; intros E; apply N; rewrite E; ring).
  rewrite Rabs_mult, ln_mult by now apply Rabs_pos_lt. now rewrite IH.
Qed.

Lemma prodx_zero l i : prodx l i = 0 -> exists K h x, In (K, h, x) l /\ x (h i) = 0.
Proof.
  induction l as [|[[K h] x] l IH]; unfold prodx; cbn [map fold_right]; intros E; [lra|]. fold (prodx l i) in E.
  apply Rmult_integral in E as [E|E]; [exists K, h, x; split; [now left|exact E]|].
  destruct (IH E) as (K' & h' & x' & Hi & E'). exists K', h', x'. split; [now right|exact E'].
Qed.
Lemma prodx_in l i K h x : In (K, h, x) l -> x (h i) = 0 -> prodx l i = 0.
Proof.
  induction l as [|[[K' h'] x'] l IH]; intros Hin E; [easy|]. unfold prodx. cbn [map fold_right]. fold (prodx l i).
  destruct Hin as [Hin|Hin]; [injection Hin as -> -> ->; rewrite E; ring|]. rewrite (IH Hin E). ring.
Qed.

Context (Hs : forall i, In i S -> 0 <= s i) (Hf : forall i, In i S -> 0 <= f i) (Hp : forall i, In i S -> 0 <= p i).
Context (Hsup : forall i, In i S -> p i <> 0 -> s i <> 0).
Context (Hfx : forall i, In i S -> f i = s i * prodx ms i).
Context (HK : forall K h x, In (K, h, x) ms -> NoDup K /\ (forall i, In i S -> In (h i) K) /\ forall k, In k K -> cellR S h p k = cellR S h f k).
Context (Hne : ms <> []).

Lemma p_pos i : In i S -> 0 < p i -> 0 < f i.
Proof.
  intros Hi Pi. destruct (Hf i Hi) as [|E]; [assumption|exfalso]. symmetry in E. rewrite Hfx in E by exact Hi.
  apply Rmult_integral in E as [E|E]; [apply (Hsup i Hi); [lra|exact E]|].
  destruct (prodx_zero _ _ E) as (K & h & x & Hin & Ex). destruct (HK _ _ _ Hin) as (_ & Hh & Hc).
  assert (cellR S h f (h i) = 0) as Z.
  { apply sumR_zero. intros j Hj. apply filter_In in Hj as [Hj Ej]. apply idx_eqb_true in Ej.
    rewrite Hfx by exact Hj. rewrite (prodx_in ms j K h x Hin) by (rewrite Ej; exact Ex). ring. }
  pose proof (cell_ge S h p i Hp Hi) as G. rewrite (Hc _ (Hh i Hi)), Z in G. lra.
Qed.

Lemma f_pos_s i : In i S -> 0 < f i -> 0 < s i /\ ln (f i / s i) = lam ms i.
Proof.
  intros Hi P. assert (s i <> 0) as N by (intros E; rewrite Hfx, E in P by exact Hi; lra).
  assert (0 < s i) as Ps by (destruct (Hs i Hi); [assumption|congruence]). split; [exact Ps|].
  assert (f i / s i = prodx ms i) as E by (rewrite Hfx by exact Hi; field; exact N).
  assert (0 < prodx ms i) as Px by (rewrite <- E; now apply Rdiv_lt_0_compat).
  rewrite E, <- ln_prodx, Rabs_pos_eq by lra. reflexivity.
Qed.

(** the factors see only the marginals *)
Lemma lam_same : sumR (map (fun i => p i * lam ms i) S) = sumR (map (fun i => f i * lam ms i) S).
Proof.
  clear Hne Hfx. revert HK. induction ms as [|[[K h] x] l IH]; intros H.
  - unfold lam. cbn [map sumR fold_right]. rewrite !sumR_zero; auto; intros; ring.
  - assert (forall g i, g i * lam ((K, h, x) :: l) i = g i * ln (Rabs (x (h i))) + g i * lam l i) as E.
    { intros g i. unfold lam. cbn [map sumR fold_right]. fold (sumR (map (fun '(K, h, x) => ln (Rabs (x (h i)))) l)). ring. }
    rewrite (sumR_ext (fun i => p i * lam ((K, h, x) :: l) i) (fun i => p i * ln (Rabs (x (h i))) + p i * lam l i)) by (intros; apply E).
    rewrite (sumR_ext (fun i => f i * lam ((K, h, x) :: l) i) (fun i => f i * ln (Rabs (x (h i))) + f i * lam l i)) by (intros; apply E).
    rewrite !sumR_plus, IH by (intros; apply (H K0 h0 x0); now right). f_equal.
    destruct (H K h x (or_introl eq_refl)) as (Hn & Hh & Hc).
    rewrite (sumR_group h p (fun k => ln (Rabs (x k))) K S Hn Hh), (sumR_group h f (fun k => ln (Rabs (x k))) K S Hn Hh).
    apply sumR_ext. intros k Hk. f_equal. exact (Hc k Hk).
Qed.

Lemma same_total : sumR (map p S) = sumR (map f S).
Proof.
  destruct ms as [|[[K h] x] l]; [congruence|]. destruct (HK K h x (or_introl eq_refl)) as (Hn & Hh & Hc).
  rewrite <- (cell_total S K h Hn Hh p), <- (cell_total S K h Hn Hh f). apply sumR_ext. exact Hc.
Qed.

Lemma pythagoras : sumR (map (fun i => f i * ln (f i / s i)) S) + sumR (map (fun i => (sqrt (p i) - sqrt (f i)) * (sqrt (p i) - sqrt (f i))) S)
  <= sumR (map (fun i => p i * ln (p i / s i)) S).
Proof.
  assert (sumR (map (fun i => f i * ln (f i / s i)) S) = sumR (map (fun i => f i * lam ms i) S)) as ->.
  { apply sumR_ext. intros i Hi. destruct (Hf i Hi) as [P|E]; [now rewrite (proj2 (f_pos_s i Hi P))|rewrite <- E; ring]. }
  assert (sumR (map (fun i => p i * ln (p i / s i)) S) = sumR (map (fun i => p i * ln (p i / f i)) S) + sumR (map (fun i => f i * lam ms i) S)) as ->.
  { rewrite <- lam_same, <- sumR_plus. apply sumR_ext. intros i Hi. destruct (Hp i Hi) as [P|E]; [|rewrite <- E; ring].
    pose proof (p_pos i Hi P) as Pf. destruct (f_pos_s i Hi Pf) as [Ps El]. rewrite <- El.
    unfold Rdiv. rewrite !ln_mult, !ln_Rinv by (try apply Rinv_0_lt_compat; assumption). ring. }
  assert (sumR (map (fun i => (sqrt (p i) - sqrt (f i)) * (sqrt (p i) - sqrt (f i))) S) <= sumR (map (fun i => p i * ln (p i / f i)) S)); [|lra].
  assert (sumR (map (fun i => (p i - f i) + (sqrt (p i) - sqrt (f i)) * (sqrt (p i) - sqrt (f i))) S) <= sumR (map (fun i => p i * ln (p i / f i)) S)) as H.
  { apply sumR_le. intros i Hi. apply xlnx_ge; auto. intros P. now apply p_pos. }
  rewrite sumR_plus, sumR_minus, same_total in H. lra.
Qed.

Lemma sq_sum_zero (g : list Z -> R) l : sumR (map (fun i => g i * g i) l) <= 0 -> forall i, In i l -> g i = 0.
Proof.
  intros H i Hi. assert (g i * g i <= sumR (map (fun i => g i * g i) l)).
  { apply (sumR_ge1 (fun i => g i * g i)); auto. intros j _. cbv beta. apply Rle_0_sqr. }
  apply Rsqr_0_uniq. unfold Rsqr. nra.
Qed.

Lemma least : sumR (map (fun i => f i * ln (f i / s i)) S) <= sumR (map (fun i => p i * ln (p i / s i)) S) /\
  (sumR (map (fun i => p i * ln (p i / s i)) S) = sumR (map (fun i => f i * ln (f i / s i)) S) -> forall i, In i S -> p i = f i).
Proof.
  pose proof pythagoras as H.
  assert (0 <= sumR (map (fun i => (sqrt (p i) - sqrt (f i)) * (sqrt (p i) - sqrt (f i))) S)) as N.
  { rewrite <- (sumR_zero (fun _ : list Z => 0) S) by auto. apply sumR_le. intros i _. cbv beta. apply Rle_0_sqr. }
  split; [lra|]. intros E i Hi. rewrite E in H.
  assert (sqrt (p i) - sqrt (f i) = 0) as Q by (apply (sq_sum_zero (fun i => sqrt (p i) - sqrt (f i)) S); [lra|exact Hi]).
  apply sqrt_inj; auto; lra.
Qed.
End Real.

(** * The model *)

Lemma neg_check_q (c : gcon Qc) : neg_check QcMarg c = false -> forall i, index_in (g_sizes c) i -> (0 <= g_at c i)%Qc.
Proof.
  unfold neg_check. cbn [mg_num QcMarg n_ltb n_max n_zero QcOps]. intros H i Hi. apply q2r_le. rewrite q2r_0.
  assert (forall l m, (q2r (fold_left (fun mv i => if q_ltb (g_at c i) mv then g_at c i else mv) l m) <= q2r m) /\
    forall i, In i l -> q2r (fold_left (fun mv i => if q_ltb (g_at c i) mv then g_at c i else mv) l m) <= q2r (g_at c i)) as G.
  { induction l as [|j l IH]; intros m; cbn [fold_left]; [split; [apply Rle_refl|easy]|].
    destruct (IH (if q_ltb (g_at c j) m then g_at c j else m)) as [G1 G2].
    destruct (q_ltb (g_at c j) m) eqn:E.
    - apply q_ltb_lt in E. split; [lra|]. intros i' [<-|Hi']; [exact G1|now apply G2].
    - assert (q2r m <= q2r (g_at c j)) as L by (apply Rnot_lt_le; intros L; apply q_ltb_lt in L; congruence).
      split; [exact G1|]. intros i' [<-|Hi']; [lra|now apply G2]. }
  apply in_all_indices in Hi. destruct (G (all_indices (g_sizes c)) q_max) as [_ G2]. specialize (G2 i Hi).
  set (m := fold_left _ _ _) in *. assert (0 <= q2r m); [|lra].
  apply Rnot_lt_le. intros L. rewrite <- q2r_0 in L. apply q_ltb_lt in L. congruence.
Qed.

Lemma qsum_nonneg (f : list Z -> Qc) l : (forall i, In i l -> 0 <= q2r (f i)) -> 0 <= q2r (fold_right Qcplus 0%Qc (map f l)).
Proof.
  intros H. rewrite q2r_sum. rewrite <- (sumR_zero (fun _ : list Z => 0) l) by auto. now apply sumR_le.
Qed.

Lemma step_nonneg sizes c f : well_indexed sizes c -> (forall k, index_in (g_sizes c) k -> (0 <= g_at c k)%Qc) ->
  (forall i, index_in sizes i -> (0 <= f i)%Qc) -> forall i, index_in sizes i -> (0 <= step QcScale Qcplus sizes c f i)%Qc.
Proof.
  intros Hw Hg Hf i Hi. rewrite step_fac. unfold fac. apply q2r_le. rewrite q2r_0.
  assert (0 <= q2r (f i)) as Pf by (rewrite <- q2r_0; apply q2r_le; auto).
  set (r := marginQ sizes (g_dims c) (proj (g_dims c) i) f).
  assert (0 <= q2r r) as Pr.
  { apply qsum_nonneg. intros j Hj. apply filter_In in Hj as [Hj _]. apply in_all_indices in Hj. rewrite <- q2r_0. apply q2r_le. auto. }
  destruct (Qc_eq_bool r 0) eqn:E; [rewrite q2r_mult, q2r_0; lra|].
  assert (r <> 0%Qc) as Nr by (intros Q; apply qc_eqb in Q; congruence).
  assert (q2r r <> 0) as Nq by (intros Q; apply Nr, q2r_inj; now rewrite q2r_0).
  rewrite q2r_mult, q2r_div by exact Nr. apply Rmult_le_pos; [exact Pf|]. apply Rmult_le_pos; [|apply Rlt_le, Rinv_0_lt_compat; lra].
  rewrite <- q2r_0. apply q2r_le. apply Hg. destruct Hw as (_ & _ & Hv & _ & ->). now apply index_in_valid_proj.
Qed.

Lemma factors_real cs : forall xs i, length xs = length cs ->
  q2r (factors cs xs i) = prodx (map (fun p => (all_indices (g_sizes (fst p)), proj (g_dims (fst p)), fun k => q2r (snd p k))) (combine cs xs)) i.
Proof.
  induction cs as [|c cs IH]; intros [|x xs] i Hl; try discriminate.
  - unfold factors, prodx. simpl. unfold q2r, Q2R. simpl. lra.
  - cbn [combine map]. rewrite factors_cons, q2r_mult, IH by (simpl in Hl; lia). unfold prodx. cbn [map fold_right fst snd]. reflexivity.
Qed.

Section Claim.
Context (fuel : nat) (seed : ndarray Qc) (ilist : list (ndarray Z)) (mlist : list (ndarray Qc)).
Hypothesis Hr : g_range 0%Qc ilist mlist.
Hypothesis Hpr : all_proper 0%Qc ilist mlist.
Hypothesis Hws : wf_array seed.
Hypothesis Hsz : (prodZ (shape seed) < 2 ^ 60)%Z.
Hypothesis Hfu : (prodZ (shape seed) < Z.of_nat fuel)%Z.
Let cs := gcons_of 0%Qc ilist mlist.

Lemma exact_nonneg res : py_ipf_exact fuel seed ilist mlist = Ok res ->
  (forall i, index_in (shape seed) i -> (0 <= entry 0%Qc seed i)%Qc) ->
  forall i, index_in (shape seed) i -> (0 <= entry 0%Qc (ir_array res) i)%Qc.
Proof.
  intros E Hseed i Hi. unfold py_ipf_exact in E.
  destruct (ipf_cases QcMarg QcScale QcErr Qcplus Qcplus 0%Qc 0%Qc (fun _ _ => eq_refl) qpop_cases (fun _ _ => eq_refl)
    fuel seed ilist mlist Hr Hpr Hws Hsz Hfu) as [(e & E')|[(w & E' & _)|(pop & Ha & Hf & Hwi & E')]]; try congruence.
  fold cs in E', Hwi. rewrite E in E'. destruct Ha as (_ & _ & _ & _ & Hn & _). fold cs in Hn.
  destruct (sweeps QcScale QcErr Qcplus (shape seed) cs (Z.to_nat 1000) (entry 0%Qc seed) 0) as [f' n'] eqn:Ew.
  injection E' as ->. cbn [ir_array]. rewrite entry_NDA_map by exact Hi.
  refine (sweeps_inv QcScale QcErr Qcplus (shape seed) cs (fun f => forall i, index_in (shape seed) i -> (0 <= f i)%Qc) _ _ _ _ _ _ Ew Hseed i Hi).
  apply (sweep_inv QcScale Qcplus (shape seed) cs (fun f => forall i, index_in (shape seed) i -> (0 <= f i)%Qc)).
  intros f c Hc. apply step_nonneg; auto. apply neg_check_q; auto.
Qed.

Lemma entropy_claim res p : py_ipf_exact fuel seed ilist mlist = Ok res ->
  (forall i, index_in (shape seed) i -> (0 <= entry 0%Qc seed i)%Qc) ->
  (forall i, index_in (shape seed) i -> 0 <= p i) ->
  (forall i, index_in (shape seed) i -> p i <> 0 -> entry 0%Qc seed i <> 0%Qc) ->
  (forall c k, In c cs -> index_in (g_sizes c) k ->
     marginR (shape seed) (g_dims c) k p = marginR (shape seed) (g_dims c) k (entryQ (ir_array res))) ->
  divergence (shape seed) (entryQ (ir_array res)) (entryQ seed) <= divergence (shape seed) p (entryQ seed) /\
  (divergence (shape seed) p (entryQ seed) = divergence (shape seed) (entryQ (ir_array res)) (entryQ seed) ->
   forall i, index_in (shape seed) i -> p i = entryQ (ir_array res) i).
Proof.
  intros E Hseed Hp Hsup Hm. destruct (exact_product_claim fuel seed ilist mlist Hr Hpr Hws Hsz Hfu res E) as (_ & xs & Hl & Hx).
  fold cs in Hl, Hx. destruct (limit_ok fuel seed ilist mlist Hr Hpr Hws Hsz Hfu res 1 E ltac:(lia)) as (Hne & Hwi & _). fold cs in Hne, Hwi.
  set (ms := map (fun p => (all_indices (g_sizes (fst p)), proj (g_dims (fst p)), fun k => q2r (snd p k))) (combine cs xs)).
  assert (forall i, In i (all_indices (shape seed)) -> index_in (shape seed) i) as HI by (intros i; apply in_all_indices).
  assert (forall i, In i (all_indices (shape seed)) -> 0 <= entryQ seed i) as A1.
  { intros i Hi. change (entryQ seed i) with (q2r (entry 0%Qc seed i)). rewrite <- q2r_0. apply q2r_le. auto. }
  assert (forall i, In i (all_indices (shape seed)) -> 0 <= entryQ (ir_array res) i) as A2.
  { intros i Hi. change (entryQ (ir_array res) i) with (q2r (entry 0%Qc (ir_array res) i)). rewrite <- q2r_0. apply q2r_le.
    apply (exact_nonneg res E Hseed). auto. }
  assert (forall i, In i (all_indices (shape seed)) -> p i <> 0 -> entryQ seed i <> 0) as A3.
  { intros i Hi N Q. apply (Hsup i (HI i Hi) N). apply q2r_inj. now rewrite q2r_0. }
  assert (forall i, In i (all_indices (shape seed)) -> entryQ (ir_array res) i = entryQ seed i * prodx ms i) as A4.
  { intros i Hi. unfold ms. rewrite <- factors_real by exact Hl. change (entryQ (ir_array res) i) with (q2r (entry 0%Qc (ir_array res) i)).
    rewrite Hx by auto. apply q2r_mult. }
  assert (forall K h x, In (K, h, x) ms -> NoDup K /\ (forall i, In i (all_indices (shape seed)) -> In (h i) K) /\
    forall k, In k K -> cellR (all_indices (shape seed)) h p k = cellR (all_indices (shape seed)) h (entryQ (ir_array res)) k) as A5.
  { intros K h x Hin. apply in_map_iff in Hin as ([c y] & Q & Hin). cbn [fst snd] in Q. injection Q as <- <- <-.
    apply in_combine_l in Hin. split; [apply NoDup_all_indices|]. split.
    - apply (in_cells (shape seed) c). auto.
    - intros k Hk. apply in_all_indices in Hk. exact (Hm c k Hin Hk). }
  assert (ms <> []) as A6.
  { unfold ms. destruct cs as [|c l]; [congruence|]. destruct xs as [|x xs']; [discriminate|]. discriminate. }
  destruct (least (all_indices (shape seed)) (entryQ seed) (entryQ (ir_array res)) p ms A1 A2 (fun i Hi => Hp i (HI i Hi)) A3 A4 A5 A6) as [L U].
  split; [exact L|]. intros Q i Hi. apply U; [exact Q|]. now apply in_all_indices.
Qed.

Lemma uniform_claim res p : py_ipf_exact fuel seed ilist mlist = Ok res ->
  (forall i, index_in (shape seed) i -> entry 0%Qc seed i = 1%Qc) ->
  (forall i, index_in (shape seed) i -> 0 <= p i) ->
  (forall c k, In c cs -> index_in (g_sizes c) k ->
     marginR (shape seed) (g_dims c) k p = marginR (shape seed) (g_dims c) k (entryQ (ir_array res))) ->
  entropy (shape seed) p <= entropy (shape seed) (entryQ (ir_array res)) /\
  (entropy (shape seed) p = entropy (shape seed) (entryQ (ir_array res)) ->
   forall i, index_in (shape seed) i -> p i = entryQ (ir_array res) i).
Proof.
  intros E H1 Hp Hm. assert (forall g, divergence (shape seed) g (entryQ seed) = - entropy (shape seed) g) as D.
  { intros g. unfold entropy, divergence. rewrite Ropp_involutive. apply sumR_ext. intros i Hi. apply in_all_indices in Hi.
    unfold entryQ. rewrite H1 by exact Hi. replace (Q2R (this 1%Qc)) with 1 by (unfold Q2R; simpl; lra). unfold Rdiv. now rewrite Rinv_1, Rmult_1_r. }
  destruct (entropy_claim res p E) as [L U]; auto.
  - intros i Hi. rewrite H1 by exact Hi. discriminate.
  - intros i Hi _. rewrite H1 by exact Hi. discriminate.
  - rewrite !D in L, U. split; [lra|]. intros Q. apply U. lra.
Qed.
End Claim.

(** * Instances *)
Definition exE_s : ndarray Qc := NDA [2; 2]%Z [Q2Qc 1; Q2Qc 2; Q2Qc 2; Q2Qc 4].
Definition exE_u : ndarray Qc := NDA [2; 2]%Z [1; 1; 1; 1]%Qc.
Definition exE_p : ndarray Qc := NDA [2; 2]%Z [Q2Qc (3 # 4); Q2Qc (1 # 4); Q2Qc (1 # 4); Q2Qc (3 # 4)].

Lemma in22 i : index_in [2; 2]%Z i -> In i [[0; 0]; [0; 1]; [1; 0]; [1; 1]]%Z.
Proof. intros H. apply in_all_indices in H. exact H. Qed.

Lemma exE_ok : g_range 0%Qc exI_i exQ_m /\ all_proper 0%Qc exI_i exQ_m /\ wf_array exE_s /\
  (exists res, py_ipf_exact 5 exE_s exI_i exQ_m = Ok res /\ map this (flat (ir_array res)) = [1 # 2; 1 # 2; 1 # 2; 1 # 2]%Q /\
   (forall i, index_in [2; 2]%Z i -> (0 <= entryQ exE_p i)%R /\ (0 <= entry 0%Qc exE_s i)%Qc /\ entry 0%Qc exE_s i <> 0%Qc) /\
   (forall c k, In c (gcons_of 0%Qc exI_i exQ_m) -> index_in (g_sizes c) k ->
     marginR [2; 2]%Z (g_dims c) k (entryQ exE_p) = marginR [2; 2]%Z (g_dims c) k (entryQ (ir_array res))) /\
   entryQ exE_p [0; 0]%Z <> entryQ (ir_array res) [0; 0]%Z).
Proof.
  split; [exact exQ_range|]. split; [exact exQ_proper|]. split; [apply shape_by; vm_compute; reflexivity|].
  assert (match py_ipf_exact 5 exE_s exI_i exQ_m with Ok r => map this (flat (ir_array r)) = [1 # 2; 1 # 2; 1 # 2; 1 # 2]%Q /\ shape (ir_array r) = [2; 2]%Z | _ => False end) as H
    by (vm_compute; split; reflexivity).
  destruct (py_ipf_exact 5 exE_s exI_i exQ_m) as [r| | |]; try contradiction. destruct H as [H Hsh].
  exists r. split; [reflexivity|]. split; [exact H|].
  destruct r as [[sh fl] ? ? ? ?]. cbn [ir_array shape flat] in *. subst sh.
  destruct fl as [|a [|b [|c [|d [|? ?]]]]]; try discriminate H. cbn [map] in H. injection H as Ha Hb Hc Hd.
  assert (forall i, In i [[0; 0]; [0; 1]; [1; 0]; [1; 1]]%Z -> entryQ (NDA [2; 2]%Z [a; b; c; d]) i = 1 / 2) as Ef.
  { intros i [<-|[<-|[<-|[<-|[]]]]]; unfold entryQ; match goal with |- Q2R (this ?x) = _ => let y := eval vm_compute in x in change x with y end;
      rewrite ?Ha, ?Hb, ?Hc, ?Hd; unfold Q2R; simpl; lra. }
  assert (entryQ exE_p [0; 0]%Z = 3 / 4 /\ entryQ exE_p [0; 1]%Z = 1 / 4 /\ entryQ exE_p [1; 0]%Z = 1 / 4 /\ entryQ exE_p [1; 1]%Z = 3 / 4) as (P0 & P1 & P2 & P3)
    by (unfold entryQ, Q2R; simpl; repeat split; lra).
  repeat match goal with |- _ /\ _ => split end.
  - intros i Hi. apply in22 in Hi. split; [destruct Hi as [<-|[<-|[<-|[<-|[]]]]]; lra|].
    destruct Hi as [<-|[<-|[<-|[<-|[]]]]]; split; discriminate.
  - intros c' k Hc' Hk.
    assert (forall g, marginR [2; 2]%Z [0]%Z [0]%Z g = g [0; 0]%Z + (g [0; 1]%Z + 0)) as M1 by reflexivity.
    assert (forall g, marginR [2; 2]%Z [0]%Z [1]%Z g = g [1; 0]%Z + (g [1; 1]%Z + 0)) as M2 by reflexivity.
    assert (forall g, marginR [2; 2]%Z [1]%Z [0]%Z g = g [0; 0]%Z + (g [1; 0]%Z + 0)) as M3 by reflexivity.
    assert (forall g, marginR [2; 2]%Z [1]%Z [1]%Z g = g [0; 1]%Z + (g [1; 1]%Z + 0)) as M4 by reflexivity.
    apply in_all_indices in Hk.
    destruct Hc' as [<-|[<-|[]]]; destruct Hk as [<-|[<-|[]]];
      match goal with |- marginR _ ?d _ _ = _ => let y := eval vm_compute in d in change d with y end;
      rewrite ?M1, ?M2, ?M3, ?M4, !Ef by (simpl; tauto); lra.
  - rewrite Ef by (simpl; tauto). lra.
Qed.

Lemma exU_ok : wf_array exE_u /\ (forall i, index_in [2; 2]%Z i -> entry 0%Qc exE_u i = 1%Qc) /\
  (exists res, py_ipf_exact 5 exE_u exI_i exQ_m = Ok res /\ map this (flat (ir_array res)) = [1 # 2; 1 # 2; 1 # 2; 1 # 2]%Q).
Proof.
  split; [apply shape_by; vm_compute; reflexivity|]. split.
  - intros i Hi. apply in22 in Hi. destruct Hi as [<-|[<-|[<-|[<-|[]]]]]; reflexivity.
  - assert (match py_ipf_exact 5 exE_u exI_i exQ_m with Ok r => map this (flat (ir_array r)) = [1 # 2; 1 # 2; 1 # 2; 1 # 2]%Q | _ => False end) as H
      by (vm_compute; reflexivity).
    destruct (py_ipf_exact 5 exE_u exI_i exQ_m) as [r| | |]; try contradiction. exists r. now split.
Qed.
