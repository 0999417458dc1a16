(** ipf in exact arithmetic converges when some table on the support of the seed has all the marginals (C63). *)
From Coq Require Import QArith Qcanon Qreals Reals Lra Lia Psatz.
From Verif Require Import Base Spec SpecFacts NDArray IndexProofs Float64 ArrayOps ArrayProofs Bind BindProofs Micro Qis
  SynthSpec MicroProofs QisProofs QisClaims Ipf IpfSpec IpfProofs MicroDbl IpfClaims IpfExact IpfLimit RealSpec IntegeriseProofs Raking.
Open Scope Z_scope.

(** * Rationals as reals *)

Definition q2r (x : Qc) : R := Q2R (this x).

Lemma q2r_0 : q2r 0 = 0%R. Proof. unfold q2r, Q2R. simpl. lra. Qed.
Lemma q2r_plus x y : q2r (x + y) = (q2r x + q2r y)%R.
Proof. unfold q2r. rewrite <- Q2R_plus. apply Qeq_eqR. apply Qred_correct. Qed.
Lemma q2r_mult x y : q2r (x * y) = (q2r x * q2r y)%R.
Proof. unfold q2r. rewrite <- Q2R_mult. apply Qeq_eqR. apply Qred_correct. Qed.
Lemma q2r_opp x : q2r (- x) = (- q2r x)%R.
Proof. unfold q2r. rewrite <- Q2R_opp. apply Qeq_eqR. apply Qred_correct. Qed.
Lemma q2r_minus x y : q2r (x - y) = (q2r x - q2r y)%R.
Proof. unfold Qcminus. rewrite q2r_plus, q2r_opp. reflexivity. Qed.
Lemma q2r_inj x y : q2r x = q2r y -> x = y.
Proof. intros H. apply eqR_Qeq in H. now apply Qc_is_canon. Qed.
Lemma q2r_inv x : x <> 0%Qc -> q2r (/ x) = (/ q2r x)%R.
Proof.
  intros H. unfold q2r. rewrite <- Q2R_inv.
  - apply Qeq_eqR. apply Qred_correct.
  - intros E. apply H. now apply Qc_is_canon.
Qed.
Lemma q2r_div x y : y <> 0%Qc -> q2r (x / y) = (q2r x / q2r y)%R.
Proof. intros H. unfold Qcdiv. now rewrite q2r_mult, q2r_inv. Qed.
Lemma q2r_le x y : (x <= y)%Qc <-> (q2r x <= q2r y)%R.
Proof. split; [apply Qle_Rle|apply Rle_Qle]. Qed.
Lemma q2r_lt x y : (x < y)%Qc <-> (q2r x < q2r y)%R.
Proof. split; [apply Qlt_Rlt|apply Rlt_Qlt]. Qed.
Lemma q2r_sum {A} (f : A -> Qc) l : q2r (fold_right Qcplus 0%Qc (map f l)) = sumR (map (fun i => q2r (f i)) l).
Proof. induction l as [|x l IH]; simpl; [apply q2r_0|]. now rewrite q2r_plus, IH. Qed.

Lemma q_ltb_lt x y : q_ltb x y = true <-> (q2r x < q2r y)%R.
Proof.
  unfold q_ltb. rewrite negb_true_iff, <- q2r_lt. split.
  - intros H. apply Qnot_le_lt. intros H'. apply Qle_bool_iff in H'. congruence.
  - intros H. destruct (Qle_bool y x) eqn:E; auto. apply Qle_bool_iff in E. exfalso. now apply (Qlt_not_le x y).
Qed.

Lemma q2r_abs x : q2r (q_abs x) = Rabs (q2r x).
Proof.
  unfold q_abs. destruct (q_ltb x 0) eqn:E.
  - apply q_ltb_lt in E. rewrite q2r_0 in E. rewrite q2r_opp, Rabs_left; auto.
  - rewrite Rabs_right; auto. apply Rle_ge. rewrite <- q2r_0. apply Rnot_lt_le. intros H. apply q_ltb_lt in H. congruence.
Qed.

(** * The sweeps *)

Section Conv.
Context (sizes : list Z) (p : list Z -> Qc).
Let S := all_indices sizes.
Let F (f : list Z -> Qc) : list Z -> R := fun i => q2r (f i).
Hypothesis Hp : forall i, index_in sizes i -> (0 <= p i)%Qc.

Lemma Fp i : In i S -> (0 <= F p i)%R.
Proof. intros Hi. unfold F. rewrite <- q2r_0. apply q2r_le. apply Hp. now apply in_all_indices. Qed.

Lemma cellR_q dims f k : cellR S (proj dims) (F f) k = q2r (marginQ sizes dims k f).
Proof. unfold cellR, marginQ, F. now rewrite q2r_sum. Qed.

(** the table has the marginal *)
Definition meets (c : gcon Qc) : Prop := forall k, index_in (g_sizes c) k -> marginQ sizes (g_dims c) k p = g_at c k.

Notation stepQ := (step QcScale Qcplus sizes).
Notation sweepQ cs := (sweep QcScale Qcplus sizes cs).
Definition D (f : list Z -> Qc) : R := divR S (F p) (F f).
Definition good (f : list Z -> Qc) : Prop := over S (F p) (F f).
Definition full (f : list Z -> Qc) : Prop := sumR (map (F f) S) = sumR (map (F p) S).

Section One.
Context (c : gcon Qc) (Hwi : well_indexed sizes c) (Hm : meets c).

Lemma in_cells i : In i S -> In (proj (g_dims c) i) (all_indices (g_sizes c)).
Proof. intros Hi. apply in_all_indices in Hi. apply in_all_indices. destruct Hwi as (_ & _ & Hv & _ & ->). now apply index_in_valid_proj. Qed.

Lemma step_real f i : In i S -> F (stepQ c f) i =
  if Req_EM_T (cellR S (proj (g_dims c)) (F f) (proj (g_dims c) i)) 0 then 0%R
  else (F f i * (cellR S (proj (g_dims c)) (F p) (proj (g_dims c) i) / cellR S (proj (g_dims c)) (F f) (proj (g_dims c) i)))%R.
Proof.
  intros Hi. unfold F at 1. rewrite step_fac, !cellR_q. unfold fac.
  rewrite (Hm (proj (g_dims c) i)) by (apply in_all_indices; now apply in_cells).
  set (r := marginQ sizes (g_dims c) (proj (g_dims c) i) f). destruct (Qc_eq_bool r 0) eqn:E; destruct (Req_EM_T (q2r r) 0) as [E'|N'].
  - rewrite q2r_mult, q2r_0. apply Rmult_0_r.
  - apply qc_eqb in E. rewrite E, q2r_0 in N'. easy.
  - assert (r = 0%Qc) as Er by (apply q2r_inj; now rewrite q2r_0). apply qc_eqb in Er. congruence.
  - rewrite q2r_mult, q2r_div; [reflexivity|]. intros Er. apply qc_eqb in Er. congruence.
Qed.

Let K := all_indices (g_sizes c).
Lemma step_good f : good f -> good (stepQ c f) /\ full (stepQ c f).
Proof.
  intros Hf. split.
  - apply (step_over S (proj (g_dims c)) (F p) Fp (F f)); auto. apply step_real.
  - apply (step_total S K (proj (g_dims c)) (F p) (NoDup_all_indices _) in_cells Fp (F f)); auto. apply step_real.
Qed.

Lemma step_D f : good f -> full f -> (D (stepQ c f) <= D f)%R.
Proof.
  intros Hf Hfu. apply (step_fall_nonneg S K (proj (g_dims c)) (F p) (NoDup_all_indices _) in_cells Fp (F f) (F (stepQ c f)) Hf (step_real f) Hfu).
Qed.

Lemma step_close f eta : good f -> full f -> (0 <= eta)%R -> (4 * sumR (map (F p) S) * (D f - D (stepQ c f)) <= eta * eta)%R ->
  (forall k, index_in (g_sizes c) k -> (Rabs (q2r (marginQ sizes (g_dims c) k f) - q2r (g_at c k)) <= eta)%R) /\
  (sumR (map (fun i => Rabs (F (stepQ c f) i - F f i)) S) <= INR (length K) * eta)%R.
Proof.
  intros Hf Hfu He Hd. split.
  - intros k Hk. rewrite <- Hm by auto. rewrite <- !cellR_q.
    apply (step_error S K (proj (g_dims c)) (F p) (NoDup_all_indices _) in_cells Fp (F f) (F (stepQ c f)) Hf (step_real f) Hfu eta He Hd).
    now apply in_all_indices.
  - apply (step_moves S K (proj (g_dims c)) (F p) (NoDup_all_indices _) in_cells Fp (F f) (F (stepQ c f)) Hf (step_real f) Hfu eta He Hd).
Qed.
End One.

Lemma D_nonneg f : good f -> full f -> (0 <= D f)%R.
Proof. intros Hf Hfu. pose proof (divR_ge S (F p) Fp (F f) Hf) as H. red in Hfu. rewrite Hfu in H. unfold D. lra. Qed.

Lemma full_pos : (0 <= sumR (map (F p) S))%R.
Proof. rewrite <- (sumR_zero (fun _ : list Z => 0%R) S) by auto. apply sumR_le. exact Fp. Qed.

Definition ok (c : gcon Qc) : Prop := well_indexed sizes c /\ meets c.
Definition weight (cs : list (gcon Qc)) : R := sumR (map (fun c => INR (length (all_indices (g_sizes c)))) cs).

Lemma weight_nonneg cs : (0 <= weight cs)%R.
Proof. unfold weight. rewrite <- (sumR_zero (fun _ : gcon Qc => 0%R) cs) by auto. apply sumR_le. intros. apply pos_INR. Qed.

Lemma sweep_cons c cs f : sweepQ (c :: cs) f = sweepQ cs (stepQ c f). Proof. reflexivity. Qed.

Lemma sweep_good cs : forall f, Forall ok cs -> good f -> good (sweepQ cs f) /\ (full f \/ cs <> [] -> full (sweepQ cs f)).
Proof.
  induction cs as [|c cs IH]; intros f Hc Hf; [split; [auto|intros [H|H]; [auto|easy]]|]. inversion Hc as [|? ? [H1 H2] Hc']; subst. rewrite sweep_cons.
  destruct (step_good c H1 H2 f Hf) as [G1 G2]. destruct (IH _ Hc' G1) as [G3 G4]. split; auto.
Qed.

Lemma sweep_D cs : forall f, Forall ok cs -> good f -> full f -> (D (sweepQ cs f) <= D f)%R.
Proof.
  induction cs as [|c cs IH]; intros f Hc Hf Hfu; [apply Rle_refl|]. inversion Hc as [|? ? [H1 H2] Hc']; subst. rewrite sweep_cons.
  destruct (step_good c H1 H2 f Hf) as [G1 G2]. eapply Rle_trans; [now apply IH|]. now apply step_D.
Qed.

Lemma margin_moves dims k f g : (Rabs (q2r (marginQ sizes dims k f) - q2r (marginQ sizes dims k g)) <= sumR (map (fun i => Rabs (F f i - F g i)) S))%R.
Proof.
  rewrite <- !cellR_q. unfold cellR. rewrite <- sumR_minus. eapply Rle_trans; [apply sumR_abs|]. apply sumR_filter_le. intros. apply Rabs_pos.
Qed.

(** a sweep that lowers the divergence by little started close to all the marginals *)
Lemma sweep_close cs eta : (0 <= eta)%R -> forall f, Forall ok cs -> good f -> full f ->
  (4 * sumR (map (F p) S) * (D f - D (sweepQ cs f)) <= eta * eta)%R ->
  forall c k, In c cs -> index_in (g_sizes c) k -> (Rabs (q2r (marginQ sizes (g_dims c) k f) - q2r (g_at c k)) <= eta * (1 + weight cs))%R.
Proof.
  intros He. induction cs as [|c cs IH]; intros f Hc Hf Hfu Hd c' k Hin Hk; [easy|]. inversion Hc as [|? ? [H1 H2] Hc']; subst. rewrite sweep_cons in Hd.
  destruct (step_good c H1 H2 f Hf) as [G1 G2]. pose proof (step_D c H1 H2 f Hf Hfu) as D1. pose proof (sweep_D cs _ Hc' G1 G2) as D2.
  pose proof full_pos as P0. set (P := sumR (map (F p) S)) in *.
  assert (4 * P * (D f - D (stepQ c f)) <= eta * eta)%R as B1 by nra.
  assert (4 * P * (D (stepQ c f) - D (sweepQ cs (stepQ c f))) <= eta * eta)%R as B2 by nra.
  destruct (step_close c H1 H2 f eta Hf Hfu He B1) as [E1 E2]. pose proof (weight_nonneg cs) as W0.
  assert (weight (c :: cs) = INR (length (all_indices (g_sizes c))) + weight cs)%R as -> by reflexivity.
  pose proof (pos_INR (length (all_indices (g_sizes c)))) as L0. destruct Hin as [<-|Hin].
  - eapply Rle_trans; [now apply E1|]. nra.
  - pose proof (IH _ Hc' G1 G2 B2 c' k Hin Hk) as E3. pose proof (margin_moves (g_dims c') k (stepQ c f) f) as E4.
    assert (sumR (map (fun i => Rabs (F (stepQ c f) i - F f i)) S) <= INR (length (all_indices (g_sizes c))) * eta)%R as E5 by exact E2.
    set (x := q2r (marginQ sizes (g_dims c') k f)) in *. set (y := q2r (marginQ sizes (g_dims c') k (stepQ c f))) in *.
    replace (x - q2r (g_at c' k))%R with ((y - q2r (g_at c' k)) - (y - x))%R by ring.
    eapply Rle_trans; [apply Rabs_triang|]. rewrite Rabs_Ropp. nra.
Qed.

(** * The loop *)

Context (cs : list (gcon Qc)) (Hok : Forall ok cs) (Hne : cs <> []).
Notation conv := (converged QcScale QcErr Qcplus sizes cs).

Lemma conv_of f : (forall c k, In c cs -> index_in (g_sizes c) k -> (Rabs (q2r (marginQ sizes (g_dims c) k f) - q2r (g_at c k)) < q2r q_1em8)%R) ->
  conv f = true.
Proof.
  intros H. unfold converged. cbn [sc_num QcScale n_ltb QcOps e_tol QcErr]. apply q_ltb_lt. unfold max_error.
  assert (forall l m, incl l cs -> (q2r m < q2r q_1em8)%R ->
    (q2r (fold_left (fun m c => fold_left (max_step QcScale) (errors_of QcScale QcErr Qcplus sizes f c) m) l m) < q2r q_1em8)%R) as G.
  { induction l as [|c l IH]; intros m Hi Hm; auto. cbn [fold_left]. apply IH; [intros x Hx; apply Hi; now right|].
    unfold errors_of. assert (forall k, In k (all_indices (g_sizes c)) -> (q2r (cell_error QcScale QcErr Qcplus sizes f c k) < q2r q_1em8)%R) as Hk.
    { intros k Hk. apply in_all_indices in Hk. unfold cell_error. cbn [e_abs QcErr sc_diff QcScale]. rewrite gmargin_Q, q2r_abs, q2r_minus.
      apply H; auto. apply Hi. now left. }
    revert Hk m Hm. generalize (all_indices (g_sizes c)) as ks. induction ks as [|k ks IHk]; intros Hk m Hm; auto. cbn [map fold_left].
    apply IHk; [intros; apply Hk; now right|]. unfold max_step. destruct (n_ltb _ _ _); auto. apply Hk. now left. }
  apply G; [apply incl_refl|]. cbn [e_lowest QcErr]. apply q2r_lt. reflexivity.
Qed.

Fixpoint iter (n : nat) (f : list Z -> Qc) : list Z -> Qc := match n with O => f | Datatypes.S n => iter n (sweepQ cs f) end.

Lemma iter_S n : forall f, iter (Datatypes.S n) f = sweepQ cs (iter n f).
Proof. induction n as [|n IH]; intros f; [reflexivity|]. change (iter (Datatypes.S (Datatypes.S n)) f) with (iter (Datatypes.S n) (sweepQ cs f)). now rewrite IH. Qed.

Lemma iter_good f n : good f -> good (iter n f) /\ (full f \/ (0 < n)%nat -> full (iter n f)).
Proof.
  intros Hf. induction n as [|n [IH1 IH2]]; [split; [auto|intros [H|H]; [auto|lia]]|]. rewrite iter_S.
  destruct (sweep_good cs _ Hok IH1) as [G1 G2]. split; auto.
Qed.

Lemma some_converged f : good f -> full f -> exists n, conv (iter n f) = true.
Proof.
  intros Hf Hfu. set (P := sumR (map (F p) S)). pose proof full_pos as P0. fold P in P0. pose proof (weight_nonneg cs) as W0.
  set (tol := q2r q_1em8). assert (0 < tol)%R as T0 by (unfold tol; rewrite <- q2r_0; apply q2r_lt; reflexivity).
  set (eta := (tol / (2 * (1 + weight cs)))%R). assert (0 < eta)%R as E0 by (apply Rdiv_lt_0_compat; lra).
  assert (eta * (1 + weight cs) < tol)%R as E1 by (unfold eta; replace (tol / (2 * (1 + weight cs)) * (1 + weight cs))%R with (tol / 2)%R by (field; lra); lra).
  set (delta := (eta * eta / (4 * (P + 1)))%R). assert (0 < delta)%R as D0 by (apply Rdiv_lt_0_compat; nra).
  assert (forall n, (forall m, (m <= n)%nat -> conv (iter m f) = false) -> (D (iter (Datatypes.S n) f) <= D f - INR (Datatypes.S n) * delta)%R) as G.
  { induction n as [|n IH]; intros Hc.
    - specialize (Hc 0%nat ltac:(lia)). cbn [iter] in *. change (INR 1) with 1%R. apply Rnot_lt_le. intros Hlt.
      rewrite conv_of in Hc; [discriminate|]. intros c k Hin Hk. eapply Rle_lt_trans; [|exact E1]. apply (sweep_close cs eta); auto; [lra|]. fold P.
      apply Rle_trans with (4 * (P + 1) * delta)%R; [|unfold delta; right; field; lra]. pose proof (sweep_D cs f Hok Hf Hfu). nra.
    - specialize (IH (fun m Hm => Hc m ltac:(lia))). specialize (Hc (Datatypes.S n) ltac:(lia)). rewrite iter_S. destruct (iter_good f (Datatypes.S n) Hf) as [G1 G2].
      specialize (G2 (or_introl Hfu)). set (g := iter (Datatypes.S n) f) in *. rewrite (S_INR (Datatypes.S n)).
      enough (D (sweepQ cs g) <= D g - delta)%R by lra. apply Rnot_lt_le. intros Hlt.
      rewrite conv_of in Hc; [discriminate|]. intros c k Hin Hk. eapply Rle_lt_trans; [|exact E1]. apply (sweep_close cs eta); auto; [lra|]. fold P.
      apply Rle_trans with (4 * (P + 1) * delta)%R; [|unfold delta; right; field; lra]. pose proof (sweep_D cs g Hok G1 G2). nra. }
  destruct (Rlt_le_dec (D f) 0) as [Hneg|_]; [pose proof (D_nonneg f Hf Hfu); lra|].
  assert (exists N, D f / delta < INR N)%R as [N HN].
  { destruct (archimed (D f / delta)) as [Hup _]. exists (Z.to_nat (up (D f / delta))). rewrite INR_IZR_INZ.
    eapply Rlt_le_trans; [exact Hup|]. apply IZR_le. lia. }
  assert ((exists n, conv (iter n f) = true) \/ forall m, (m <= N)%nat -> conv (iter m f) = false) as [H|H].
  { clear. induction N as [|N [IH|IH]]; [|auto|].
    - destruct (conv (iter 0 f)) eqn:E; [left; eauto|right]. intros m Hm. now replace m with 0%nat by lia.
    - destruct (conv (iter (Datatypes.S N) f)) eqn:E; [left; eauto|right]. intros m Hm.
      destruct (Nat.eq_dec m (Datatypes.S N)) as [->|]; auto. apply IH. lia. }
  { exact H. }
  exfalso. specialize (G N H). destruct (iter_good f (Datatypes.S N) Hf) as [G1 G2].
  pose proof (D_nonneg _ G1 (G2 (or_introl Hfu))) as Hn. rewrite S_INR in G.
  assert (D f < INR N * delta)%R; [|nra]. apply (Rmult_lt_compat_r delta) in HN; auto. unfold Rdiv in HN. rewrite Rmult_assoc, Rinv_l, Rmult_1_r in HN by lra. exact HN.
Qed.
End Conv.

Lemma sweeps_conv sizes cs m : forall left f n, (m < left)%nat -> converged QcScale QcErr Qcplus sizes cs (iter sizes cs m (sweep QcScale Qcplus sizes cs f)) = true ->
  converged QcScale QcErr Qcplus sizes cs (fst (sweeps QcScale QcErr Qcplus sizes cs left f n)) = true.
Proof.
  induction m as [|m IH]; intros [|left] f n Hl Hc; try lia; cbn [sweeps]; destruct (converged QcScale QcErr Qcplus sizes cs (sweep QcScale Qcplus sizes cs f)) eqn:E; auto.
  - cbn [iter] in Hc. congruence.
  - apply IH; [lia|]. exact Hc.
Qed.

(** * The calls *)

Lemma limit_solve_ok sizes (cs : list (gcon Qc)) fuel limit pop f h : fits sizes -> (forall c, In c cs -> well_indexed sizes c) -> prodZ sizes < Z.of_nat fuel ->
  (0 < limit)%nat ->
  ipf_solve_limit QcScale QcErr limit fuel (MS sizes (map g_dims cs) pop (mkp sizes h)) (map gnd cs) (mk sizes f) =
  let '(f', n') := sweeps QcScale QcErr Qcplus sizes cs limit f 0 in
  Ok (IS (mk sizes f') (map (err_arr QcScale QcErr Qcplus sizes f') cs) (max_error QcScale QcErr Qcplus sizes cs f') (converged QcScale QcErr Qcplus sizes cs f') n').
Proof.
  intros Hf Hw Hfuel Hl. unfold ipf_solve_limit. cbn [ms_array ms_indices]. rewrite sizes_mk, sizes_mkp, check_seed_same. cbn [bind].
  rewrite index_new_ok by now apply fits_ne. cbn [bind]. unfold make_mappings.
  rewrite (mapM_ok _ (fun dims => MI dims (proj dims sizes) false)).
  2:{ intros dims Hd. apply in_map_iff in Hd as (c & <- & Hc). apply mindex_new_ok. now apply Hw. }
  cbn [bind]. rewrite copy_seed_ok by auto. cbn [bind]. rewrite (new_arrays (T := Qc) sizes cs) by auto. cbn [bind].
  destruct limit as [|left]; [lia|]. apply ipf_loop_ok; auto; apply shaped_map; intros c; eexists; reflexivity.
Qed.

Section Claim.
Context (fuel : nat) (seed : ndarray Qc) (ilist : list (ndarray Z)) (mlist : list (ndarray Qc)).
Hypothesis Hr : g_range 0%Qc ilist mlist.
Hypothesis Hpr : all_proper 0%Qc ilist mlist.
Hypothesis Hws : wf_array seed.
Hypothesis Hs : prodZ (shape seed) < 2 ^ 60.
Hypothesis Hfu : prodZ (shape seed) < Z.of_nat fuel.
Let cs := gcons_of 0%Qc ilist mlist.

Lemma limit_ok res limit : py_ipf_exact fuel seed ilist mlist = Ok res -> (0 < limit)%nat ->
  cs <> [] /\ (forall c, In c cs -> well_indexed (shape seed) c) /\
  let '(f', n') := sweeps QcScale QcErr Qcplus (shape seed) cs limit (entry 0%Qc seed) 0 in
  py_ipf_exact_limit limit fuel seed ilist mlist =
    Ok (IR (NDA (shape seed) (map f' (all_indices (shape seed)))) (converged QcScale QcErr Qcplus (shape seed) cs f') (ir_pop res) n'
         (max_error QcScale QcErr Qcplus (shape seed) cs f')).
Proof.
  intros E Hl.
  destruct (ipf_cases QcMarg QcScale QcErr Qcplus Qcplus 0%Qc 0%Qc (fun _ _ => eq_refl) qpop_cases (fun _ _ => eq_refl)
    fuel seed ilist mlist Hr Hpr Hws Hs Hfu) as [(e & E')|[(w & E' & _)|(pop & Ha & Hf & Hwi & E')]]; unfold py_ipf_exact in E; try congruence.
  fold cs in E', Hwi. pose proof Ha as (Hv & H2 & _ & Hi & _). fold cs in H2, Hi.
  split; [intros E0; rewrite E0 in H2; simpl in H2; lia|]. split; [auto|].
  assert (ir_pop res = pop) as ->.
  { rewrite E in E'. destruct (sweeps QcScale QcErr Qcplus (shape seed) cs (Z.to_nat 1000) (entry 0%Qc seed) 0). now inversion E'. }
  clear E'. unfold py_ipf_exact_limit, py_ipf_limit. unfold py_ipf_gen in E.
  destruct (py_lists_gen 0%Qc ilist mlist Hr) as [[_ El]|[H _]]; [|contradiction]. fold cs in El. rewrite El in *. cbn [bind] in *.
  pose proof (micro_new_tri QcMarg Qcplus (fun _ _ => eq_refl) qpop_cases (T := Qc) cs (range_gsmall 0%Qc _ _ Hr) (proj2 Hr)) as H.
  destruct (micro_new QcMarg (map g_dims cs) (map gnd cs)) as [ms|e|w|]; cbn [bind] in *; try discriminate.
  destruct H as (sizes & pop' & Hi' & Hf' & Hl' & Hl2 & Hn & Hp & ->). rewrite (as_nd_ok 0%Qc) in * by auto. cbn [bind ms_pop] in *.
  destruct (check_seed_cases (shape seed) sizes) as [[<- Es]|[_ (e & Es)]].
  2:{ unfold ipf_solve in E. cbn [ms_array] in E. rewrite sizes_mk, sizes_mkp, Es in E. discriminate. }
  assert (pop' = pop) as ->.
  { assert (exists c, In c cs) as [c Hc] by (destruct cs as [|c l]; [simpl in H2; lia|exists c; now left]).
    destruct Ha as (_ & _ & _ & _ & _ & Hq). specialize (Hq c Hc). specialize (Hp c Hc). congruence. }
  rewrite limit_solve_ok by auto. destruct (sweeps QcScale QcErr Qcplus (shape seed) cs limit (entry 0%Qc seed) 0) as [f' n'].
  cbn [bind is_arr is_conv is_iters is_max]. rewrite from_nd_mk by now apply fits_pos. reflexivity.
Qed.

(** what convergence means *)
Lemma conv_margins sizes (l : list (gcon Qc)) f : converged QcScale QcErr Qcplus sizes l f = true ->
  forall c k, In c l -> index_in (g_sizes c) k -> (q_abs (marginQ sizes (g_dims c) k f - g_at c k) < q_1em8)%Qc.
Proof.
  unfold converged. cbn [sc_num QcScale n_ltb QcOps e_tol QcErr]. intros H c k Hc Hk. apply q_ltb_lt in H. apply q2r_lt. eapply Rle_lt_trans; [|exact H].
  unfold max_error. cbn [e_lowest QcErr]. generalize (- q_max)%Qc as m0.
  assert (forall m e, (q2r m <= q2r (max_step QcScale m e))%R /\ (q2r e <= q2r (max_step QcScale m e))%R) as Hm.
  { intros m e. unfold max_step. cbn [sc_num QcScale n_ltb QcOps]. destruct (q_ltb m e) eqn:E; [apply q_ltb_lt in E; lra|].
    split; [apply Rle_refl|]. apply Rnot_lt_le. intros H'. apply q_ltb_lt in H'. congruence. }
  assert (forall es m, (q2r m <= q2r (fold_left (max_step QcScale) es m))%R /\ forall e, In e es -> (q2r e <= q2r (fold_left (max_step QcScale) es m))%R) as Hl.
  { induction es as [|e es IH]; intros m; cbn [fold_left]; [split; [apply Rle_refl|easy]|]. destruct (IH (max_step QcScale m e)) as [H1 H2]. destruct (Hm m e) as [H3 H4].
    split; [lra|]. intros e' [<-|He]; [lra|auto]. }
  assert (forall cs m, (q2r m <= q2r (fold_left (fun m c => fold_left (max_step QcScale) (errors_of QcScale QcErr Qcplus sizes f c) m) cs m))%R) as Hc1.
  { induction cs0 as [|c' cs' IH]; intros m; cbn [fold_left]; [apply Rle_refl|]. eapply Rle_trans; [apply (proj1 (Hl (errors_of QcScale QcErr Qcplus sizes f c') m))|apply IH]. }
  clear H. revert Hc. induction l as [|c' l' IH]; intros Hc m0; [easy|]. cbn [fold_left]. destruct Hc as [->|Hc]; [|now apply IH].
  eapply Rle_trans; [|apply Hc1]. apply Hl. unfold errors_of. apply in_map_iff. exists k. split; [|now apply in_all_indices].
  unfold cell_error. cbn [e_abs QcErr sc_diff QcScale]. now rewrite gmargin_Q.
Qed.

Lemma conv_claim res p : py_ipf_exact fuel seed ilist mlist = Ok res ->
  (forall i, index_in (shape seed) i -> (0 <= entry 0%Qc seed i)%Qc) ->
  (forall i, index_in (shape seed) i -> (0 <= p i)%Qc) ->
  (forall i, index_in (shape seed) i -> p i <> 0%Qc -> entry 0%Qc seed i <> 0%Qc) ->
  (forall c k, In c cs -> index_in (g_sizes c) k -> marginQ (shape seed) (g_dims c) k p = g_at c k) ->
  exists N, forall limit, (N <= limit)%nat -> exists res', py_ipf_exact_limit limit fuel seed ilist mlist = Ok res' /\ ir_conv res' = true /\
    forall c k, In c cs -> index_in (g_sizes c) k -> (q_abs (marginQ (shape seed) (g_dims c) k (entry 0%Qc (ir_array res')) - g_at c k) < q_1em8)%Qc.
Proof.
  intros E Hseed Hp Hsup Hm. destruct (limit_ok res 1 E ltac:(lia)) as (Hne & Hwi & _).
  assert (Forall (ok (shape seed) p) cs) as Hok.
  { apply Forall_forall. intros c Hc. split; auto. intros k Hk. now apply Hm. }
  assert (good (shape seed) p (entry 0%Qc seed)) as Hg.
  { split; intros i Hi; apply in_all_indices in Hi.
    - rewrite <- q2r_0. apply q2r_le. auto.
    - intros H. assert (p i <> 0%Qc) as Hn by (intros E0; rewrite E0, q2r_0 in H; lra). specialize (Hsup i Hi Hn). specialize (Hseed i Hi).
      apply q2r_le in Hseed. rewrite q2r_0 in Hseed. destruct Hseed as [|E0]; auto. exfalso. apply Hsup. apply q2r_inj. now rewrite q2r_0. }
  destruct (sweep_good (shape seed) p Hp cs (entry 0%Qc seed) Hok Hg) as [G1 G2]. specialize (G2 (or_intror Hne)).
  destruct (some_converged (shape seed) p Hp cs Hok Hne _ G1 G2) as [m Hcm]. exists (Datatypes.S m). intros limit Hl.
  destruct (limit_ok res limit E ltac:(lia)) as (_ & _ & E').
  pose proof (sweeps_conv (shape seed) cs m limit (entry 0%Qc seed) 0 ltac:(lia) Hcm) as Hc.
  destruct (sweeps QcScale QcErr Qcplus (shape seed) cs limit (entry 0%Qc seed) 0) as [f' n']. cbn [fst] in Hc.
  eexists. split; [exact E'|]. split; [exact Hc|]. intros c k Hin Hk. cbn [ir_array].
  replace (marginQ (shape seed) (g_dims c) k _) with (marginQ (shape seed) (g_dims c) k f'); [now apply (conv_margins _ cs)|].
  unfold marginQ. f_equal. apply map_ext_in. intros i Hi. apply filter_In in Hi as [Hi _]. symmetry. apply entry_NDA_map. now apply in_all_indices.
Qed.
End Claim.
