(** The progress of ipf in exact arithmetic with two marginals (C80). *)
From Coq Require Import QArith Qcanon Qabs Qreals Reals Lra Lia Psatz.
From Verif Require Import Base Spec SpecFacts NDArray IndexProofs Float64 ArrayOps ArrayProofs Bind BindProofs Micro Qis
  SynthSpec MicroProofs QisProofs QisClaims Ipf IpfSpec IpfProofs MicroDbl IpfClaims IpfExact IpfLimit RealSpec IntegeriseProofs Raking IpfConv
  Entropy MisfitSpec.
Open Scope R_scope.

Lemma q2r_absQ x : q2r (absQ x) = Rabs (q2r x).
Proof.
  unfold absQ, q2r. rewrite (Qeq_eqR _ (Qabs (this x))) by apply Qred_correct.
  destruct (Qlt_le_dec (this x) 0) as [H|H].
  - rewrite (Qeq_eqR _ _ (Qabs_neg _ (Qlt_le_weak _ _ H))), Q2R_opp. apply Qlt_Rlt in H. change (Q2R 0) with (q2r 0) in H. rewrite q2r_0 in H.
    rewrite Rabs_left; auto.
  - rewrite (Qeq_eqR _ _ (Qabs_pos _ H)). apply Qle_Rle in H. change (Q2R 0) with (q2r 0) in H. rewrite q2r_0 in H. rewrite Rabs_right; lra.
Qed.

Section Fit.
Context (sizes : list Z).
Let S := all_indices sizes.
Let F (f : list Z -> Qc) : list Z -> R := fun i => q2r (f i).
Notation stepQ := (step QcScale Qcplus sizes).
Definition nonneg (f : list Z -> Qc) : Prop := forall i, index_in sizes i -> (0 <= f i)%Qc.
Definition nonneg_con (c : gcon Qc) : Prop := forall k, index_in (g_sizes c) k -> (0 <= g_at c k)%Qc.

Lemma nonneg_real f : nonneg f -> forall i, In i S -> 0 <= F f i.
Proof. intros H i Hi. unfold F. rewrite <- q2r_0. apply q2r_le, H. now apply in_all_indices. Qed.

Definition err (c : gcon Qc) (f : list Z -> Qc) : R :=
  sumR (map (fun k => Rabs (q2r (marginQ sizes (g_dims c) k f) - q2r (g_at c k))) (all_indices (g_sizes c))).
Definition dist (f g : list Z -> Qc) : R := sumR (map (fun i => Rabs (F f i - F g i)) S).

Lemma cells_in (c : gcon Qc) : well_indexed sizes c -> forall i, In i S -> In (proj (g_dims c) i) (all_indices (g_sizes c)).
Proof. intros (_ & _ & Hv & _ & ->) i Hi. apply in_all_indices in Hi. apply in_all_indices. now apply index_in_valid_proj. Qed.

(** the factor, over the reals *)
Lemma fac_real c f k : q2r (fac sizes c f k) = if Req_EM_T (q2r (marginQ sizes (g_dims c) k f)) 0 then 0 else q2r (g_at c k) / q2r (marginQ sizes (g_dims c) k f).
Proof.
  unfold fac. set (r := marginQ sizes (g_dims c) k f). destruct (Qc_eq_bool r 0) eqn:E; destruct (Req_EM_T (q2r r) 0) as [E'|N'].
  - apply q2r_0.
  - apply qc_eqb in E. rewrite E, q2r_0 in N'. easy.
  - assert (r = 0%Qc) as Er by (apply q2r_inj; now rewrite q2r_0). apply qc_eqb in Er. congruence.
  - apply q2r_div. intros Er. apply qc_eqb in Er. congruence.
Qed.

Lemma margin_real dims k f : q2r (marginQ sizes dims k f) = cellR S (proj dims) (F f) k.
Proof. unfold cellR, marginQ, F. now rewrite q2r_sum. Qed.

(** fitting a marginal lowers its error by as much as it moves the table *)
Lemma fit_gain c f : well_indexed sizes c -> nonneg f -> err c (stepQ c f) + dist (stepQ c f) f = err c f.
Proof.
  intros Hw Hf. unfold err, dist.
  rewrite (sumR_ext _ (fun i => F f i * (fun k => Rabs (q2r (fac sizes c f k) - 1)) (proj (g_dims c) i)) S).
  2:{ intros i Hi. unfold F at 1. rewrite step_fac, q2r_mult. fold (F f i). pose proof (nonneg_real f Hf i Hi).
      replace (F f i * q2r (fac sizes c f (proj (g_dims c) i)) - F f i) with (F f i * (q2r (fac sizes c f (proj (g_dims c) i)) - 1)) by ring.
      rewrite Rabs_mult, (Rabs_right (F f i)) by lra. reflexivity. }
  rewrite (sumR_group (proj (g_dims c)) (F f) (fun k => Rabs (q2r (fac sizes c f k) - 1)) (all_indices (g_sizes c)) S (NoDup_all_indices (g_sizes c)) (cells_in c Hw)), <- sumR_plus. apply sumR_ext. intros k Hk.
  change (sumR (map (F f) (filter (fun i => idx_eqb (proj (g_dims c) i) k) S))) with (cellR S (proj (g_dims c)) (F f) k).
  rewrite step_margin, q2r_mult, <- margin_real, fac_real. set (r := q2r (marginQ sizes (g_dims c) k f)).
  assert (0 <= r) as Hr by (unfold r; rewrite margin_real; apply cell_nonneg; now apply nonneg_real).
  destruct (Req_EM_T r 0) as [->|N]; [rewrite !Rmult_0_l; lra|].
  replace (r * (q2r (g_at c k) / r)) with (q2r (g_at c k)) by (field; auto). rewrite Rminus_diag_eq, Rabs_R0 by reflexivity.
  rewrite Rplus_0_l. rewrite <- (Rabs_right r) at 1 by lra. rewrite <- Rabs_mult, (Rabs_minus_sym r). f_equal. field; auto.
Qed.

(** a marginal's error changes by no more than the table *)
Lemma err_moves c f g : well_indexed sizes c -> err c g <= err c f + dist g f.
Proof.
  intros Hw. unfold err, dist. rewrite <- (cell_total S (all_indices (g_sizes c)) (proj (g_dims c)) (NoDup_all_indices _) (cells_in c Hw)), <- sumR_plus.
  apply sumR_le. intros k _. rewrite !margin_real.
  assert (Rabs (cellR S (proj (g_dims c)) (F g) k - cellR S (proj (g_dims c)) (F f) k) <= cellR S (proj (g_dims c)) (fun i => Rabs (F g i - F f i)) k) as H.
  { unfold cellR. rewrite <- sumR_minus. apply sumR_abs. }
  revert H. unfold Rabs. repeat destruct (Rcase_abs _); lra.
Qed.

Lemma misfit_real cs f : q2r (misfit sizes cs f) = sumR (map (fun c => err c f) cs).
Proof.
  unfold misfit, sumQ. rewrite q2r_sum. apply sumR_ext. intros c _. rewrite q2r_sum. apply sumR_ext. intros k _. unfold missQ.
  now rewrite q2r_absQ, q2r_minus.
Qed.

Lemma step_two a b c f : well_indexed sizes a -> well_indexed sizes b -> In c [a; b] -> nonneg f ->
  q2r (misfit sizes [a; b] (stepQ c f)) <= q2r (misfit sizes [a; b] f).
Proof.
  intros Ha Hb Hc Hf. rewrite !misfit_real. cbn [map sumR fold_right].
  destruct Hc as [<-|[<-|[]]]; [pose proof (fit_gain a f Ha Hf); pose proof (err_moves b f (stepQ a f) Hb)|
    pose proof (fit_gain b f Hb Hf); pose proof (err_moves a f (stepQ b f) Ha)]; lra.
Qed.

(** ** Ratios *)

Definition fitted (c : gcon Qc) (f : list Z -> Qc) : Prop :=
  forall k, marginQ sizes (g_dims c) k f = g_at c k \/ marginQ sizes (g_dims c) k f = 0%Qc.

Lemma step_fitted c f : fitted c (stepQ c f).
Proof.
  intros k. rewrite step_margin. unfold fac. destruct (Qc_eq_bool (marginQ sizes (g_dims c) k f) 0) eqn:E; [right; ring|left].
  apply Qcmult_div_r. intros H. apply qc_eqb in H. congruence.
Qed.

Lemma cell_zero dims f i : nonneg f -> In i S -> cellR S (proj dims) (F f) (proj dims i) = 0 -> F f i = 0.
Proof.
  intros Hf Hi E. pose proof (cell_ge S (proj dims) (F f) i (nonneg_real f Hf) Hi). pose proof (nonneg_real f Hf i Hi). lra.
Qed.

(** each entry of the cell [k] of [h] is that of [g] times at most, at least, [q] *)
Lemma cell_up (h g : list Z -> R) pr k q : (forall i, In i S -> h i <= q * g i) -> cellR S pr h k <= q * cellR S pr g k.
Proof. intros H. unfold cellR. rewrite <- sumR_mult. apply sumR_le. intros i Hi. apply filter_In in Hi as [Hi _]. auto. Qed.
Lemma cell_down (h g : list Z -> R) pr k q : (forall i, In i S -> q * g i <= h i) -> q * cellR S pr g k <= cellR S pr h k.
Proof. intros H. unfold cellR. rewrite <- sumR_mult. apply sumR_le. intros i Hi. apply filter_In in Hi as [Hi _]. auto. Qed.

Section Ratio.
Context (a b : gcon Qc) (Ha : well_indexed sizes a) (Hb : well_indexed sizes b) (Na : nonneg_con a) (Nb : nonneg_con b).
Context (f : list Z -> Qc) (Hf : nonneg f) (Fb : fitted b f).
Let g := stepQ a f.
Let h := stepQ b g.

Lemma con_real c k : nonneg_con c -> In k (all_indices (g_sizes c)) -> 0 <= q2r (g_at c k).
Proof. intros H Hk. rewrite <- q2r_0. apply q2r_le, H. now apply in_all_indices. Qed.

Lemma g_nonneg : nonneg g. Proof. intros i Hi. now apply step_nonneg. Qed.
Lemma h_nonneg : nonneg h. Proof. intros i Hi. apply step_nonneg; auto. exact g_nonneg. Qed.

Lemma step_F c u i : F (stepQ c u) i = F u i * q2r (fac sizes c u (proj (g_dims c) i)).
Proof. unfold F. now rewrite step_fac, q2r_mult. Qed.

Lemma b_le k : In k (all_indices (g_sizes b)) -> cellR S (proj (g_dims b)) (F f) k <= q2r (g_at b k).
Proof. intros Hk. rewrite <- margin_real. pose proof (con_real b k Nb Hk). destruct (Fb k) as [-> | ->]; [lra|rewrite q2r_0; auto]. Qed.

Lemma g_sum k : cellR S (proj (g_dims a)) (F f) k <> 0 -> cellR S (proj (g_dims a)) (F g) k = q2r (g_at a k).
Proof.
  intros H. rewrite <- margin_real in *. unfold g. rewrite step_margin, q2r_mult, fac_real. destruct (Req_EM_T _ _); [easy|]. field. auto.
Qed.
Lemma g_sum0 k : cellR S (proj (g_dims a)) (F f) k = 0 -> cellR S (proj (g_dims a)) (F g) k = 0.
Proof. intros H. rewrite <- margin_real in *. unfold g. rewrite step_margin, q2r_mult, H. ring. Qed.

Lemma up_kept q : 0 <= q -> (forall k, In k (all_indices (g_sizes a)) -> cellR S (proj (g_dims a)) (F f) k <= q * q2r (g_at a k)) ->
  forall k, In k (all_indices (g_sizes a)) -> cellR S (proj (g_dims a)) (F h) k <= q * q2r (g_at a k).
Proof.
  intros Hq H k Hk.
  assert (forall i, In i S -> F f i <= q * F g i) as E1.
  { intros i Hi. unfold g. rewrite step_F, fac_real, margin_real. pose proof (cells_in a Ha i Hi) as Hc. specialize (H _ Hc).
    set (r := cellR S (proj (g_dims a)) (F f) (proj (g_dims a) i)) in *. pose proof (nonneg_real f Hf i Hi).
    destruct (Req_EM_T r 0) as [E|N].
    - rewrite (cell_zero (g_dims a) f i Hf Hi E). lra.
    - assert (0 < r) as Pr by (pose proof (cell_ge S (proj (g_dims a)) (F f) i (nonneg_real f Hf) Hi); fold r in H1; pose proof (cell_nonneg S (proj (g_dims a)) (F f) (proj (g_dims a) i) (nonneg_real f Hf)); fold r in H2; lra).
      replace (q * (F f i * (q2r (g_at a (proj (g_dims a) i)) / r))) with (F f i * ((q * q2r (g_at a (proj (g_dims a) i))) / r)) by (field; lra).
      rewrite <- (Rmult_1_r (F f i)) at 1. apply Rmult_le_compat_l; auto. apply Rmult_le_reg_r with r; auto. unfold Rdiv. rewrite Rmult_assoc, Rinv_l by lra. lra. }
  assert (forall i, In i S -> F h i <= q * F g i) as E2.
  { intros i Hi. unfold h. rewrite step_F, fac_real, margin_real. pose proof (cells_in b Hb i Hi) as Hc. pose proof (nonneg_real g g_nonneg i Hi) as Pg.
    set (r := cellR S (proj (g_dims b)) (F g) (proj (g_dims b) i)) in *.
    destruct (Req_EM_T r 0) as [E|N]; [rewrite Rmult_0_r; now apply Rmult_le_pos|].
    assert (0 < r) as Pr by (pose proof (cell_nonneg S (proj (g_dims b)) (F g) (proj (g_dims b) i) (nonneg_real g g_nonneg)); fold r in H0; lra).
    rewrite Rmult_comm. apply Rmult_le_compat_r; auto.
    apply Rmult_le_reg_r with r; auto. unfold Rdiv. rewrite Rmult_assoc, Rinv_l, Rmult_1_r by lra.
    destruct (Fb (proj (g_dims b) i)) as [B|B].
    - rewrite <- B, margin_real. apply Rle_trans with (1 * cellR S (proj (g_dims b)) (F f) (proj (g_dims b) i)); [lra|].
      unfold r. unfold cellR. rewrite <- !sumR_mult. apply sumR_le. intros j Hj. apply filter_In in Hj as [Hj _]. rewrite Rmult_1_l. auto.
    - exfalso. apply N. unfold r, cellR. apply sumR_zero. intros j Hj. apply filter_In in Hj as [Hj Ej]. apply idx_eqb_true in Ej.
      unfold g. rewrite step_F. rewrite (cell_zero (g_dims b) f j Hf Hj); [ring|]. rewrite Ej, <- margin_real, B. apply q2r_0. }
  apply Rle_trans with (q * cellR S (proj (g_dims a)) (F g) k); [now apply cell_up|]. apply Rmult_le_compat_l; auto.
  destruct (Req_EM_T (cellR S (proj (g_dims a)) (F f) k) 0) as [E|N]; [rewrite g_sum0 by auto; now apply con_real|rewrite g_sum by auto; apply Rle_refl].
Qed.

Lemma down_kept q : 0 <= q -> (forall k, In k (all_indices (g_sizes a)) -> q * q2r (g_at a k) <= cellR S (proj (g_dims a)) (F f) k) ->
  forall k, In k (all_indices (g_sizes a)) -> q * q2r (g_at a k) <= cellR S (proj (g_dims a)) (F h) k.
Proof.
  intros Hq H k Hk.
  assert (forall i, In i S -> q * F g i <= F f i) as E1.
  { intros i Hi. unfold g. rewrite step_F, fac_real, margin_real. pose proof (cells_in a Ha i Hi) as Hc. specialize (H _ Hc).
    set (r := cellR S (proj (g_dims a)) (F f) (proj (g_dims a) i)) in *. pose proof (nonneg_real f Hf i Hi).
    destruct (Req_EM_T r 0) as [E|N]; [lra|].
    assert (0 < r) as Pr by (pose proof (cell_nonneg S (proj (g_dims a)) (F f) (proj (g_dims a) i) (nonneg_real f Hf)); fold r in H1; lra).
    replace (q * (F f i * (q2r (g_at a (proj (g_dims a) i)) / r))) with (F f i * ((q * q2r (g_at a (proj (g_dims a) i))) / r)) by (field; lra).
    rewrite <- (Rmult_1_r (F f i)) at 2. apply Rmult_le_compat_l; auto. apply Rmult_le_reg_r with r; auto. unfold Rdiv. rewrite Rmult_assoc, Rinv_l by lra. lra. }
  assert (forall i, In i S -> q * F g i <= F h i) as E2.
  { intros i Hi. unfold h. rewrite step_F, fac_real, margin_real. pose proof (cells_in b Hb i Hi) as Hc. pose proof (nonneg_real g g_nonneg i Hi) as Pg.
    set (r := cellR S (proj (g_dims b)) (F g) (proj (g_dims b) i)) in *.
    destruct (Req_EM_T r 0) as [E|N]; [rewrite (cell_zero (g_dims b) g i g_nonneg Hi E); lra|].
    assert (0 < r) as Pr by (pose proof (cell_nonneg S (proj (g_dims b)) (F g) (proj (g_dims b) i) (nonneg_real g g_nonneg)); fold r in H0; lra).
    rewrite Rmult_comm. apply Rmult_le_compat_l; auto.
    apply Rmult_le_reg_r with r; auto. unfold Rdiv. rewrite Rmult_assoc, Rinv_l, Rmult_1_r by lra.
    apply Rle_trans with (1 * cellR S (proj (g_dims b)) (F f) (proj (g_dims b) i)).
    - unfold r, cellR. rewrite <- !sumR_mult. apply sumR_le. intros j Hj. apply filter_In in Hj as [Hj _]. rewrite Rmult_1_l. auto.
    - rewrite Rmult_1_l. now apply b_le. }
  destruct (Req_EM_T (cellR S (proj (g_dims a)) (F f) k) 0) as [E|N].
  - specialize (H k Hk). rewrite E in H. eapply Rle_trans; [exact H|]. apply cell_nonneg. apply nonneg_real. exact h_nonneg.
  - rewrite <- g_sum by auto. now apply cell_down.
Qed.
End Ratio.
End Fit.
