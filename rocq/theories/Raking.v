(** Scaling a table to a marginal, over the reals: the divergence from a table that has the marginal falls, and bounds the
    error (used for C63). *)
From Coq Require Import ZArith Reals Lra Lia List Psatz.
From Verif Require Import Base Spec SpecFacts RealSpec IntegeriseProofs.
Open Scope R_scope.

(** * Sums *)

Lemma sumR_zero {A} (f : A -> R) l : (forall i, In i l -> f i = 0) -> sumR (map f l) = 0.
Proof. induction l as [|x l IH]; intros H; simpl; [reflexivity|]. rewrite H, IH by (auto using in_eq, in_cons). lra. Qed.

Lemma sumR_minus {A} (f g : A -> R) l : sumR (map (fun i => f i - g i) l) = sumR (map f l) - sumR (map g l).
Proof. induction l as [|x l IH]; simpl; [lra|]. rewrite IH. lra. Qed.

Lemma sumR_abs {A} (f : A -> R) l : Rabs (sumR (map f l)) <= sumR (map (fun i => Rabs (f i)) l).
Proof.
  induction l as [|x l IH]; simpl; [rewrite Rabs_R0; lra|]. eapply Rle_trans; [apply Rabs_triang|]. lra.
Qed.

Lemma sumR_const {A} (e : R) (l : list A) : sumR (map (fun _ => e) l) = INR (length l) * e.
Proof. induction l as [|x l IH]; [simpl; lra|]. cbn [map sumR fold_right length]. fold (sumR (map (fun _ : A => e) l)). rewrite IH, S_INR. lra. Qed.

Lemma sumR_filter_le {A} (f : A -> R) (q : A -> bool) l : (forall i, In i l -> 0 <= f i) -> sumR (map f (filter q l)) <= sumR (map f l).
Proof.
  induction l as [|x l IH]; intros H; simpl; [lra|]. pose proof (H x (or_introl eq_refl)). specialize (IH (fun i Hi => H i (or_intror Hi))).
  destruct (q x); simpl; lra.
Qed.

Lemma sumR_pick (k0 : list Z) (v : R) K : NoDup K -> In k0 K -> sumR (map (fun k => if idx_eqb k0 k then v else 0) K) = v.
Proof.
  induction K as [|k K IH]; intros Hn Hi; [easy|]. inversion Hn; subst. simpl. destruct Hi as [->|Hi].
  - rewrite idx_eqb_refl, sumR_zero; [lra|]. intros j Hj. destruct (idx_eqb k0 j) eqn:E; auto. apply idx_eqb_true in E. subst. contradiction.
  - destruct (idx_eqb k0 k) eqn:E; [apply idx_eqb_true in E; subst; contradiction|]. rewrite IH by auto. lra.
Qed.

(** sums over the states, by cells of a marginal *)
Lemma sumR_group {A} (h : A -> list Z) (f : A -> R) (phi : list Z -> R) K l : NoDup K -> (forall i, In i l -> In (h i) K) ->
  sumR (map (fun i => f i * phi (h i)) l) = sumR (map (fun k => sumR (map f (filter (fun i => idx_eqb (h i) k) l)) * phi k) K).
Proof.
  intros Hn. induction l as [|x l IH]; intros H.
  - simpl. symmetry. apply sumR_zero. intros k _. lra.
  - cbn [map sumR fold_right]. fold (sumR (map (fun i => f i * phi (h i)) l)). rewrite IH by (intros; apply H; now right).
    rewrite <- (sumR_pick (h x) (f x * phi (h x)) K Hn (H x (or_introl eq_refl))). rewrite <- sumR_plus. apply sumR_ext. intros k _.
    cbn [filter]. destruct (idx_eqb (h x) k) eqn:E; [|lra]. apply idx_eqb_true in E. subst k. cbn [map sumR fold_right].
    fold (sumR (map f (filter (fun i => idx_eqb (h i) (h x)) l))). ring.
Qed.

(** * x ln (x / y) *)

Lemma ln_le_sub x : 0 < x -> ln x <= x - 1.
Proof.
  intros Hx. destruct (Req_dec (ln x) 0) as [E|N].
  - assert (x = 1) as -> by (apply ln_inv; [auto|lra|rewrite ln_1; auto]). rewrite ln_1. lra.
  - pose proof (exp_ineq1 (ln x) N) as H. rewrite exp_ln in H by auto. lra.
Qed.

Lemma xlnx_ge x y : 0 <= x -> 0 <= y -> (0 < x -> 0 < y) -> x - y + (sqrt x - sqrt y) * (sqrt x - sqrt y) <= x * ln (x / y).
Proof.
  intros Hx Hy Hp. destruct (Req_dec x 0) as [->|Nx].
  - rewrite sqrt_0. pose proof (sqrt_sqrt y Hy). nra.
  - assert (0 < x) as Px by lra. pose proof (Hp Px) as Py. set (a := sqrt x). set (b := sqrt y).
    assert (0 < a) as Pa by now apply sqrt_lt_R0. assert (0 < b) as Pb by now apply sqrt_lt_R0.
    assert (x = a * a) as Ex by (unfold a; now rewrite sqrt_sqrt). assert (y = b * b) as Ey by (unfold b; now rewrite sqrt_sqrt by lra).
    assert (ln (x / y) = - (2 * ln (b / a))) as El.
    { rewrite Ex, Ey. unfold Rdiv. rewrite !ln_mult, !ln_Rinv, !ln_mult by (try apply Rinv_0_lt_compat; nra). lra. }
    rewrite El. pose proof (ln_le_sub (b / a) (Rdiv_lt_0_compat b a Pb Pa)) as H.
    assert (x * (b / a) = a * b) as Eb by (rewrite Ex; field; lra). nra.
Qed.

(** * One step *)

Section Step.
Context (S K : list (list Z)) (h : list Z -> list Z) (p : list Z -> R).
Context (HK : NoDup K) (Hh : forall i, In i S -> In (h i) K) (Hp : forall i, In i S -> 0 <= p i).

Definition cellR (f : list Z -> R) (k : list Z) : R := sumR (map f (filter (fun i => idx_eqb (h i) k) S)).
Let P := sumR (map p S).
Definition divR (f : list Z -> R) : R := sumR (map (fun i => p i * ln (p i / f i)) S).

Definition over (f : list Z -> R) : Prop := (forall i, In i S -> 0 <= f i) /\ forall i, In i S -> 0 < p i -> 0 < f i.

Context (f f' : list Z -> R) (Hf : over f).
Context (Hst : forall i, In i S -> f' i = if Req_EM_T (cellR f (h i)) 0 then 0 else f i * (cellR p (h i) / cellR f (h i))).

Lemma cell_nonneg g k : (forall i, In i S -> 0 <= g i) -> 0 <= cellR g k.
Proof.
  intros H. unfold cellR. rewrite <- (sumR_zero (fun _ : list Z => 0) (filter (fun i => idx_eqb (h i) k) S)) by auto.
  apply sumR_le. intros i Hi. apply filter_In in Hi as [Hi _]. auto.
Qed.

Lemma cell_ge g i : (forall i, In i S -> 0 <= g i) -> In i S -> g i <= cellR g (h i).
Proof.
  intros H Hi. unfold cellR. apply (sumR_ge1 g).
  - intros j Hj. apply filter_In in Hj as [Hj _]. auto.
  - apply filter_In. split; auto. apply idx_eqb_refl.
Qed.

Lemma cell_total g : sumR (map (cellR g) K) = sumR (map g S).
Proof.
  rewrite (sumR_ext g (fun i => g i * (fun _ => 1) (h i))) by (intros; lra). rewrite (sumR_group h g (fun _ => 1) K S HK Hh).
  apply sumR_ext. intros. unfold cellR. lra.
Qed.

Lemma cell_le g k : (forall i, In i S -> 0 <= g i) -> cellR g k <= sumR (map g S).
Proof. intros H. now apply sumR_filter_le. Qed.

(** a cell of [f] is empty only if the cell of [p] is *)
Lemma cell_zero k : cellR f k = 0 -> cellR p k = 0.
Proof.
  intros E. unfold cellR. apply sumR_zero. intros i Hi. apply filter_In in Hi as [Hi Ek]. apply idx_eqb_true in Ek. subst k.
  destruct (Rle_lt_or_eq_dec 0 (p i) (Hp i Hi)) as [H|]; auto. destruct Hf as [H1 H2]. pose proof (H2 i Hi H). pose proof (cell_ge f i H1 Hi). lra.
Qed.

Lemma step_over : over f'.
Proof.
  destruct Hf as [H1 H2]. pose proof (fun k => cell_nonneg f k H1) as C1. pose proof (fun k => cell_nonneg p k Hp) as C2. split; intros i Hi.
  - rewrite Hst by auto. destruct (Req_EM_T _ 0) as [E|N]; [lra|]. apply Rmult_le_pos; auto. specialize (C1 (h i)). specialize (C2 (h i)).
    apply Rmult_le_pos; auto. left. apply Rinv_0_lt_compat. lra.
  - intros Hpi. rewrite Hst by auto. pose proof (H2 i Hi Hpi). pose proof (cell_ge f i H1 Hi). pose proof (cell_ge p i Hp Hi).
    destruct (Req_EM_T _ 0) as [E|N]; [lra|]. apply Rmult_lt_0_compat; auto. apply Rdiv_lt_0_compat; lra.
Qed.

Lemma step_total : sumR (map f' S) = P.
Proof.
  unfold P. rewrite <- (cell_total p). set (phi := fun k => if Req_EM_T (cellR f k) 0 then 0 else cellR p k / cellR f k).
  rewrite (sumR_ext f' (fun i => f i * phi (h i))).
  2:{ intros i Hi. rewrite Hst by auto. unfold phi. destruct (Req_EM_T _ 0); lra. }
  rewrite (sumR_group h f phi K S HK Hh). apply sumR_ext. intros k _. fold (cellR f k). unfold phi. destruct (Req_EM_T (cellR f k) 0) as [E|N].
  - rewrite (cell_zero k E). lra.
  - field. auto.
Qed.

Lemma divR_ge g : over g -> P - sumR (map g S) <= divR g.
Proof.
  intros [H1 H2]. unfold P, divR. rewrite <- sumR_minus. apply sumR_le. intros i Hi.
  pose proof (xlnx_ge (p i) (g i) (Hp i Hi) (H1 i Hi) (H2 i Hi)) as H. pose proof (Rle_0_sqr (sqrt (p i) - sqrt (g i))) as Hs. unfold Rsqr in Hs. lra.
Qed.

(** the fall of the divergence *)
Let h2 (k : list Z) : R := (sqrt (cellR p k) - sqrt (cellR f k)) * (sqrt (cellR p k) - sqrt (cellR f k)).

Lemma step_fall : sumR (map h2 K) <= divR f - divR f' - P + sumR (map f S).
Proof.
  destruct Hf as [H1 H2].
  set (phi := fun k => ln (cellR p k / cellR f k)).
  assert (divR f - divR f' = sumR (map (fun i => p i * phi (h i)) S)) as ->.
  { unfold divR. rewrite <- sumR_minus. apply sumR_ext. intros i Hi. destruct (Rle_lt_or_eq_dec 0 (p i) (Hp i Hi)) as [Hpi|<-]; [|lra].
    pose proof (H2 i Hi Hpi) as Hfi. pose proof (cell_ge f i H1 Hi). pose proof (cell_ge p i Hp Hi). rewrite Hst by auto.
    destruct (Req_EM_T _ 0) as [E|N]; [lra|]. unfold phi. rewrite <- Rmult_minus_distr_l. f_equal.
    assert (0 < cellR p (h i) / cellR f (h i)) by (apply Rdiv_lt_0_compat; lra).
    assert (forall x y, 0 < x -> 0 < y -> ln (x / y) = ln x - ln y) as LD.
    { intros x y Hx Hy. unfold Rdiv. rewrite ln_mult, ln_Rinv by (auto; now apply Rinv_0_lt_compat). ring. }
    rewrite !(LD (p i)) by (auto; now apply Rmult_lt_0_compat). rewrite ln_mult by auto. ring. }
  rewrite (sumR_group h p phi K S HK Hh). unfold P. rewrite <- (cell_total p), <- (cell_total f).
  match goal with |- _ <= ?x - ?y + ?z => replace (x - y + z) with (x - (y - z)) by ring end. rewrite <- !sumR_minus. apply sumR_le. intros k _.
  fold (cellR p k). unfold phi. pose proof (cell_nonneg p k Hp) as C1. pose proof (cell_nonneg f k H1) as C2.
  assert (0 < cellR p k -> 0 < cellR f k) as C3.
  { intros H. destruct (Rle_lt_or_eq_dec _ _ C2) as [|E]; auto. symmetry in E. apply cell_zero in E. lra. }
  pose proof (xlnx_ge _ _ C1 C2 C3). unfold h2. lra.
Qed.

Context (HF : sumR (map f S) = P).

Lemma step_fall_nonneg : divR f' <= divR f.
Proof.
  pose proof step_fall as H. rewrite HF in H. assert (0 <= sumR (map h2 K)); [|lra].
  rewrite <- (sumR_zero (fun _ : list Z => 0) K) by auto. apply sumR_le. intros k _. unfold h2. apply Rle_0_sqr.
Qed.

Context (eta : R) (Heta : 0 <= eta) (Hfall : 4 * P * (divR f - divR f') <= eta * eta).

(** the error of a cell before the step *)
Lemma step_error k : In k K -> Rabs (cellR f k - cellR p k) <= eta.
Proof.
  intros Hk. pose proof step_fall as H. rewrite HF in H. destruct Hf as [H1 H2].
  assert (h2 k <= sumR (map h2 K)) as Hle by (apply (sumR_ge1 h2); auto; intros; unfold h2; apply Rle_0_sqr).
  pose proof (cell_nonneg p k Hp) as C1. pose proof (cell_nonneg f k H1) as C2.
  pose proof (cell_le p k Hp) as L1. fold P in L1. pose proof (cell_le f k H1) as L2. rewrite HF in L2.
  set (a := sqrt (cellR p k)) in *. set (b := sqrt (cellR f k)) in *.
  assert (cellR p k = a * a) as Ea by (unfold a; now rewrite sqrt_sqrt). assert (cellR f k = b * b) as Eb by (unfold b; now rewrite sqrt_sqrt).
  assert (0 <= a) by apply sqrt_pos. assert (0 <= b) by apply sqrt_pos.
  unfold h2 in Hle at 1. fold a b in Hle.
  assert ((cellR f k - cellR p k) * (cellR f k - cellR p k) <= eta * eta) as Hsq.
  { rewrite Ea, Eb. replace ((b * b - a * a) * (b * b - a * a)) with ((a + b) * (a + b) * ((a - b) * (a - b))) by ring.
    apply Rle_trans with (4 * P * ((a - b) * (a - b))).
    - apply Rmult_le_compat_r; [apply Rle_0_sqr|]. pose proof (Rle_0_sqr (a - b)) as Hq. unfold Rsqr in Hq. nra.
    - apply Rle_trans with (4 * P * (divR f - divR f')); auto. apply Rmult_le_compat_l; [lra|]. lra. }
  rewrite <- (Rabs_pos_eq eta) by auto. apply Rsqr_le_abs_0. exact Hsq.
Qed.

(** how far the step moves the table *)
Lemma step_moves : sumR (map (fun i => Rabs (f' i - f i)) S) <= INR (length K) * eta.
Proof.
  destruct Hf as [H1 H2].
  set (phi := fun k => Rabs ((if Req_EM_T (cellR f k) 0 then 0 else cellR p k / cellR f k) - 1)).
  rewrite (sumR_ext _ (fun i => f i * phi (h i))).
  2:{ intros i Hi. unfold phi. rewrite Hst by auto. rewrite <- (Rabs_pos_eq (f i)) at 2 by auto. rewrite <- Rabs_mult. f_equal.
      destruct (Req_EM_T _ 0); ring. }
  rewrite (sumR_group h f phi K S HK Hh). rewrite <- (sumR_const eta K). apply sumR_le. intros k Hk. fold (cellR f k). unfold phi.
  pose proof (step_error k Hk) as He. pose proof (cell_nonneg f k H1) as C2. destruct (Req_EM_T (cellR f k) 0) as [E|N].
  - rewrite E. lra.
  - rewrite <- (Rabs_pos_eq (cellR f k)) at 1 by auto. rewrite <- Rabs_mult.
    replace (cellR f k * (cellR p k / cellR f k - 1)) with (- (cellR f k - cellR p k)) by (field; auto). now rewrite Rabs_Ropp.
Qed.
End Step.
