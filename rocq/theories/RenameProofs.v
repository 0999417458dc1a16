(** ipf on two inputs that differ in the naming of dimensions and categories (C81). *)
From Coq Require Import QArith Qcanon Reals Lra Lia Permutation.
From Flocq Require Import Core.Raux IEEE754.BinarySingleNaN.
From Verif Require Import Base Spec SpecFacts NDArray IndexProofs Float64 FloatProofs ArrayOps ArrayProofs Bind BindProofs Micro Qis
  SynthSpec MicroProofs QisProofs QisClaims Ipf IpfSpec IpfProofs MicroDbl IpfClaims IpfExact RealSpec IpfConv RenameSpec.
Open Scope Z_scope.

Lemma matching_perm sizes sizes' rho : matching sizes sizes' rho -> Permutation (map rho (all_indices sizes)) (all_indices sizes').
Proof.
  intros (H1 & H2 & H3). apply NoDup_Permutation.
  - pose proof (NoDup_all_indices sizes) as Hn. assert (forall i, In i (all_indices sizes) -> index_in sizes i) as Hi by (intros i; apply in_all_indices).
    revert Hn Hi. generalize (all_indices sizes) as l. induction l as [|x l IH]; intros Hn Hi; [constructor|]. inversion Hn; subst. cbn [map]. constructor.
    + intros Hin. apply in_map_iff in Hin as (y & E & Hy). assert (y = x) as ->; [|contradiction]. apply H2; auto using in_eq, in_cons.
    + apply IH; auto using in_cons.
  - apply NoDup_all_indices.
  - intros j. rewrite in_map_iff, in_all_indices. split.
    + intros (i & <- & Hi). apply H1. now apply in_all_indices.
    + intros Hj. destruct (H3 j Hj) as (i & Hi & <-). exists i. split; auto. now apply in_all_indices.
Qed.

Lemma fold_perm {A B} (op : A -> B -> A) (Q : A -> Prop) (P : B -> Prop) : (forall m x, Q m -> P x -> Q (op m x)) ->
  (forall m x y, Q m -> P x -> P y -> op (op m x) y = op (op m y) x) ->
  forall l l', Permutation l l' -> Forall P l -> forall m, Q m -> fold_left op l m = fold_left op l' m.
Proof.
  intros HQ HC l l' Hp. induction Hp as [|x l l' Hp IH|x y l|l l1 l' Hp1 IH1 Hp2 IH2]; intros HP m Hm; [reflexivity| | |].
  - inversion HP; subst. cbn [fold_left]. apply IH; auto.
  - inversion HP as [|? ? Px HP']; subst. inversion HP' as [|? ? Py HP'']; subst. cbn [fold_left]. now rewrite (HC m) by auto.
  - rewrite IH1 by auto. apply IH2; auto. now apply (Permutation_Forall Hp1).
Qed.

Section Rename.
Context {M T : Type} (SO : ScaleOps M T) (EO : ErrOps T) (add : T -> T -> T) (sizes sizes' : list Z) (rho : list Z -> list Z).
Definition related (f f' : list Z -> T) : Prop := forall i, index_in sizes i -> f' (rho i) = f i.
Context (ok : gcon M -> gcon M -> Prop).
Hypothesis Hok : forall c c', ok c c' -> well_indexed sizes c /\ exists kappa,
  matching (g_sizes c) (g_sizes c') kappa /\ (forall i, index_in sizes i -> proj (g_dims c') (rho i) = kappa (proj (g_dims c) i)) /\
  (forall k, index_in (g_sizes c) k -> g_at c' (kappa k) = g_at c k) /\
  (forall f f' k, related f f' -> index_in (g_sizes c) k -> gmargin sizes' (g_dims c') SO add f' (kappa k) = gmargin sizes (g_dims c) SO add f k).
Context (Q : T -> Prop).
Hypothesis Qlow : Q (e_lowest EO).
Hypothesis Qkeep : forall m x, Q m -> Q (max_step SO m (e_abs EO x)).
Hypothesis Qcomm : forall m x y, Q m -> max_step SO (max_step SO m (e_abs EO x)) (e_abs EO y) = max_step SO (max_step SO m (e_abs EO y)) (e_abs EO x).

Lemma step_rename c c' f f' : ok c c' -> related f f' -> related (step SO add sizes c f) (step SO add sizes' c' f').
Proof.
  intros Hc Hf i Hi. destruct (Hok c c' Hc) as (Hw & kap & _ & Hp & Ha & Hm). unfold step, scaled.
  assert (index_in (g_sizes c) (proj (g_dims c) i)) as Hk by (destruct Hw as (_ & _ & Hv & _ & ->); now apply index_in_valid_proj).
  rewrite Hp by auto. rewrite (Hm f f') by auto. rewrite Ha, (Hf i Hi) by auto. reflexivity.
Qed.

Lemma sweep_rename cs cs' : Forall2 ok cs cs' -> forall f f', related f f' -> related (sweep SO add sizes cs f) (sweep SO add sizes' cs' f').
Proof.
  unfold sweep. induction 1 as [|c c' cs cs' Hc Hcs IH]; intros f f' Hf; [exact Hf|]. cbn [fold_left]. apply IH. now apply step_rename.
Qed.

Lemma errors_rename c c' f f' m : ok c c' -> related f f' -> Q m ->
  fold_left (max_step SO) (errors_of SO EO add sizes' f' c') m = fold_left (max_step SO) (errors_of SO EO add sizes f c) m /\
  Q (fold_left (max_step SO) (errors_of SO EO add sizes f c) m).
Proof.
  intros Hc Hf Hm. destruct (Hok c c' Hc) as (Hw & kap & Hb & Hp & Ha & Hg).
  set (P := fun x : T => exists y, x = e_abs EO y).
  assert (Permutation (errors_of SO EO add sizes f c) (errors_of SO EO add sizes' f' c')) as Hperm.
  { unfold errors_of. rewrite <- (Permutation_map _ (matching_perm _ _ _ Hb)), map_map.
    erewrite map_ext_in; [apply Permutation_refl|]. intros k Hk. apply in_all_indices in Hk. unfold cell_error. now rewrite (Hg f f'), Ha. }
  assert (Forall P (errors_of SO EO add sizes f c)) as HP.
  { apply Forall_forall. intros x Hx. unfold errors_of in Hx. apply in_map_iff in Hx as (k & <- & _). eexists. reflexivity. }
  split.
  - symmetry. apply (fold_perm (max_step SO) Q P) with (1 := fun m x Hm '(ex_intro _ y E) => eq_rect_r (fun x => Q (max_step SO m x)) (Qkeep m y Hm) E); auto.
    intros m0 x y Hm0 [x0 ->] [y0 ->]. auto.
  - revert HP m Hm. generalize (errors_of SO EO add sizes f c) as l. induction l as [|x l IH]; intros HP m Hm; [exact Hm|]. inversion HP as [|? ? [y ->] HP']; subst.
    cbn [fold_left]. apply IH; auto.
Qed.

Lemma max_rename cs cs' f f' : Forall2 ok cs cs' -> related f f' -> max_error SO EO add sizes' cs' f' = max_error SO EO add sizes cs f.
Proof.
  intros Hcs Hf. unfold max_error. generalize Qlow. generalize (e_lowest EO) as m.
  induction Hcs as [|c c' cs cs' Hc Hcs IH]; intros m Hm; [reflexivity|]. cbn [fold_left].
  destruct (errors_rename c c' f f' m Hc Hf Hm) as [-> H]. now apply IH.
Qed.

Lemma conv_rename cs cs' f f' : Forall2 ok cs cs' -> related f f' -> converged SO EO add sizes' cs' f' = converged SO EO add sizes cs f.
Proof. intros Hcs Hf. unfold converged. now rewrite (max_rename cs cs' f f'). Qed.

Lemma sweeps_rename cs cs' : Forall2 ok cs cs' -> forall left f f' n, related f f' ->
  let '(g, m) := sweeps SO EO add sizes cs left f n in let '(g', m') := sweeps SO EO add sizes' cs' left f' n in related g g' /\ m' = m.
Proof.
  intros Hcs. induction left as [|left IH]; intros f f' n Hf; cbn [sweeps]; [auto|].
  pose proof (sweep_rename cs cs' Hcs f f' Hf) as Hs. rewrite (conv_rename cs cs' _ _ Hcs Hs).
  destruct (converged SO EO add sizes cs (sweep SO add sizes cs f)); [auto|]. now apply IH.
Qed.
End Rename.

(** * Exact arithmetic *)

Lemma qsum_perm (l l' : list Qc) : Permutation l l' -> fold_right Qcplus 0%Qc l = fold_right Qcplus 0%Qc l'.
Proof.
  induction 1 as [|x l l' _ IH|x y l|l l1 l' _ IH1 _ IH2]; cbn [fold_right]; [reflexivity|now rewrite IH| |congruence].
  now rewrite !Qcplus_assoc, (Qcplus_comm y x).
Qed.

Lemma filter_map {A B} (p : B -> bool) (g : A -> B) l : filter p (map g l) = map g (filter (fun x => p (g x)) l).
Proof. induction l as [|x l IH]; cbn [map filter]; [reflexivity|]. destruct (p (g x)); cbn [map]; now rewrite IH. Qed.

Lemma perm_filter {A} (p : A -> bool) l l' : Permutation l l' -> Permutation (filter p l) (filter p l').
Proof.
  induction 1 as [|x l l' _ IH|x y l|l l1 l' _ IH1 _ IH2]; cbn [filter].
  - apply Permutation_refl.
  - destruct (p x); auto.
  - destruct (p x), (p y); try apply Permutation_refl. apply perm_swap.
  - eapply Permutation_trans; eauto.
Qed.

Section Exact.
Context (sizes sizes' : list Z) (rho : list Z -> list Z) (Hrho : matching sizes sizes' rho).

Lemma margin_rename (c c' : gcon Qc) kap f f' k : well_indexed sizes c -> matching (g_sizes c) (g_sizes c') kap ->
  (forall i, index_in sizes i -> proj (g_dims c') (rho i) = kap (proj (g_dims c) i)) ->
  (forall i, index_in sizes i -> f' (rho i) = f i) -> index_in (g_sizes c) k -> marginQ sizes' (g_dims c') (kap k) f' = marginQ sizes (g_dims c) k f.
Proof.
  intros (_ & _ & Hv & _ & Es) (_ & Hin & _) Hp Hf Hk. unfold marginQ.
  rewrite <- (qsum_perm _ _ (Permutation_map f' (perm_filter _ _ _ (matching_perm _ _ _ Hrho)))), filter_map, map_map.
  f_equal. erewrite filter_ext_in.
  - apply map_ext_in. intros i Hi. apply filter_In in Hi as [Hi _]. apply Hf. now apply in_all_indices.
  - intros i Hi. apply in_all_indices in Hi. cbv beta. rewrite Hp by auto.
    assert (index_in (g_sizes c) (proj (g_dims c) i)) as Hc by (rewrite Es; now apply index_in_valid_proj).
    unfold idx_eqb. destruct (list_eq_dec Z.eq_dec (kap (proj (g_dims c) i)) (kap k)) as [E|N]; destruct (list_eq_dec Z.eq_dec (proj (g_dims c) i) k) as [E'|N']; auto.
    + exfalso. apply N'. now apply Hin.
    + exfalso. apply N. now rewrite E'.
Qed.

Definition okQ (c c' : gcon Qc) : Prop := well_indexed sizes c /\ same_marginal sizes rho c c'.

Lemma okQ_spec c c' : okQ c c' -> well_indexed sizes c /\ exists kappa,
  matching (g_sizes c) (g_sizes c') kappa /\ (forall i, index_in sizes i -> proj (g_dims c') (rho i) = kappa (proj (g_dims c) i)) /\
  (forall k, index_in (g_sizes c) k -> g_at c' (kappa k) = g_at c k) /\
  (forall f f' k, related sizes rho f f' -> index_in (g_sizes c) k -> gmargin sizes' (g_dims c') QcScale Qcplus f' (kappa k) = gmargin sizes (g_dims c) QcScale Qcplus f k).
Proof.
  intros (Hw & kap & Hb & Hp & Ha). split; auto. exists kap. repeat (split; auto). intros f f' k Hf Hk. rewrite !gmargin_Q. now apply margin_rename.
Qed.

Lemma total_rename c c' : okQ c c' -> gsum QcMarg Qcplus c' = gsum QcMarg Qcplus c.
Proof.
  intros (_ & kap & Hb & _ & Ha). unfold gsum. symmetry.
  assert (Permutation (map (g_at c) (all_indices (g_sizes c))) (map (g_at c') (all_indices (g_sizes c')))) as Hp.
  { rewrite <- (Permutation_map _ (matching_perm _ _ _ Hb)), map_map. erewrite map_ext_in; [apply Permutation_refl|]. intros k Hk. apply in_all_indices in Hk. symmetry. auto. }
  apply (fold_perm Qcplus (fun _ => True) (fun _ => True)); auto.
  - intros m x y _ _ _. now rewrite <- !Qcplus_assoc, (Qcplus_comm x y).
  - apply Forall_forall. auto.
Qed.

Lemma qmax_comm m x y : max_step QcScale (max_step QcScale m (e_abs QcErr x)) (e_abs QcErr y) = max_step QcScale (max_step QcScale m (e_abs QcErr y)) (e_abs QcErr x).
Proof.
  generalize (e_abs QcErr x) as a, (e_abs QcErr y) as b. intros a b. unfold max_step. cbn [sc_num QcScale n_ltb QcOps].
  destruct (q_ltb m a) eqn:E1, (q_ltb m b) eqn:E2; cbv iota; try rewrite E1; try rewrite E2;
    destruct (q_ltb a b) eqn:E3; destruct (q_ltb b a) eqn:E4; try reflexivity;
    repeat match goal with H : q_ltb _ _ = true |- _ => apply q_ltb_lt in H end;
    repeat match goal with H : q_ltb ?x ?y = false |- _ => assert (q2r y <= q2r x)%R by (apply Rnot_lt_le; intros L; apply q_ltb_lt in L; congruence); clear H end;
    try lra.
  apply q2r_inj. lra.
Qed.
End Exact.

(** * Doubles, the table itself not renamed *)

Lemma ev_inj x y : is_nan x = false -> is_nan y = false -> Bsign x = false -> Bsign y = false -> ev x = ev y -> x = y.
Proof.
  intros Nx Ny Sx Sy E. pose proof (B2R_lt x) as Bx. pose proof (B2R_lt y) as By.
  destruct (is_finite x) eqn:Fx, (is_finite y) eqn:Fy.
  - apply B2R_Bsign_inj; auto; [|congruence]. now rewrite <- !ev_finite.
  - exfalso. destruct y as [| [] | |]; try discriminate. rewrite ev_finite in E by auto. cbn [ev] in E. lra.
  - exfalso. destruct x as [| [] | |]; try discriminate. rewrite (ev_finite y) in E by auto. cbn [ev] in E. lra.
  - destruct x as [| [] | |], y as [| [] | |]; try discriminate. reflexivity.
Qed.

Lemma d_abs_sign x : is_nan (d_abs x) = false -> Bsign (d_abs x) = false.
Proof. destruct x; try discriminate; reflexivity. Qed.

Section Double.
Context (cv : double -> double).
Lemma dmax_keep m x : is_nan m = false -> is_nan (max_step (DblScale cv) m (e_abs DblErr x)) = false.
Proof.
  intros H. unfold max_step. cbn [sc_num DblScale n_ltb DblOps]. destruct (d_ltb m (e_abs DblErr x)) eqn:E; auto. now apply d_ltb_iff in E as (_ & E & _).
Qed.

Lemma dmax_comm m x y : is_nan m = false ->
  max_step (DblScale cv) (max_step (DblScale cv) m (e_abs DblErr x)) (e_abs DblErr y) = max_step (DblScale cv) (max_step (DblScale cv) m (e_abs DblErr y)) (e_abs DblErr x).
Proof.
  intros Hm. cbn [e_abs DblErr]. pose proof (d_abs_sign x) as Sx. pose proof (d_abs_sign y) as Sy. revert Sx Sy.
  generalize (d_abs x) as a, (d_abs y) as b. intros a b Sa Sb. unfold max_step. cbn [sc_num DblScale n_ltb DblOps].
  destruct (is_nan a) eqn:Na.
  { rewrite !(d_ltb_nan_r _ a) by auto. reflexivity. }
  destruct (is_nan b) eqn:Nb.
  { rewrite !(d_ltb_nan_r _ b) by auto. reflexivity. }
  destruct (d_ltb m a) eqn:E1, (d_ltb m b) eqn:E2; cbv iota; try rewrite E1; try rewrite E2;
    destruct (d_ltb a b) eqn:E3; destruct (d_ltb b a) eqn:E4; try reflexivity;
    rewrite d_ltb_ev in E1, E2, E3, E4 by auto; revert E1 E2 E3 E4;
    repeat match goal with |- context [Rlt_bool ?u ?v] => destruct (Rlt_bool_spec u v) end; intros; try discriminate; try lra.
  apply ev_inj; auto. lra.
Qed.
End Double.
