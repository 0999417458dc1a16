(** ipf in doubles is the iteration of IpfFitSpec, rounding included (C64). *)
From Coq Require Import Reals Lra Lia.
From Flocq Require Import Core.Core IEEE754.BinarySingleNaN.
From Verif Require Import Base Spec SpecFacts NDArray IndexProofs Float64 FloatProofs FloatExt ArrayOps ArrayProofs Bind BindProofs Micro Qis
  SynthSpec MicroProofs QisProofs QisClaims Ipf IpfSpec IpfProofs MicroDbl IpfClaims IpfDbl IpfFitSpec.
Open Scope Z_scope.

Notation DS := (DblScale (fun m : double => m)).
Notation conv := (converged DS DblErr d_add).

Lemma step_fit1 sizes c f : step DS d_add sizes c f = fit1 sizes c f.
Proof. reflexivity. Qed.

Lemma sweep_fitted sizes cs f n : sweep DS d_add sizes cs (fitted sizes cs f n) = fitted sizes cs f (S n).
Proof. reflexivity. Qed.

Lemma ltb_leb_false m e : is_nan e = false -> is_nan m = false -> (d_ltb e m = true <-> d_leb m e = false).
Proof.
  intros Ne Nm. rewrite d_ltb_iff. split.
  - intros (_ & _ & H). apply not_true_iff_false. intros H'. apply d_leb_iff in H' as (_ & _ & H'). lra.
  - intros H. repeat split; auto. apply Rnot_le_lt. intros H'. apply not_true_iff_false in H. apply H. now apply d_leb_iff.
Qed.

Lemma max_lt t l : is_nan t = false -> forall m, is_nan m = false ->
  (d_ltb (fold_left (max_step DS) l m) t = true <-> d_ltb m t = true /\ forall e, In e l -> d_leb t e = false).
Proof.
  intros Nt. induction l as [|x l IH]; intros m Nm; cbn [fold_left]; [intuition easy|].
  assert (is_nan (max_step DS m x) = false) as Nx.
  { unfold max_step. cbn [sc_num DblScale n_ltb DblOps]. destruct (d_ltb m x) eqn:E; auto. now apply d_ltb_iff in E as (_ & ? & _). }
  rewrite IH by auto. clear IH. assert (d_ltb (max_step DS m x) t = true <-> d_ltb m t = true /\ d_leb t x = false) as ->.
  { clear l. unfold max_step. cbn [sc_num DblScale n_ltb DblOps]. destruct (d_ltb m x) eqn:E.
    - apply d_ltb_iff in E as (_ & Hx & L). rewrite ltb_leb_false by auto. split; [|tauto]. intros H. split; auto.
      apply d_ltb_iff. repeat split; auto. apply ltb_leb_false in H; auto. apply d_ltb_iff in H as (_ & _ & H). lra.
    - split; [|tauto]. intros H. split; auto. destruct (is_nan x) eqn:Hx.
      + apply not_true_iff_false. intros H'. apply d_leb_iff in H' as (_ & H' & _). congruence.
      + apply ltb_leb_false; auto. apply d_ltb_iff in H as (_ & _ & H). apply d_ltb_iff. repeat split; auto.
        apply Rle_lt_trans with (ev m); auto. apply Rnot_lt_le. intros H'. apply not_true_iff_false in E. apply E. now apply d_ltb_iff. }
  split.
  - intros [[H1 H2] H3]. split; auto. intros e [<-|He]; auto.
  - intros [H1 H2]. split; [split|]; auto using in_eq, in_cons.
Qed.

Lemma conv_fits sizes cs f : conv sizes cs f = true <-> fits_all sizes cs f.
Proof.
  unfold converged. cbn [sc_num DblScale n_ltb DblOps e_tol DblErr]. unfold max_error. cbn [e_lowest DblErr].
  assert (forall l m, fold_left (fun m c => fold_left (max_step DS) (errors_of DS DblErr d_add sizes f c) m) l m =
                      fold_left (max_step DS) (flat_map (errors_of DS DblErr d_add sizes f) l) m) as ->.
  { induction l as [|c l IH]; intros m; cbn [fold_left flat_map]; auto. now rewrite fold_left_app, IH. }
  rewrite max_lt by (vm_compute; reflexivity). unfold fits_all. split.
  - intros [_ H] c k Hc Hk. apply H. apply in_flat_map. exists c. split; auto. unfold errors_of. apply in_map_iff. exists k.
    split; [reflexivity|]. now apply in_all_indices.
  - intros H. split; [vm_compute; reflexivity|]. intros e He. apply in_flat_map in He as (c & Hc & He). unfold errors_of in He.
    apply in_map_iff in He as (k & <- & Hk). apply in_all_indices in Hk. now apply H.
Qed.

Lemma max_attained sizes cs f : let m := max_error DS DblErr d_add sizes cs f in
  m = d_opp d_max \/ exists c k, In c cs /\ index_in (g_sizes c) k /\ m = misfit sizes f c k.
Proof.
  cbv zeta. unfold max_error. cbn [e_lowest DblErr].
  assert (forall l m, fold_left (fun m c => fold_left (max_step DS) (errors_of DS DblErr d_add sizes f c) m) l m =
                      fold_left (max_step DS) (flat_map (errors_of DS DblErr d_add sizes f) l) m) as ->.
  { induction l as [|c l IH]; intros m; cbn [fold_left flat_map]; auto. now rewrite fold_left_app, IH. }
  assert (forall l m, fold_left (max_step DS) l m = m \/ In (fold_left (max_step DS) l m) l) as G.
  { induction l as [|x l IH]; intros m; cbn [fold_left]; auto. destruct (IH (max_step DS m x)) as [E|E]; [|right; now right].
    rewrite E. unfold max_step. destruct (n_ltb _ _ _); [right; now left|now left]. }
  destruct (G (flat_map (errors_of DS DblErr d_add sizes f) cs) (d_opp d_max)) as [E|E]; [now left|right].
  apply in_flat_map in E as (c & Hc & E). unfold errors_of in E at 2. apply in_map_iff in E as (k & Ek & Hk). exists c, k. split; auto.
  split; [now apply in_all_indices|]. symmetry. exact Ek.
Qed.

Lemma sweeps_fitted sizes cs f : forall left m f' n', sweeps DS DblErr d_add sizes cs left (fitted sizes cs f m) (Z.of_nat m) = (f', n') ->
  exists n, n' = Z.of_nat n /\ f' = fitted sizes cs f n /\ (m <= n <= m + left)%nat /\ (0 < left -> m < n)%nat /\
    (forall j, (m < j < n)%nat -> conv sizes cs (fitted sizes cs f j) = false) /\ (conv sizes cs (fitted sizes cs f n) = true \/ n = (m + left)%nat).
Proof.
  induction left as [|left IH]; intros m f' n' E; cbn [sweeps] in E.
  - inversion E; subst. exists m. split; [reflexivity|]. split; [reflexivity|]. split; [lia|]. split; [lia|]. split; [lia|]. right. lia.
  - rewrite sweep_fitted in E. replace (Z.of_nat m + 1) with (Z.of_nat (S m)) in E by lia.
    destruct (conv sizes cs (fitted sizes cs f (S m))) eqn:Ec.
    + inversion E; subst. exists (S m). split; [reflexivity|]. split; [reflexivity|]. split; [lia|]. split; [lia|]. split; [lia|]. now left.
    + apply IH in E as (n & -> & -> & H1 & H2 & H3 & H4). exists n. split; [reflexivity|]. split; [reflexivity|]. split; [lia|]. split; [lia|]. split.
      * intros j Hj. destruct (Nat.eq_dec j (S m)) as [->|]; auto. apply H3. lia.
      * destruct H4; [now left|right; lia].
Qed.

Section Claim.
Context (fuel : nat) (seed : ndarray double) (ilist : list (ndarray Z)) (mlist : list (ndarray double)).
Hypothesis Hr : d_range ilist mlist.
Hypothesis Hpr : all_proper d_zero ilist mlist.
Hypothesis Hws : wf_array seed.
Hypothesis Hs : prodZ (shape seed) < 2 ^ 60.
Hypothesis Hfu : prodZ (shape seed) < Z.of_nat fuel.
Let cs := dcons_of ilist mlist.

Lemma fit_claim res : py_ipf fuel seed ilist mlist = Ok res -> let sizes := shape seed in
  exists n, (1 <= n <= 1000)%nat /\ ir_iters res = Z.of_nat n /\ let f := fitted sizes cs (entry d_zero seed) in
    ir_array res = NDA sizes (map (f n) (all_indices sizes)) /\
    (forall j, (1 <= j < n)%nat -> ~ fits_all sizes cs (f j)) /\
    (ir_conv res = true <-> fits_all sizes cs (f n)) /\ (ir_conv res = false -> n = 1000%nat) /\
    (ir_max res = d_opp d_max \/ exists c k, In c cs /\ index_in (g_sizes c) k /\ ir_max res = misfit sizes (f n) c k) /\
    (forall c k, In c cs -> index_in (g_sizes c) k -> let e := misfit sizes (f n) c k in is_nan e = false -> d_leb e (ir_max res) = true) /\
    (forall m, In m mlist -> d_to_i64 (d_add (fold_left d_add (flat m) d_zero) d_half) = Ok (ir_pop res)).
Proof.
  intros E sizes. destruct (ipf_ok fuel seed ilist mlist Hr Hpr Hws Hs Hfu res E) as (f' & pop & Ha & Hf & Hwi & Es & Earr & Econv & Emax & Epop).
  fold cs in Hwi, Es, Econv, Emax. fold sizes in Es, Earr, Econv, Emax. revert Es. change 0 with (Z.of_nat 0). change (entry d_zero seed) with (fitted sizes cs (entry d_zero seed) 0) at 1.
  intros Es. apply sweeps_fitted in Es as (n & En & -> & H1 & H2 & H3 & H4). exists n.
  assert (Z.to_nat 1000 = 1000%nat) as E1000 by reflexivity. rewrite E1000 in *. clear E1000.
  split; [lia|]. split; [exact En|]. intros f. split; [exact Earr|]. split.
  { intros j Hj Hfit. apply conv_fits in Hfit. rewrite H3 in Hfit; [discriminate|lia]. }
  split; [rewrite Econv; apply conv_fits|]. split.
  { rewrite Econv. intros Hc. destruct H4 as [H4|H4]; [congruence|lia]. }
  split; [rewrite Emax; apply max_attained|]. split.
  { intros c k Hc Hk e Ne. rewrite Emax. now apply (proj2 (max_error_ge (fun m : double => m) sizes cs (f n)) c k Hc Hk). }
  intros m Hm. destruct Ha as (Hv & _ & _ & _ & _ & Hp). destruct Hv as [Hlen _].
  destruct (In_nth mlist m m Hm) as (j & Hj & Ej).
  assert (In (gcon_of d_zero (nth j ilist (NDA [] [])) m) (gcons_of d_zero ilist mlist)) as Hin.
  { unfold gcons_of. apply in_map_iff. exists (nth j ilist (NDA [] []), m). split; [reflexivity|]. rewrite <- Ej at 1.
    rewrite <- combine_nth by auto. apply nth_In. rewrite combine_length. lia. }
  specialize (Hp _ Hin). rewrite Epop. cbn [mg_pop DblMarg] in Hp. unfold gsum in Hp. cbn [gcon_of g_at g_sizes mg_num DblMarg n_zero DblOps] in Hp.
  rewrite map_entry in Hp; auto. destruct Hr as [Hm' _]. rewrite Forall_forall in Hm'. now apply Hm'.
Qed.
End Claim.
