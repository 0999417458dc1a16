(** Claims about ipf that speak about its floating-point values. *)
From Coq Require Import Reals Psatz.
From Flocq Require Import Core.Core IEEE754.BinarySingleNaN.
From Verif Require Import Base Spec SpecFacts NDArray IndexProofs Float64 FloatProofs FloatExt ArrayOps ArrayProofs Bind BindProofs Micro Qis
  SynthSpec MicroProofs QisProofs QisClaims Ipf IpfSpec IpfProofs MicroDbl IpfClaims.
Open Scope Z_scope.

(** * The largest error *)

Lemma d_leb_iff x y : d_leb x y = true <-> is_nan x = false /\ is_nan y = false /\ (ev x <= ev y)%R.
Proof.
  pose proof (bpow_gt_0 radix2 1024) as H0. pose proof (B2R_lt x) as Bx. pose proof (B2R_lt y) as By.
  destruct (is_nan x) eqn:Nx; [destruct x; try discriminate; destruct y; simpl; split; try discriminate; intros (? & _); discriminate|].
  destruct (is_nan y) eqn:Ny; [destruct y; try discriminate; destruct x as [|[]| |]; simpl; split; try discriminate; intros (_ & ? & _); discriminate|].
  assert (d_leb x y = Rle_bool (ev x) (ev y)) as ->.
  { destruct (is_finite x) eqn:Fx, (is_finite y) eqn:Fy.
    - rewrite !ev_finite by auto. apply d_leb_R; now split.
    - rewrite (ev_finite x) by auto. destruct y as [| [] | |]; try discriminate; cbn [ev].
      + rewrite Rle_bool_false by lra. destruct x; try discriminate; reflexivity.
      + rewrite Rle_bool_true by lra. destruct x; try discriminate; reflexivity.
    - rewrite (ev_finite y) by auto. destruct x as [| [] | |]; try discriminate; cbn [ev].
      + rewrite Rle_bool_true by lra. destruct y; try discriminate; reflexivity.
      + rewrite Rle_bool_false by lra. destruct y; try discriminate; reflexivity.
    - destruct x as [| [] | |], y as [| [] | |]; try discriminate; cbn [ev];
        (rewrite Rle_bool_true by lra; reflexivity) || (rewrite Rle_bool_false by lra; reflexivity). }
  destruct (Rle_bool_spec (ev x) (ev y)); split; auto; try discriminate. intros (_ & _ & H'). lra.
Qed.

Section Max.
Context {M : Type} (cv : M -> double).
Notation mstep := (max_step (DblScale cv)).

Lemma max_step_ge m e : is_nan m = false -> is_nan (mstep m e) = false /\ (ev m <= ev (mstep m e))%R /\
  (is_nan e = false -> (ev e <= ev (mstep m e))%R).
Proof.
  intros Hm. unfold max_step. cbn [sc_num DblScale n_ltb DblOps]. destruct (d_ltb m e) eqn:E.
  - apply d_ltb_iff in E as (_ & N & L). split; auto. split; [lra|]. intros; lra.
  - split; auto. split; [lra|]. intros Ne. destruct (Rle_lt_dec (ev e) (ev m)); auto. exfalso.
    apply not_true_iff_false in E. apply E. now apply d_ltb_iff.
Qed.

Lemma max_fold l : forall m, is_nan m = false -> is_nan (fold_left mstep l m) = false /\ (ev m <= ev (fold_left mstep l m))%R /\
  forall e, In e l -> is_nan e = false -> (ev e <= ev (fold_left mstep l m))%R.
Proof.
  induction l as [|x l IH]; intros m Hm; cbn [fold_left]; [split; [auto|split; [lra|easy]]|].
  destruct (max_step_ge m x Hm) as (H1 & H2 & H3). destruct (IH _ H1) as (H4 & H5 & H6). split; auto. split; [lra|].
  intros e [<-|He] Ne; [specialize (H3 Ne); lra|auto].
Qed.

Lemma max_error_ge sizes cs f : is_nan (max_error (DblScale cv) DblErr d_add sizes cs f) = false /\
  forall c k, In c cs -> index_in (g_sizes c) k -> let e := cell_error (DblScale cv) DblErr d_add sizes f c k in
  is_nan e = false -> d_leb e (max_error (DblScale cv) DblErr d_add sizes cs f) = true.
Proof.
  unfold max_error. cbn [e_lowest DblErr]. assert (is_nan (d_opp d_max) = false) as H0 by (vm_compute; reflexivity).
  revert H0. generalize (d_opp d_max) as m. intros m Hm.
  assert (forall l m, is_nan m = false ->
    let r := fold_left (fun m c => fold_left mstep (errors_of (DblScale cv) DblErr d_add sizes f c) m) l m in
    is_nan r = false /\ (ev m <= ev r)%R /\ forall c k, In c l -> index_in (g_sizes c) k ->
    is_nan (cell_error (DblScale cv) DblErr d_add sizes f c k) = false -> (ev (cell_error (DblScale cv) DblErr d_add sizes f c k) <= ev r)%R) as G.
  { induction l as [|c l IH]; intros m0 Hm0 r; cbn [fold_left] in r; [split; [auto|split; [unfold r; lra|easy]]|].
    destruct (max_fold (errors_of (DblScale cv) DblErr d_add sizes f c) m0 Hm0) as (H1 & H2 & H3).
    pose proof (IH _ H1) as X. cbv zeta in X. fold r in X. destruct X as (H4 & H5 & H6). split; [exact H4|]. split; [lra|].
    intros c' k [<-|Hc] Hk Ne; [|now apply H6].
    assert (In (cell_error (DblScale cv) DblErr d_add sizes f c k) (errors_of (DblScale cv) DblErr d_add sizes f c)) as Hin.
    { unfold errors_of. apply in_map. now apply in_all_indices. }
    specialize (H3 _ Hin Ne). lra. }
  pose proof (G cs m Hm) as X. cbv zeta in X. destruct X as (H1 & _ & H3). split; [exact H1|]. intros c k Hc Hk Ne. apply d_leb_iff. split; auto.
Qed.
End Max.

(** * Accepted marginals are finite and not negative *)

Lemma pop_finite x p : mg_pop DblMarg x = Ok p -> is_finite x = true.
Proof. cbn [mg_pop DblMarg]. intros E. apply d_to_i64_inv in E as (r & [F _] & _). now apply d_add_finite in F as [F _]. Qed.

Lemma accepted_entries (cs : list (gcon double)) pop : (forall c, In c cs -> neg_check DblMarg c = false) ->
  (forall c, In c cs -> mg_pop DblMarg (gsum DblMarg d_add c) = Ok pop) ->
  forall c k, In c cs -> index_in (g_sizes c) k -> is_finite (g_at c k) = true /\ nnb (g_at c k) = true.
Proof.
  intros Hn Hp c k Hc Hk. split.
  - pose proof (pop_finite _ _ (Hp c Hc)) as F. unfold gsum in F. apply fold_add_finite in F as [_ F]. apply F.
    apply in_map. now apply in_all_indices.
  - specialize (Hn c Hc). rewrite neg_check_dbl in Hn. specialize (Hn k Hk). rewrite nnb_ltb in Hn. now apply negb_false_iff in Hn.
Qed.

Lemma proj_in_con sizes c i : well_indexed (M := double) sizes c -> index_in sizes i -> index_in (g_sizes c) (proj (g_dims c) i).
Proof. intros (_ & _ & Hv & _ & ->) Hi. now apply index_in_valid_proj. Qed.

(** * Signs and zeros *)

Notation DS := (DblScale (fun m : double => m)).

Section Signs.
Context (sizes : list Z) (cs : list (gcon double)).
Hypothesis Hw : forall c, In c cs -> well_indexed sizes c.
Hypothesis Hm : forall c k, In c cs -> index_in (g_sizes c) k -> nnb (g_at c k) = true.

Definition all_nn (f : list Z -> double) : Prop := forall i, index_in sizes i -> nnb (f i) = true.

Lemma gmargin_nn dims f k : all_nn f -> nnb (gmargin sizes dims DS d_add f k) = true.
Proof.
  intros Hf. apply fold_add_nn; [reflexivity|]. intros x Hx. apply in_map_iff in Hx as (i & <- & Hi). apply filter_In in Hi as [Hi _].
  apply Hf. now apply in_all_indices.
Qed.

Lemma step_nn f c : In c cs -> all_nn f -> all_nn (step DS d_add sizes c f).
Proof.
  intros Hc Hf i Hi. unfold step, scaled. cbn [sc_num DblScale n_eqb n_zero DblOps sc_scale].
  destruct (d_eqb _ d_zero) eqn:E; [reflexivity|]. apply d_mul_nn; auto. apply d_div_nn; auto.
  - apply Hm; auto. apply (proj_in_con sizes); auto.
  - now apply gmargin_nn.
Qed.

Lemma step_zn f c i : zn (f i) = true -> zn (step DS d_add sizes c f i) = true.
Proof.
  intros Hz. unfold step, scaled. cbn [sc_num DblScale n_eqb n_zero DblOps sc_scale].
  destruct (d_eqb _ d_zero) eqn:E; [reflexivity|]. now apply zn_mul.
Qed.
End Signs.

Section Claims.
Context (fuel : nat) (seed : ndarray double) (ilist : list (ndarray Z)) (mlist : list (ndarray double)).
Hypothesis Hr : d_range ilist mlist.
Hypothesis Hpr : all_proper d_zero ilist mlist.
Hypothesis Hws : wf_array seed.
Hypothesis Hs : prodZ (shape seed) < 2 ^ 60.
Hypothesis Hfu : prodZ (shape seed) < Z.of_nat fuel.
Let cs := dcons_of ilist mlist.

Lemma dpop_cases : forall x, (exists p, mg_pop DblMarg x = Ok p) \/ (exists w, mg_pop DblMarg x = UB w).
Proof. intros x. cbn [mg_pop DblMarg]. unfold d_to_i64. destruct (_ && _); eauto. Qed.

Definition dcases := ipf_cases DblMarg DS DblErr d_add d_add d_zero d_zero (fun _ _ => eq_refl) dpop_cases (fun _ _ => eq_refl)
  fuel seed ilist mlist Hr Hpr Hws Hs Hfu.

(** a returned result *)
Lemma ipf_ok res : py_ipf fuel seed ilist mlist = Ok res ->
  exists f' pop, accepted (T := double) DblMarg d_add d_zero ilist mlist seed pop /\ fits (shape seed) /\ (forall c, In c cs -> well_indexed (shape seed) c) /\
    sweeps DS DblErr d_add (shape seed) cs (Z.to_nat 1000) (entry d_zero seed) 0 = (f', ir_iters res) /\
    ir_array res = NDA (shape seed) (map f' (all_indices (shape seed))) /\
    ir_conv res = converged DS DblErr d_add (shape seed) cs f' /\ ir_max res = max_error DS DblErr d_add (shape seed) cs f' /\ ir_pop res = pop.
Proof.
  intros E. unfold py_ipf in E. destruct dcases as [(e & E')|[(w & E' & _)|(pop & Ha & Hf & Hwi & E')]]; try congruence.
  fold (dcons_of ilist mlist) in E', Hwi. fold cs in E', Hwi. rewrite E in E'.
  destruct (sweeps DS DblErr d_add (shape seed) cs (Z.to_nat 1000) (entry d_zero seed) 0) as [f' n'] eqn:Ew.
  inversion E'. subst res. exists f', pop. cbn [ir_iters ir_array ir_conv ir_max ir_pop]. repeat (split; [now auto|]). auto.
Qed.

(** C14: a call with proper index lists returns or raises, unless the sum of a marginal is not an int64 *)
Lemma ipf_terminates_claim :
  (exists res, py_ipf fuel seed ilist mlist = Ok res) \/ (exists e, py_ipf fuel seed ilist mlist = Throw e) \/
  (exists w, py_ipf fuel seed ilist mlist = UB w /\ exists c, In c cs /\ d_to_i64 (d_add (gsum DblMarg d_add c) d_half) = UB w).
Proof.
  unfold py_ipf. destruct dcases as [(e & E')|[(w & E' & Hb)|(pop & _ & _ & _ & E')]]; [eauto|right; right; eauto|].
  left. destruct (sweeps _ _ _ _ _ _ _ _) as [f' n'] in E'. eauto.
Qed.

(** C15 *)
Lemma ipf_nonneg_claim res : py_ipf fuel seed ilist mlist = Ok res ->
  (forall i, index_in (shape seed) i -> d_ltb (entry d_zero seed i) d_zero = false) ->
  shape (ir_array res) = shape seed /\ forall i, index_in (shape seed) i -> d_ltb (entry d_zero (ir_array res) i) d_zero = false.
Proof.
  intros E Hn. destruct (ipf_ok res E) as (f' & pop & Ha & Hf & Hwi & Es & -> & _). split; [reflexivity|]. intros i Hi.
  rewrite entry_NDA_map by auto. rewrite nnb_ltb. apply negb_false_iff. destruct Ha as (_ & _ & _ & _ & Hng & Hpp).
  pose proof (accepted_entries cs pop Hng Hpp) as Hent.
  apply (sweeps_inv DS DblErr d_add (shape seed) cs (all_nn (shape seed))) in Es; auto.
  - apply sweep_inv. intros f c Hc. apply (step_nn (shape seed) cs Hwi); auto. intros. now apply Hent.
  - intros j Hj. specialize (Hn j Hj). rewrite nnb_ltb in Hn. now apply negb_false_iff in Hn.
Qed.

Lemma ipf_zeros_claim res : py_ipf fuel seed ilist mlist = Ok res ->
  forall i, index_in (shape seed) i -> d_eqb (entry d_zero seed i) d_zero = true ->
  d_eqb (entry d_zero (ir_array res) i) d_zero = true \/ is_nan (entry d_zero (ir_array res) i) = true.
Proof.
  intros E i Hi Hz. destruct (ipf_ok res E) as (f' & pop & Ha & Hf & Hwi & Es & -> & _). rewrite entry_NDA_map by auto.
  apply zn_cases. apply (sweeps_inv DS DblErr d_add (shape seed) cs (fun f => zn (f i) = true)) in Es; auto.
  - apply (sweep_inv DS d_add (shape seed) cs (fun f => zn (f i) = true)). intros f c _. apply step_zn.
  - apply zn_cases. auto.
Qed.

(** C12 *)
Lemma ipf_conv_claim res : py_ipf fuel seed ilist mlist = Ok res ->
  forall c k, In c cs -> index_in (g_sizes c) k ->
  let s := marginD (shape seed) (g_dims c) k (entry d_zero (ir_array res)) in
  is_nan s = false -> d_leb (d_abs (d_sub s (g_at c k))) (ir_max res) = true /\
    (ir_conv res = true -> d_ltb (d_abs (d_sub s (g_at c k))) d_1em8 = true).
Proof.
  intros E c k Hc Hk s Hnan. destruct (ipf_ok res E) as (f' & pop & Ha & Hf & Hwi & Es & Earr & Econv & Emax & _).
  assert (s = gmargin (shape seed) (g_dims c) DS d_add f' k) as Hsum.
  { unfold s, marginD, gmargin. cbn [sc_num DblScale n_zero DblOps]. f_equal. apply map_ext_in. intros i Hi. apply filter_In in Hi as [Hi _].
    rewrite Earr. apply entry_NDA_map. now apply in_all_indices. }
  destruct Ha as (_ & _ & _ & _ & Hng & Hpp). destruct (accepted_entries cs pop Hng Hpp c k Hc Hk) as [Hfin _].
  destruct (max_error_ge (fun m : double => m) (shape seed) cs f') as [_ H].
  specialize (H c k Hc Hk). cbv zeta in H. unfold cell_error in H. cbn [e_abs DblErr sc_diff DblScale] in H. rewrite <- Hsum, <- Emax in H.
  assert (d_leb (d_abs (d_sub s (g_at c k))) (ir_max res) = true) as Hle.
  { apply H. rewrite is_nan_abs. now apply d_sub_notnan. }
  split; auto. intros Hc1. rewrite Econv in Hc1. unfold converged in Hc1. cbn [sc_num DblScale n_ltb DblOps e_tol DblErr] in Hc1. rewrite <- Emax in Hc1.
  apply d_ltb_iff. apply d_leb_iff in Hle as (N1 & _ & L1). apply d_ltb_iff in Hc1 as (_ & N2 & L2). repeat split; auto. lra.
Qed.

Lemma marginD_notnan sizes dims k f : (forall i, index_in sizes i -> is_finite (f i) = true) -> is_nan (marginD sizes dims k f) = false.
Proof.
  intros Hf. apply fold_add_notnan; [reflexivity|]. intros x Hx. apply in_map_iff in Hx as (i & <- & Hi). apply filter_In in Hi as [Hi _].
  apply Hf. now apply in_all_indices.
Qed.

Lemma ipf_conv_finite_claim res : py_ipf fuel seed ilist mlist = Ok res ->
  (forall i, index_in (shape seed) i -> is_finite (entry d_zero (ir_array res) i) = true) ->
  forall c k, In c cs -> index_in (g_sizes c) k ->
  let s := marginD (shape seed) (g_dims c) k (entry d_zero (ir_array res)) in
  d_leb (d_abs (d_sub s (g_at c k))) (ir_max res) = true /\ (ir_conv res = true -> d_ltb (d_abs (d_sub s (g_at c k))) d_1em8 = true).
Proof. intros E Hfin c k Hc Hk s. apply ipf_conv_claim; auto. now apply marginD_notnan. Qed.

(** C16 *)

Lemma Rle_fold l : forall a, (0 <= B2R a)%R -> is_finite a = true -> (forall x, In x l -> (0 <= B2R x)%R) -> is_finite (fold_left d_add l a) = true ->
  (B2R a <= B2R (fold_left d_add l a))%R /\ forall x, In x l -> (B2R x <= B2R (fold_left d_add l a))%R.
Proof.
  induction l as [|x l IH]; intros a Ha Fa Hl F; cbn [fold_left] in *; [split; [lra|easy]|].
  pose proof (fold_add_finite _ _ F) as [Fax _]. pose proof (d_add_finite _ _ Fax) as [_ Fx].
  assert (0 <= B2R x)%R as Hx by (apply Hl; now left).
  assert (B2R (d_add a x) = RN (B2R a + B2R x)) as E.
  { pose proof (Bplus_correct 53 1024 Hprec Hemax mode_NE a x Fa Fx) as C. cbv zeta in C. fold (d_add a x) in C.
    destruct (Rlt_bool _ _) in C; [now destruct C|]. destruct C as [C _]. apply overflow_inf in C. rewrite C in Fax. discriminate. }
  assert (B2R a <= B2R (d_add a x))%R as L1.
  { rewrite E. apply RN_ge_repr; [|lra]. apply (fin_repr a). now split. }
  assert (B2R x <= B2R (d_add a x))%R as L2.
  { rewrite E. apply RN_ge_repr; [|lra]. apply (fin_repr x). now split. }
  destruct (IH (d_add a x)) as [H1 H2]; [lra|auto|intros; apply Hl; now right|auto|]. split; [lra|].
  intros y [<-|Hy]; [lra|auto].
Qed.

Definition positive_zero_or_pos (x : double) : Prop := is_finite x = true /\ Bsign x = false.

Lemma d_mul_one x : is_finite x = true -> d_mul x d_one = x.
Proof.
  intros F. assert (fin d_one 1) as F1 by apply fin_one.
  destruct (d_mul_exact x d_one (B2R x) 1) as [F2 E2].
  - now split.
  - auto.
  - rewrite Rmult_1_r. apply (fin_repr x). now split.
  - rewrite Rmult_1_r. apply (fin_bound x). now split.
  - apply B2R_Bsign_inj; auto; [now rewrite E2, Rmult_1_r|].
    pose proof (Bmult_correct 53 1024 Hprec Hemax mode_NE x d_one) as C. cbv zeta in C. fold (d_mul x d_one) in C.
    destruct (Rlt_bool _ _) in C.
    + destruct C as (_ & _ & C). rewrite C by (destruct (d_mul x d_one); auto; discriminate).
      replace (Bsign d_one) with false by (vm_compute; reflexivity). apply xorb_false_r.
    + apply overflow_inf in C. rewrite C in F2. discriminate.
Qed.

Lemma d_div_self x y : is_finite x = true -> is_finite y = true -> B2R x = B2R y -> B2R y <> 0%R -> d_div x y = d_one.
Proof.
  intros Fx Fy E Hne. destruct (d_div_exact x y (B2R x) (B2R y)) as [F2 E2].
  - now split.
  - now split.
  - auto.
  - rewrite E. unfold Rdiv. rewrite Rinv_r by auto. apply (repr_Z 1). lia.
  - rewrite E. unfold Rdiv. rewrite Rinv_r, Rabs_R1 by auto. change 1%R with (p2 0). apply bpow_lt. lia.
  - assert (B2R (d_div x y) = 1%R) as E3 by (rewrite E2, E; unfold Rdiv; now rewrite Rinv_r).
    destruct fin_one as [F1 E1]. apply B2R_Bsign_inj; auto; [congruence|].
    replace (Bsign d_one) with false by (vm_compute; reflexivity).
    destruct (d_div x y) as [s|s| |s m e H]; try discriminate; [simpl in E3; lra|]. destruct s; auto. exfalso. simpl in E3.
    assert (F2R (Float radix2 (Z.neg m) e) < 0)%R by (apply F2R_lt_0; simpl; lia). simpl in *. lra.
Qed.

Lemma step_fit sizes c f : In c cs -> well_indexed sizes c ->
  (forall i, index_in sizes i -> positive_zero_or_pos (f i)) ->
  (forall k, index_in (g_sizes c) k -> is_finite (g_at c k) = true) ->
  (forall k, index_in (g_sizes c) k -> d_eqb (marginD sizes (g_dims c) k f) (g_at c k) = true) ->
  forall i, index_in sizes i -> step DS d_add sizes c f i = f i.
Proof.
  intros Hc Hwi Hf Hmf Heq i Hi. pose proof (proj_in_con _ _ _ Hwi Hi) as Hk. set (k := proj (g_dims c) i) in *.
  specialize (Heq k Hk). specialize (Hmf k Hk). unfold step, scaled. fold k. cbn [sc_num DblScale n_eqb n_zero DblOps sc_scale].
  change (gmargin sizes (g_dims c) DS d_add f k) with (marginD sizes (g_dims c) k f). set (r := marginD sizes (g_dims c) k f) in *.
  assert (is_finite r = true) as Fr.
  { destruct r as [|[]| |], (g_at c k) as [|[]| |]; try discriminate; reflexivity. }
  assert (B2R r = B2R (g_at c k)) as Er.
  { rewrite (d_eqb_R r (g_at c k) _ _ (fin_B2R _ Fr) (fin_B2R _ Hmf)) in Heq. destruct (Req_bool_spec (B2R r) (B2R (g_at c k))); auto; discriminate. }
  destruct (Hf i Hi) as [Fi Si].
  rewrite (d_eqb_R r d_zero _ _ (fin_B2R _ Fr) fin_zero). destruct (Req_bool_spec (B2R r) 0) as [Z0|N0].
  - (* every term of a zero sum is zero *)
    assert (B2R (f i) = 0%R) as Ei.
    { destruct (Rle_fold (map f (filter (fun i => idx_eqb (proj (g_dims c) i) k) (all_indices sizes))) d_zero) as [_ H]; auto.
      - simpl. lra.
      - intros x Hx. apply in_map_iff in Hx as (j & <- & Hj). apply filter_In in Hj as [Hj _]. apply in_all_indices in Hj.
        apply B2R_nonneg. apply nnb_sign. now apply Hf.
      - assert (In (f i) (map f (filter (fun i => idx_eqb (proj (g_dims c) i) k) (all_indices sizes)))) as Hin.
        { apply in_map. apply filter_In. split; [now apply in_all_indices|]. unfold idx_eqb, k. destruct list_eq_dec; auto. }
        specialize (H _ Hin). fold (marginD sizes (g_dims c) k f) in H. fold r in H. rewrite Z0 in H.
        assert (0 <= B2R (f i))%R by (apply B2R_nonneg; now apply nnb_sign). lra. }
    destruct (f i) as [s|s| |s m e H]; try discriminate; simpl in Si; subst; auto. exfalso.
    pose proof (B2R_pos false m e H eq_refl). lra.
  - rewrite d_div_self by auto. now apply d_mul_one.
Qed.

Lemma sweep_fit sizes f : (forall c, In c cs -> well_indexed sizes c) ->
  (forall i, index_in sizes i -> positive_zero_or_pos (f i)) ->
  (forall c k, In c cs -> index_in (g_sizes c) k -> is_finite (g_at c k) = true) ->
  (forall c k, In c cs -> index_in (g_sizes c) k -> d_eqb (marginD sizes (g_dims c) k f) (g_at c k) = true) ->
  forall i, index_in sizes i -> sweep DS d_add sizes cs f i = f i.
Proof.
  intros Hwi Hf Hmf Heq.
  apply (sweep_inv DS d_add sizes cs (fun g => forall i, index_in sizes i -> g i = f i)); auto.
  intros g c Hc Hg i Hi. rewrite (step_fit sizes c g); auto.
  - intros j Hj. rewrite Hg by auto. now apply Hf.
  - intros k Hk. unfold marginD. rewrite (map_ext_in _ f). { now apply Heq. }
    intros j Hj. apply filter_In in Hj as [Hj _]. apply Hg. now apply in_all_indices.
Qed.

Lemma abs_sub_equal x y : is_finite x = true -> is_finite y = true -> B2R x = B2R y -> d_abs (d_sub x y) = d_zero.
Proof.
  intros Fx Fy E. destruct (d_sub_exact x y (B2R x) (B2R y)) as [F2 E2].
  - now split.
  - now split.
  - replace (B2R x - B2R y)%R with 0%R by lra. apply repr_0.
  - replace (B2R x - B2R y)%R with 0%R by lra. rewrite Rabs_R0. apply bpow_gt_0.
  - rewrite E in E2. replace (B2R y - B2R y)%R with 0%R in E2 by lra.
    destruct (d_sub x y) as [s|s| |s m e H]; try discriminate; [reflexivity|]. exfalso. destruct s; simpl in E2.
    + assert (F2R (Float radix2 (Z.neg m) e) < 0)%R by (apply F2R_lt_0; simpl; lia). simpl in *. lra.
    + assert (0 < F2R (Float radix2 (Z.pos m) e))%R by (apply F2R_gt_0; simpl; lia). simpl in *. lra.
Qed.

Lemma max_zero_fold l : forall m, (m = d_zero \/ m = d_opp d_max /\ l <> []) -> (forall x, In x l -> x = d_zero) -> fold_left (max_step DS) l m = d_zero.
Proof.
  induction l as [|x l IH]; intros m Hm0 Hl; cbn [fold_left]; [destruct Hm0 as [->|[_ H]]; [auto|congruence]|].
  apply IH; [|intros; apply Hl; now right]. left. rewrite (Hl x) by now left.
  destruct Hm0 as [->|[-> _]]; unfold max_step; cbn [sc_num DblScale n_ltb DblOps].
  - reflexivity.
  - replace (d_ltb (d_opp d_max) d_zero) with true by (vm_compute; reflexivity). reflexivity.
Qed.

Lemma max_error_zero sizes f : cs <> [] -> (forall c, In c cs -> positive (g_sizes c)) ->
  (forall c k, In c cs -> index_in (g_sizes c) k -> cell_error DS DblErr d_add sizes f c k = d_zero) ->
  max_error DS DblErr d_add sizes cs f = d_zero.
Proof.
  intros Hne Hp Hz. unfold max_error. cbn [e_lowest DblErr].
  assert (forall l m, incl l cs -> (m = d_zero \/ m = d_opp d_max /\ l <> []) ->
    fold_left (fun m c => fold_left (max_step DS) (errors_of DS DblErr d_add sizes f c) m) l m = d_zero) as G.
  { induction l as [|c l IH]; intros m Hi Hm0; cbn [fold_left]; [destruct Hm0 as [->|[_ H]]; [auto|congruence]|].
    assert (In c cs) as Hc by (apply Hi; now left).
    apply IH; [intros x Hx; apply Hi; now right|]. left. apply max_zero_fold.
    - destruct Hm0 as [->|[-> _]]; [now left|]. right. split; auto. unfold errors_of. intros E. apply map_eq_nil in E.
      pose proof (length_all_indices (g_sizes c) (positive_nonneg _ (Hp c Hc))) as Hl. rewrite E in Hl.
      pose proof (prodZ_pos _ (Hp c Hc)). simpl in Hl. lia.
    - intros x Hx. unfold errors_of in Hx. apply in_map_iff in Hx as (k & <- & Hk). apply Hz; auto. now apply in_all_indices. }
  apply G; [apply incl_refl|]. right. split; auto.
Qed.

Lemma ipf_fit_claim res : py_ipf fuel seed ilist mlist = Ok res ->
  (forall i, index_in (shape seed) i -> is_finite (entry d_zero seed i) = true /\ Bsign (entry d_zero seed i) = false) ->
  (forall c k, In c cs -> index_in (g_sizes c) k -> d_eqb (marginD (shape seed) (g_dims c) k (entry d_zero seed)) (g_at c k) = true) ->
  ir_array res = seed /\ ir_conv res = true /\ ir_iters res = 1 /\ ir_max res = d_zero.
Proof.
  intros E Hf0 Heq. destruct (ipf_ok res E) as (f' & pop & Ha & Hf & Hwi & Es & Earr & Econv & Emax & _).
  destruct Ha as (_ & Hl2 & _ & _ & Hng & Hpp). change (gcons_of d_zero ilist mlist) with cs in *.
  pose proof (accepted_entries cs pop Hng Hpp) as Hent.
  assert (forall i, index_in (shape seed) i -> sweep DS d_add (shape seed) cs (entry d_zero seed) i = entry d_zero seed i) as Hsw.
  { apply sweep_fit; auto. intros c k Hc Hk. now apply Hent. }
  assert (max_error DS DblErr d_add (shape seed) cs (sweep DS d_add (shape seed) cs (entry d_zero seed)) = d_zero) as Hz.
  { apply max_error_zero.
    - destruct cs; [simpl in Hl2; lia|discriminate].
    - intros c Hc. destruct (Hwi c Hc) as (_ & _ & Hv & _ & ->). apply fits_pos. apply fits_proj; auto; now apply Hwi.
    - intros c k Hc Hk. unfold cell_error. cbn [e_abs DblErr sc_diff DblScale].
      change (gmargin (shape seed) (g_dims c) DS d_add (sweep DS d_add (shape seed) cs (entry d_zero seed)) k)
        with (marginD (shape seed) (g_dims c) k (sweep DS d_add (shape seed) cs (entry d_zero seed))).
      assert (marginD (shape seed) (g_dims c) k (sweep DS d_add (shape seed) cs (entry d_zero seed)) = marginD (shape seed) (g_dims c) k (entry d_zero seed)) as ->.
      { unfold marginD. f_equal. apply map_ext_in. intros j Hj. apply filter_In in Hj as [Hj _]. apply Hsw. now apply in_all_indices. }
      specialize (Heq c k Hc Hk). destruct (Hent c k Hc Hk) as [Fk _]. set (r := marginD _ _ _ _) in *.
      assert (is_finite r = true) as Fr by (destruct r as [|[]| |], (g_at c k) as [|[]| |]; try discriminate; reflexivity).
      apply abs_sub_equal; auto. rewrite (d_eqb_R r (g_at c k) _ _ (fin_B2R _ Fr) (fin_B2R _ Fk)) in Heq.
      destruct (Req_bool_spec (B2R r) (B2R (g_at c k))); auto; discriminate. }
  assert (converged DS DblErr d_add (shape seed) cs (sweep DS d_add (shape seed) cs (entry d_zero seed)) = true) as Hcv.
  { unfold converged. rewrite Hz. vm_compute. reflexivity. }
  change (Z.to_nat 1000) with (S 999) in Es. cbn [sweeps] in Es. rewrite Hcv in Es. inversion Es; subst f'.
  rewrite Hcv in Econv. rewrite Hz in Emax. split; [|auto]. rewrite Earr.
  rewrite (map_ext_in _ (entry d_zero seed)) by (intros i Hi; apply Hsw; now apply in_all_indices).
  rewrite map_entry by auto. now destruct seed.
Qed.

End Claims.

(** * Integer-valued marginals: C08 *)

(** the array of doubles holding the integers of [m] *)
Definition dbl_of (m : ndarray Z) : ndarray double := NDA (shape m) (map d_ofZ (flat m)).

Lemma entry_dbl_of m i : entry d_zero (dbl_of m) i = d_ofZ (entry 0 m i).
Proof.
  unfold entry, dbl_of. cbn [shape flat]. replace d_zero with (d_ofZ 0) by (apply B2SF_inj; vm_compute; reflexivity). apply map_nth.
Qed.

Definition exact_totals (mlist : list (ndarray Z)) : Prop :=
  Forall (fun m => total (shape m) (fun k => Z.abs (entry 0 m k)) <= 2 ^ 53) mlist.

Lemma dcons_int ilist : forall mlist, map gnd (dcons_of ilist (map dbl_of mlist)) = map (fun c => gnd (dcon c)) (cons_of ilist mlist) /\
  map g_dims (dcons_of ilist (map dbl_of mlist)) = map c_dims (cons_of ilist mlist) /\
  map outline (dcons_of ilist (map dbl_of mlist)) = map (fun c => CON (c_dims c) (c_sizes c) (fun _ => 0)) (cons_of ilist mlist).
Proof.
  induction ilist as [|i il IH]; intros [|m ml]; try (repeat split; reflexivity).
  destruct (IH ml) as (H1 & H2 & H3). unfold dcons_of, gcons_of, cons_of in *. cbn [map combine fst snd]. rewrite H1, H2, H3.
  repeat split; try reflexivity. f_equal. unfold gnd, gcon_of, dcon, con_of. cbn [g_sizes g_at c_sizes c_at]. apply mk_ext. intros k _. apply entry_dbl_of.
Qed.

Lemma implied_outline cs sizes : implied (map (fun c => CON (c_dims c) (c_sizes c) (fun _ => 0)) cs) sizes <-> implied cs sizes.
Proof.
  unfold implied. split; intros [H1 H2]; split.
  - intros d. rewrite <- H1. split; intros (c & Hc & Hd).
    + eexists. split; [apply in_map; eauto|]. exact Hd.
    + apply in_map_iff in Hc as (c' & <- & Hc'). eauto.
  - intros c Hc. apply (H2 _ (in_map _ _ _ Hc)).
  - intros d. rewrite <- H1. split; intros (c & Hc & Hd).
    + apply in_map_iff in Hc as (c' & <- & Hc'). eauto.
    + eexists. split; [apply in_map; eauto|]. exact Hd.
  - intros c Hc. apply in_map_iff in Hc as (c' & <- & Hc'). now apply (H2 c').
Qed.

Lemma int_range ilist mlist : in_range ilist mlist -> d_range ilist (map dbl_of mlist).
Proof.
  intros [H1 H2]. split.
  - apply Forall_forall. intros x Hx. apply in_map_iff in Hx as (m & <- & Hm). rewrite Forall_forall in H1. destruct (H1 m Hm) as ((W1 & W2 & W3) & P & L & _).
    cbn [shape dbl_of]. split; [|auto]. split; [auto|]. split; [auto|]. unfold dbl_of. cbn [flat shape]. now rewrite map_length.
  - intros sizes Hi. apply H2. fold dcons_of in Hi. rewrite (proj2 (proj2 (dcons_int ilist mlist))) in Hi. now apply implied_outline.
Qed.

Lemma int_front {T} ilist mlist : in_range ilist mlist -> exact_totals mlist ->
  (vectors ilist mlist /\ (let* '(i, m) := py_lists as_nd ilist (map dbl_of mlist) in micro_new (T := T) DblMarg i m) =
                          (let* '(i, m) := py_lists to_nd ilist mlist in micro_new (T := T) IntMarg i m)) \/
  (~ vectors ilist mlist /\ (exists e, (let* '(i, m) := py_lists as_nd ilist (map dbl_of mlist) in micro_new (T := T) DblMarg i m) = Throw e) /\
                            (exists e, (let* '(i, m) := py_lists to_nd ilist mlist in micro_new (T := T) IntMarg i m) = Throw e)).
Proof.
  intros Hr He. pose proof (py_lists_gen d_zero ilist (map dbl_of mlist) (int_range _ _ Hr)) as Hd.
  assert (g_vectors ilist (map dbl_of mlist) <-> vectors ilist mlist) as Hvv by (unfold g_vectors, vectors; now rewrite map_length).
  destruct (py_lists_cases ilist mlist Hr) as [[Hv ->]|[Hv (e & ->)]]; destruct Hd as [[Hd ->]|[Hd (e' & ->)]]; try tauto; cbn [bind].
  - left. split; auto. destruct (dcons_int ilist mlist) as (H1 & H2 & _). unfold dcons_of in *. rewrite H1, H2. apply micro_new_same.
    intros c Hc. split; [now apply (range_small ilist mlist)|]. unfold cons_of in Hc. apply in_map_iff in Hc as ([i m] & <- & Hin). apply in_combine_r in Hin.
    unfold exact_totals in He. rewrite Forall_forall in He. apply (He m Hin).
  - right. split; eauto.
Qed.

Lemma ipf_validation_claim {T} ilist mlist : in_range ilist mlist -> exact_totals mlist -> let cs := cons_of ilist mlist in
  (exists c, In c cs /\ c_total c < 2 ^ 52) ->
  ((exists ms, (let* '(indices, margs) := py_lists as_nd ilist (map dbl_of mlist) in micro_new (T := T) DblMarg indices margs) = Ok ms) <->
   vectors ilist mlist /\ valid cs) /\
  ((exists e, (let* '(indices, margs) := py_lists as_nd ilist (map dbl_of mlist) in micro_new (T := T) DblMarg indices margs) = Throw e) <->
   ~ (vectors ilist mlist /\ valid cs)).
Proof.
  intros Hr He cs Ht. destruct (validation_claim (T := T) ilist mlist Hr Ht) as [V1 V2]. fold cs in V1, V2.
  destruct (int_front (T := T) ilist mlist Hr He) as [[Hv ->]|(Hv & (e & E) & (e' & E'))]; [tauto|]. rewrite E. split.
  - split; [intros (ms & H); discriminate|tauto].
  - split; [tauto|eauto].
Qed.

Lemma ipf_rejects_claim fuel seed ilist mlist : in_range ilist mlist -> exact_totals mlist -> let cs := cons_of ilist mlist in
  (exists c, In c cs /\ c_total c < 2 ^ 52) -> ~ (vectors ilist mlist /\ valid cs) ->
  exists e, py_ipf fuel seed ilist (map dbl_of mlist) = Throw e.
Proof.
  intros Hr He cs Ht Hno. destruct (ipf_validation_claim (T := double) ilist mlist Hr He Ht) as [_ [_ V]]. destruct (V Hno) as (e & E). exists e.
  unfold py_ipf, py_ipf_gen. destruct (py_lists as_nd ilist (map dbl_of mlist)) as [[i m]| | |]; cbn [bind] in *; try congruence. now rewrite E.
Qed.

Lemma ipf_accepts_claim fuel seed ilist mlist : in_range ilist mlist -> exact_totals mlist -> let cs := cons_of ilist mlist in
  (exists c, In c cs /\ c_total c < 2 ^ 52) -> vectors ilist mlist -> valid cs -> implied cs (shape seed) ->
  (forall c, In c cs -> proper (length (shape seed)) (c_dims c)) -> wf_array seed -> prodZ (shape seed) < Z.of_nat fuel ->
  exists res, py_ipf fuel seed ilist (map dbl_of mlist) = Ok res.
Proof.
  intros Hr He cs Ht Hv Hval Hi Hpr Hw Hfu. destruct (ipf_validation_claim (T := double) ilist mlist Hr He Ht) as [[_ V] _].
  destruct (V (conj Hv Hval)) as (ms & E). pose proof (int_range _ _ Hr) as Hdr. pose proof Hr as [_ Hsz].
  pose proof (py_lists_gen d_zero ilist (map dbl_of mlist) Hdr) as Hd. destruct Hd as [[Hvd Hl]|[_ (e & Hl)]]; rewrite Hl in E; cbn [bind] in E; [|discriminate].
  set (gs := gcons_of d_zero ilist (map dbl_of mlist)) in *. fold (dcons_of ilist (map dbl_of mlist)) in gs.
  pose proof (micro_new_tri DblMarg d_add (fun _ _ => eq_refl) dpop_cases (T := double) gs (range_gsmall d_zero _ _ Hdr) (proj2 Hdr)) as Htri.
  rewrite E in Htri. destruct Htri as (sizes & pop & Hi' & Hf & _ & _ & _ & _ & ->).
  destruct (dcons_int ilist mlist) as (H1 & H2 & H3). fold gs in H1, H2, H3. rewrite H3, implied_outline in Hi'.
  assert (sizes = shape seed) as -> by (apply (implied_unique cs); auto).
  assert (forall c, In c gs -> well_indexed (shape seed) c) as Hwi.
  { intros c Hc. apply (well_indexed_of gs); auto.
    - rewrite H3. now apply implied_outline.
    - now apply (range_gsmall d_zero _ _ Hdr).
    - assert (In (g_dims c) (map c_dims cs)) as Hin by (unfold cs; rewrite <- H2; now apply in_map). apply in_map_iff in Hin as (c' & <- & Hc'). now apply Hpr. }
  unfold py_ipf, py_ipf_gen. rewrite Hl. cbn [bind]. rewrite E. cbn [bind]. rewrite (as_nd_ok d_zero) by (auto; now apply Hsz). cbn [bind].
  rewrite (ipf_solve_ok DS DblErr d_add) by auto.
  destruct (sweeps DS DblErr d_add (shape seed) gs (Z.to_nat 1000) (entry d_zero seed) 0) as [f' n']. cbn [bind is_arr is_conv is_iters is_max].
  rewrite from_nd_mk by now apply fits_pos. eexists. reflexivity.
Qed.
