(** ipf in exact arithmetic: the result is the seed times one factor per marginal cell (C17). *)
From Coq Require Import QArith Qcanon Qround Psatz.
From Verif Require Import Base Spec SpecFacts NDArray IndexProofs Float64 ArrayOps ArrayProofs Bind BindProofs Micro Qis
  SynthSpec MicroProofs QisProofs QisClaims Ipf IpfSpec IpfProofs MicroDbl IpfClaims.
Open Scope Z_scope.

Lemma fold_left_Qc l : forall a, fold_left Qcplus l a = (a + fold_right Qcplus 0 l)%Qc.
Proof. induction l as [|x l IH]; intros a; simpl; [ring|]. rewrite IH. ring. Qed.

Lemma gmargin_Q sizes dims f k : gmargin sizes dims QcScale Qcplus f k = marginQ sizes dims k f.
Proof. unfold gmargin, marginQ. rewrite fold_left_Qc. cbn [sc_num QcScale n_zero QcOps]. ring. Qed.

Lemma qc_eqb x y : Qc_eq_bool x y = true <-> x = y.
Proof. split; [apply Qc_eq_bool_correct|]. intros ->. unfold Qc_eq_bool. destruct (Qc_eq_dec y y); auto. Qed.

Section Exact.
Context (sizes : list Z).

Definition fac (c : gcon Qc) (f : list Z -> Qc) (k : list Z) : Qc :=
  let r := marginQ sizes (g_dims c) k f in if Qc_eq_bool r 0 then 0%Qc else (g_at c k / r)%Qc.

Lemma step_fac c f i : step QcScale Qcplus sizes c f i = (f i * fac c f (proj (g_dims c) i))%Qc.
Proof.
  unfold step, scaled, fac. rewrite gmargin_Q. cbn [sc_num QcScale n_eqb n_zero QcOps sc_scale]. destruct (Qc_eq_bool _ _); [ring|reflexivity].
Qed.

Lemma factors_cons c cs x xs i : factors (c :: cs) (x :: xs) i = (x (proj (g_dims c) i) * factors cs xs i)%Qc.
Proof. reflexivity. Qed.

Lemma sweep_factors cs : forall f, exists xs, length xs = length cs /\ forall i, sweep QcScale Qcplus sizes cs f i = (f i * factors cs xs i)%Qc.
Proof.
  induction cs as [|c cs IH]; intros f.
  - exists []. split; auto. intros i. unfold sweep, factors. simpl. ring.
  - destruct (IH (step QcScale Qcplus sizes c f)) as (xs & Hl & Hx). exists (fac c f :: xs). split; [simpl; now rewrite Hl|].
    intros i. rewrite factors_cons. change (sweep QcScale Qcplus sizes (c :: cs) f i) with (sweep QcScale Qcplus sizes cs (step QcScale Qcplus sizes c f) i).
    rewrite Hx, step_fac. ring.
Qed.

Lemma factors_mul cs : forall xs ys, length xs = length cs -> length ys = length cs ->
  forall i, factors cs (map (fun p k => fst p k * snd p k)%Qc (combine xs ys)) i = (factors cs xs i * factors cs ys i)%Qc.
Proof.
  induction cs as [|c cs IH]; intros [|x xs] [|y ys] Hx Hy i; try discriminate; [unfold factors; simpl; ring|].
  cbn [combine map]. rewrite !factors_cons, IH by (simpl in *; lia). cbn [fst snd]. ring.
Qed.

Lemma factors_one cs i : factors cs (map (fun _ _ => 1%Qc) cs) i = 1%Qc.
Proof. induction cs as [|c cs IH]; [reflexivity|]. cbn [map]. rewrite factors_cons, IH. ring. Qed.

Lemma sweeps_factors cs left f n f' n' : sweeps QcScale QcErr Qcplus sizes cs left f n = (f', n') ->
  exists xs, length xs = length cs /\ forall i, f' i = (f i * factors cs xs i)%Qc.
Proof.
  intros E.
  apply (sweeps_inv QcScale QcErr Qcplus sizes cs (fun g => exists xs, length xs = length cs /\ forall i, g i = (f i * factors cs xs i)%Qc)) in E; auto.
  - intros g (xs & Hl & Hg). destruct (sweep_factors cs g) as (ys & Hl' & Hy).
    exists (map (fun p k => fst p k * snd p k)%Qc (combine xs ys)). split; [rewrite map_length, combine_length; lia|].
    intros i. rewrite Hy, Hg, factors_mul by auto. ring.
  - exists (map (fun _ _ => 1%Qc) cs). split; [apply map_length|]. intros i. rewrite factors_one. ring.
Qed.

Lemma sum_scale (f : list Z -> Qc) q l : fold_right Qcplus 0%Qc (map (fun i => f i * q)%Qc l) = (fold_right Qcplus 0%Qc (map f l) * q)%Qc.
Proof. induction l as [|i l IH]; simpl; [ring|]. rewrite IH. ring. Qed.

Lemma step_margin c f k : marginQ sizes (g_dims c) k (step QcScale Qcplus sizes c f) = (marginQ sizes (g_dims c) k f * fac c f k)%Qc.
Proof.
  unfold marginQ at 1 2. rewrite <- sum_scale. f_equal. apply map_ext_in. intros i Hi. rewrite step_fac.
  apply filter_In in Hi as [_ Hi]. unfold idx_eqb in Hi. destruct (list_eq_dec Z.eq_dec (proj (g_dims c) i) k) as [->|]; [reflexivity|discriminate].
Qed.

Lemma step_match c f k : marginQ sizes (g_dims c) k (step QcScale Qcplus sizes c f) = g_at c k \/
  forall i, proj (g_dims c) i = k -> step QcScale Qcplus sizes c f i = 0%Qc.
Proof.
  destruct (Qc_eq_bool (marginQ sizes (g_dims c) k f) 0) eqn:E.
  - right. intros i Hi. rewrite step_fac. unfold fac. rewrite Hi, E. ring.
  - left. rewrite step_margin. unfold fac. rewrite E. apply Qcmult_div_r. intros H. apply qc_eqb in H. congruence.
Qed.

Lemma sweep_snoc cs c f : sweep QcScale Qcplus sizes (cs ++ [c]) f = step QcScale Qcplus sizes c (sweep QcScale Qcplus sizes cs f).
Proof. unfold sweep. now rewrite fold_left_app. Qed.
End Exact.

(** positive seeds and marginals *)
Definition q_pos (x : Qc) : Prop := (0 < x)%Qc.

Lemma q_pos_mul x y : q_pos x -> q_pos y -> q_pos (x * y)%Qc.
Proof. unfold q_pos. intros Hx Hy. rewrite <- (Qcmult_0_l y). now apply Qcmult_lt_compat_r. Qed.

Lemma q_pos_inv x : q_pos x -> q_pos (/ x)%Qc.
Proof.
  unfold q_pos. intros Hx. destruct (Qclt_le_dec 0 (/ x)) as [H|H]; auto. exfalso.
  assert (x * / x = 1)%Qc as E by (apply Qcmult_inv_r; intros ->; now apply Qclt_not_eq in Hx).
  assert (x * / x <= 0)%Qc as E'.
  { rewrite Qcmult_comm, <- (Qcmult_0_l x). apply Qcmult_le_compat_r; auto. now apply Qclt_le_weak. }
  rewrite E in E'. apply Qcle_not_lt in E'. now apply E'.
Qed.

Lemma q_sum_pos l : (forall x, In x l -> q_pos x) -> l <> [] -> q_pos (fold_right Qcplus 0%Qc l).
Proof.
  unfold q_pos. induction l as [|x l IH]; intros H Hne; [congruence|]. cbn [fold_right].
  assert (0 < x)%Qc as Hx by (apply H; now left). destruct l as [|y l].
  - simpl. now rewrite Qcplus_0_r.
  - assert (0 < fold_right Qcplus 0 (y :: l))%Qc as Hs by (apply IH; [intros; apply H; now right|discriminate]).
    apply Qclt_trans with x; auto. rewrite <- (Qcplus_0_r x) at 1. rewrite (Qcplus_comm x 0), (Qcplus_comm x (fold_right _ _ _)).
    apply Qclt_minus_iff. apply Qclt_minus_iff in Hs. now replace (fold_right Qcplus 0 (y :: l) + x + - (0 + x))%Qc with (fold_right Qcplus 0 (y :: l) + - 0)%Qc by ring.
Qed.

Lemma step_pos sizes c f : well_indexed sizes c -> (forall k, index_in (g_sizes c) k -> q_pos (g_at c k)) ->
  (forall i, index_in sizes i -> q_pos (f i)) -> forall i, index_in sizes i -> q_pos (step QcScale Qcplus sizes c f i).
Proof.
  intros Hwi Hm Hf i Hi. rewrite step_fac. apply q_pos_mul; auto. unfold fac.
  assert (q_pos (marginQ sizes (g_dims c) (proj (g_dims c) i) f)) as Hr.
  { apply q_sum_pos.
    - intros x Hx. apply in_map_iff in Hx as (j & <- & Hj). apply filter_In in Hj as [Hj _]. apply Hf. now apply in_all_indices.
    - intros E. apply map_eq_nil in E. assert (In i []) as Hin; [|easy]. rewrite <- E. apply filter_In. split; [now apply in_all_indices|].
      unfold idx_eqb. destruct list_eq_dec; auto. }
  destruct (Qc_eq_bool _ 0) eqn:E; [apply qc_eqb in E; rewrite E in Hr; now apply Qclt_not_eq in Hr|].
  apply q_pos_mul; [|now apply q_pos_inv]. apply Hm. destruct Hwi as (_ & _ & Hv & _ & ->). now apply index_in_valid_proj.
Qed.

Lemma qpop_cases : forall x, (exists p, mg_pop QcMarg x = Ok p) \/ (exists w, mg_pop QcMarg x = UB w).
Proof. intros x. cbn [mg_pop QcMarg]. unfold i64. destruct (in_i64 _); eauto. Qed.

Section Claims.
Context (fuel : nat) (seed : ndarray Qc) (ilist : list (ndarray Z)) (mlist : list (ndarray Qc)).
Hypothesis Hr : g_range 0%Qc ilist mlist.
Hypothesis Hpr : all_proper 0%Qc ilist mlist.
Hypothesis Hws : wf_array seed.
Hypothesis Hs : prodZ (shape seed) < 2 ^ 60.
Hypothesis Hfu : prodZ (shape seed) < Z.of_nat fuel.
Let cs := gcons_of 0%Qc ilist mlist.

Lemma exact_ok res : py_ipf_exact fuel seed ilist mlist = Ok res ->
  exists f', fits (shape seed) /\ (forall c, In c cs -> well_indexed (shape seed) c) /\
    sweeps QcScale QcErr Qcplus (shape seed) cs (Z.to_nat 1000) (entry 0%Qc seed) 0 = (f', ir_iters res) /\
    ir_array res = NDA (shape seed) (map f' (all_indices (shape seed))).
Proof.
  intros E. unfold py_ipf_exact in E.
  destruct (ipf_cases QcMarg QcScale QcErr Qcplus Qcplus 0%Qc 0%Qc (fun _ _ => eq_refl) qpop_cases (fun _ _ => eq_refl)
    fuel seed ilist mlist Hr Hpr Hws Hs Hfu) as [(e & E')|[(w & E' & _)|(pop & Ha & Hf & Hwi & E')]]; try congruence.
  fold cs in E', Hwi. rewrite E in E'.
  destruct (sweeps QcScale QcErr Qcplus (shape seed) cs (Z.to_nat 1000) (entry 0%Qc seed) 0) as [f' n'] eqn:Ew.
  inversion E'. subst res. exists f'. cbn [ir_iters ir_array]. auto.
Qed.

Lemma exact_product_claim res : py_ipf_exact fuel seed ilist mlist = Ok res ->
  shape (ir_array res) = shape seed /\
  exists xs, length xs = length cs /\ forall i, index_in (shape seed) i -> entry 0%Qc (ir_array res) i = (entry 0%Qc seed i * factors cs xs i)%Qc.
Proof.
  intros E. destruct (exact_ok res E) as (f' & _ & _ & Es & ->). split; [reflexivity|].
  destruct (sweeps_factors _ _ _ _ _ _ _ Es) as (xs & Hl & Hx). exists xs. split; auto. intros i Hi. now rewrite entry_NDA_map.
Qed.

Lemma exact_odds_claim res i j i' j' : py_ipf_exact fuel seed ilist mlist = Ok res ->
  index_in (shape seed) i -> index_in (shape seed) j -> index_in (shape seed) i' -> index_in (shape seed) j' ->
  (forall c, In c cs -> (proj (g_dims c) i = proj (g_dims c) i' /\ proj (g_dims c) j = proj (g_dims c) j') \/
                        (proj (g_dims c) i = proj (g_dims c) j' /\ proj (g_dims c) j = proj (g_dims c) i')) ->
  let s := entry 0%Qc seed in let r := entry 0%Qc (ir_array res) in
  (r i * r j * (s i' * s j') = r i' * r j' * (s i * s j))%Qc.
Proof.
  intros E Hi Hj Hi' Hj' Hc s r. destruct (exact_product_claim res E) as (_ & xs & Hl & Hx). unfold r. rewrite !Hx by auto.
  assert (factors cs xs i * factors cs xs j = factors cs xs i' * factors cs xs j')%Qc as F.
  { clear Hx. revert xs Hl Hc. clearbody cs. clear -i j i' j'. induction cs as [|c l IH]; intros [|x xs] Hl Hc; try discriminate; [reflexivity|].
    rewrite !factors_cons. assert (factors l xs i * factors l xs j = factors l xs i' * factors l xs j')%Qc as F.
    { apply IH; [simpl in Hl; lia|]. intros c' Hc'. apply Hc. now right. }
    destruct (Hc c (or_introl eq_refl)) as [[-> ->]|[-> ->]].
    - transitivity (x (proj (g_dims c) i') * x (proj (g_dims c) j') * (factors l xs i * factors l xs j))%Qc; [ring|]. rewrite F. ring.
    - transitivity (x (proj (g_dims c) i') * x (proj (g_dims c) j') * (factors l xs i * factors l xs j))%Qc; [ring|]. rewrite F. ring. }
  fold s. transitivity (s i * s j * s i' * s j' * (factors cs xs i * factors cs xs j))%Qc; [ring|]. rewrite F. ring.
Qed.

Lemma exact_last_claim res pre c : py_ipf_exact fuel seed ilist mlist = Ok res -> cs = pre ++ [c] ->
  forall k, index_in (g_sizes c) k -> let r := entry 0%Qc (ir_array res) in
  marginQ (shape seed) (g_dims c) k r = g_at c k \/ forall i, index_in (shape seed) i -> proj (g_dims c) i = k -> r i = 0%Qc.
Proof.
  intros E Ec k Hk r. destruct (exact_ok res E) as (f' & _ & _ & Es & Earr).
  assert (forall i, index_in (shape seed) i -> r i = f' i) as Hrf by (intros i Hi; unfold r; rewrite Earr; now apply entry_NDA_map).
  change (Z.to_nat 1000) with (S 999) in Es. apply sweeps_last in Es as (f0 & ->). rewrite Ec, sweep_snoc in Hrf.
  destruct (step_match (shape seed) c (sweep QcScale Qcplus (shape seed) pre f0) k) as [H|H].
  - left. rewrite <- H. unfold marginQ. f_equal. apply map_ext_in. intros i Hi. apply filter_In in Hi as [Hi _]. apply Hrf. now apply in_all_indices.
  - right. intros i Hi Hp. rewrite Hrf by auto. now apply H.
Qed.

Lemma exact_last_pos_claim res pre c : py_ipf_exact fuel seed ilist mlist = Ok res -> cs = pre ++ [c] ->
  (forall i, index_in (shape seed) i -> (0 < entry 0%Qc seed i)%Qc) -> (forall c k, In c cs -> index_in (g_sizes c) k -> (0 < g_at c k)%Qc) ->
  forall k, index_in (g_sizes c) k -> marginQ (shape seed) (g_dims c) k (entry 0%Qc (ir_array res)) = g_at c k.
Proof.
  intros E Ec Hseed Hm k Hk. destruct (exact_last_claim res pre c E Ec k Hk) as [H|H]; auto. exfalso.
  destruct (exact_ok res E) as (f' & Hf & Hwi & Es & Earr).
  assert (forall i, index_in (shape seed) i -> q_pos (f' i)) as Hp.
  { refine (sweeps_inv QcScale QcErr Qcplus (shape seed) cs (fun f => forall i, index_in (shape seed) i -> q_pos (f i)) _ _ _ _ _ _ Es _); auto.
    apply (sweep_inv QcScale Qcplus (shape seed) cs (fun f => forall i, index_in (shape seed) i -> q_pos (f i))). intros f c' Hc'. apply step_pos; auto. intros k' Hk'. now apply (Hm c'). }
  assert (In c cs) as Hc by (rewrite Ec; apply in_or_app; right; now left).
  destruct (Hwi c Hc) as (H1 & H2 & H3 & H4 & H5). rewrite H5 in Hk.
  set (i := writes (g_dims c) k (repeat 0 (length (shape seed)))).
  assert (index_in (shape seed) i) as Hi by (apply writes_index_in; auto; now apply zeros_in).
  assert (proj (g_dims c) i = k) as Hpi.
  { apply proj_writes; auto; [now rewrite repeat_length|]. rewrite (index_in_length _ _ Hk). apply proj_length. }
  specialize (H i Hi Hpi). rewrite Earr, entry_NDA_map in H by auto. specialize (Hp i Hi). rewrite H in Hp. now apply Qclt_not_eq in Hp.
Qed.

End Claims.
