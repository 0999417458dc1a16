(** The calls behind C81. *)
From Coq Require Import QArith Qcanon Lia.
From Flocq Require Import IEEE754.BinarySingleNaN.
From Verif Require Import Base Spec SpecFacts NDArray IndexProofs Float64 ArrayOps ArrayProofs Bind BindProofs Micro Qis
  SynthSpec MicroProofs QisProofs QisClaims Ipf IpfSpec IpfProofs MicroDbl IpfClaims IpfExact IpfDbl RenameSpec RenameProofs QisExamples IpfExamples.
Open Scope Z_scope.

Lemma Forall2_in_l {A B} (P P' : A -> B -> Prop) l l' : Forall2 P l l' -> (forall a b, In a l -> P a b -> P' a b) -> Forall2 P' l l'.
Proof. induction 1 as [|a b l l' H Hl IH]; intros HP; constructor; auto using in_eq. apply IH. intros; apply HP; auto. now right. Qed.

Section Exact.
Context (fuel fuel' : nat) (seed seed' : ndarray Qc) (ilist ilist' : list (ndarray Z)) (mlist mlist' : list (ndarray Qc)).
Hypothesis Hr : g_range 0%Qc ilist mlist.
Hypothesis Hpr : all_proper 0%Qc ilist mlist.
Hypothesis Hws : wf_array seed.
Hypothesis Hs : prodZ (shape seed) < 2 ^ 60.
Hypothesis Hfu : prodZ (shape seed) < Z.of_nat fuel.
Hypothesis Hr' : g_range 0%Qc ilist' mlist'.
Hypothesis Hpr' : all_proper 0%Qc ilist' mlist'.
Hypothesis Hws' : wf_array seed'.
Hypothesis Hs' : prodZ (shape seed') < 2 ^ 60.
Hypothesis Hfu' : prodZ (shape seed') < Z.of_nat fuel'.
Let cs := gcons_of 0%Qc ilist mlist.
Let cs' := gcons_of 0%Qc ilist' mlist'.

Lemma rename_claim rho res res' : py_ipf_exact fuel seed ilist mlist = Ok res -> py_ipf_exact fuel' seed' ilist' mlist' = Ok res' ->
  matching (shape seed) (shape seed') rho -> (forall i, index_in (shape seed) i -> entry 0%Qc seed' (rho i) = entry 0%Qc seed i) ->
  Forall2 (same_marginal (shape seed) rho) cs cs' ->
  (forall i, index_in (shape seed) i -> entry 0%Qc (ir_array res') (rho i) = entry 0%Qc (ir_array res) i) /\
  ir_conv res' = ir_conv res /\ ir_pop res' = ir_pop res /\ ir_iters res' = ir_iters res /\ ir_max res' = ir_max res.
Proof.
  intros E E' Hrho Hseed Hcs. unfold py_ipf_exact in E, E'.
  destruct (ipf_cases QcMarg QcScale QcErr Qcplus Qcplus 0%Qc 0%Qc (fun _ _ => eq_refl) qpop_cases (fun _ _ => eq_refl)
    fuel seed ilist mlist Hr Hpr Hws Hs Hfu) as [(e & F)|[(w & F & _)|(pop & Ha & Hf & Hwi & F)]]; [congruence|congruence|].
  destruct (ipf_cases QcMarg QcScale QcErr Qcplus Qcplus 0%Qc 0%Qc (fun _ _ => eq_refl) qpop_cases (fun _ _ => eq_refl)
    fuel' seed' ilist' mlist' Hr' Hpr' Hws' Hs' Hfu') as [(e & F')|[(w & F' & _)|(pop' & Ha' & Hf' & Hwi' & F')]]; [congruence|congruence|].
  fold cs in F, Hwi. fold cs' in F', Hwi'. rewrite E in F. rewrite E' in F'. clear E E'.
  destruct Ha as (_ & H2 & _ & _ & _ & Hq). destruct Ha' as (_ & _ & _ & _ & _ & Hq'). fold cs in H2, Hq. fold cs' in Hq'.
  assert (Forall2 (okQ (shape seed) rho) cs cs') as Hok.
  { apply (Forall2_in_l _ _ _ _ Hcs). intros c c' Hc H. split; auto. }
  assert (pop' = pop) as ->.
  { destruct Hok as [|c c' l l' Hc _]; [simpl in H2; lia|]. specialize (Hq c (or_introl eq_refl)). specialize (Hq' c' (or_introl eq_refl)).
    rewrite (total_rename _ _ c c' Hc) in Hq'. congruence. }
  pose proof (sweeps_rename QcScale QcErr Qcplus (shape seed) (shape seed') rho (okQ (shape seed) rho) (okQ_spec (shape seed) (shape seed') rho Hrho) (fun _ => True) I (fun _ _ _ => I)
    (fun m x y _ => qmax_comm m x y) cs cs' Hok (Z.to_nat 1000) (entry 0%Qc seed) (entry 0%Qc seed') 0 Hseed) as Hsw.
  destruct (sweeps QcScale QcErr Qcplus (shape seed) cs (Z.to_nat 1000) (entry 0%Qc seed) 0) as [g n].
  destruct (sweeps QcScale QcErr Qcplus (shape seed') cs' (Z.to_nat 1000) (entry 0%Qc seed') 0) as [g' n'].
  destruct Hsw as [Hg ->]. injection F as ->. injection F' as ->. cbn [ir_array ir_conv ir_pop ir_iters ir_max].
  split; [|split; [|split; [reflexivity|split; [reflexivity|]]]].
  - intros i Hi. rewrite !entry_NDA_map; auto. now apply Hrho.
  - exact (conv_rename QcScale QcErr Qcplus (shape seed) (shape seed') rho (okQ (shape seed) rho) (okQ_spec (shape seed) (shape seed') rho Hrho) (fun _ => True) I (fun _ _ _ => I)
      (fun m x y _ => qmax_comm m x y) cs cs' g g' Hok Hg).
  - exact (max_rename QcScale QcErr Qcplus (shape seed) (shape seed') rho (okQ (shape seed) rho) (okQ_spec (shape seed) (shape seed') rho Hrho) (fun _ => True) I (fun _ _ _ => I)
      (fun m x y _ => qmax_comm m x y) cs cs' g g' Hok Hg).
Qed.

Lemma all_well_indexed res : py_ipf_exact fuel seed ilist mlist = Ok res -> forall c, In c cs -> well_indexed (shape seed) c.
Proof. intros E. now destruct (exact_ok fuel seed ilist mlist Hr Hpr Hws Hs Hfu res E) as (_ & _ & H & _). Qed.
End Exact.

(** ** Renaming categories *)

Lemma rename_length sigma dims : forall k, length k = length dims -> length (rename sigma dims k) = length dims.
Proof. intros k H. unfold rename. rewrite map_length, combine_length. lia. Qed.

Lemma nth_rename sigma dims : forall k j, length k = length dims -> (j < length dims)%nat -> nth j (rename sigma dims k) 0 = sigma (nth j dims 0) (nth j k 0).
Proof.
  unfold rename. induction dims as [|d dims IH]; intros [|x k] j Hl Hj; try discriminate; [simpl in Hj; lia|].
  destruct j as [|j]; cbn [combine map nth fst snd]; [reflexivity|]. apply IH; simpl in *; lia.
Qed.

Section Categories.
Context (sizes : list Z) (sigma tau : Z -> Z -> Z) (Hst : categories sizes sigma tau).

Lemma rename_in dims : valid_dims (length sizes) dims -> forall k, index_in (proj dims sizes) k -> index_in (proj dims sizes) (rename sigma dims k) /\
  index_in (proj dims sizes) (rename tau dims k) /\ rename tau dims (rename sigma dims k) = k /\ rename sigma dims (rename tau dims k) = k.
Proof.
  induction dims as [|d dims IH]; intros Hv k Hk.
  - inversion Hk; subst. repeat split; auto; constructor.
  - inversion Hv as [|? ? Hd Hv']; subst. cbn [proj map] in Hk. inversion Hk as [|n x ns xs Hx Hxs]; subst.
    destruct (IH Hv' xs Hxs) as (I1 & I2 & I3 & I4).
    destruct (Hst d (nth (Z.to_nat d) sizes 0) x) as (S1 & S2 & S3 & S4); [apply nth_error_nth'; lia|lia|exact Hx|].
    unfold rename in *. cbn [combine map fst snd proj] in *. split; [now constructor|]. split; [now constructor|]. split; f_equal; auto.
Qed.

Lemma rename_matching dims : valid_dims (length sizes) dims -> matching (proj dims sizes) (proj dims sizes) (rename sigma dims).
Proof.
  intros Hv. split; [intros i Hi; now apply rename_in|]. split.
  - intros i j Hi Hj E. destruct (rename_in dims Hv i Hi) as (_ & _ & <- & _). destruct (rename_in dims Hv j Hj) as (_ & _ & Ej & _). congruence.
  - intros j Hj. exists (rename tau dims j). destruct (rename_in dims Hv j Hj) as (_ & ? & _ & ?). auto.
Qed.

Definition all_dims := zrange (Z.of_nat (length sizes)).
Lemma all_dims_length : length all_dims = length sizes.
Proof. unfold all_dims. rewrite length_zrange. lia. Qed.
Lemma all_dims_valid : valid_dims (length sizes) all_dims.
Proof. apply Forall_forall. intros d Hd. now apply in_zrange in Hd. Qed.
Lemma proj_all : proj all_dims sizes = sizes. Proof. apply proj_zrange. Qed.
Lemma nth_all_dims j : (j < length sizes)%nat -> nth j all_dims 0 = Z.of_nat j.
Proof. intros Hj. apply nth_error_nth. unfold all_dims. replace j with (Z.to_nat (Z.of_nat j)) at 1 by lia. apply nth_error_zrange. lia. Qed.

Lemma proj_rename dims i : valid_dims (length sizes) dims -> index_in sizes i -> proj dims (rename sigma all_dims i) = rename sigma dims (proj dims i).
Proof.
  intros Hv Hi. pose proof (index_in_length _ _ Hi) as Hl. induction dims as [|d dims IH]; [reflexivity|]. inversion Hv as [|? ? Hd Hv']; subst.
  unfold rename at 2. cbn [proj map combine fst snd]. f_equal; [|exact (IH Hv')].
  rewrite nth_rename by (rewrite ?all_dims_length; lia). rewrite nth_all_dims by lia. f_equal. lia.
Qed.
End Categories.

(** ** Renumbering dimensions *)

Section Dimensions.
Context (sizes : list Z) (pi pi' : Z -> Z) (Hpi : dimensions (Z.of_nat (length sizes)) pi pi').
Let all := zrange (Z.of_nat (length sizes)).
(** component [d] of the new index is component [pi' d] of the old one *)
Definition renumber (i : list Z) : list Z := proj (map pi' all) i.

Lemma nth_proj_all (h : Z -> Z) i d : 0 <= d < Z.of_nat (length sizes) -> nth (Z.to_nat d) (proj (map h all) i) 0 = nth (Z.to_nat (h d)) i 0.
Proof.
  intros Hd. unfold proj. rewrite map_map. apply nth_error_nth. rewrite nth_error_map. unfold all. now rewrite nth_error_zrange by lia.
Qed.

Lemma valid_map (h : Z -> Z) dims : (forall d, 0 <= d < Z.of_nat (length sizes) -> 0 <= h d < Z.of_nat (length sizes)) -> valid_dims (length sizes) dims ->
  valid_dims (length sizes) (map h dims).
Proof. intros H Hv. unfold valid_dims in *. rewrite Forall_map. eapply Forall_impl; [|exact Hv]. cbv beta. auto. Qed.

Lemma all_valid : valid_dims (length sizes) all.
Proof. apply Forall_forall. intros d Hd. now apply in_zrange in Hd. Qed.

Lemma proj_renumber dims i : valid_dims (length sizes) dims -> proj (map pi dims) (renumber i) = proj dims i.
Proof.
  intros Hv. unfold proj at 1. rewrite map_map. unfold proj. apply map_ext_in. intros d Hd. unfold valid_dims in Hv. rewrite Forall_forall in Hv. specialize (Hv d Hd).
  destruct (Hpi d Hv) as (H1 & _ & H2 & _). unfold renumber. rewrite nth_proj_all by auto. now rewrite H2.
Qed.

Lemma renumber_length i : length (renumber i) = length sizes.
Proof. unfold renumber. rewrite proj_length, map_length. unfold all. rewrite length_zrange. lia. Qed.

Lemma renumber_back i : length i = length sizes -> proj (map pi all) (renumber i) = i.
Proof. intros Hl. rewrite proj_renumber by apply all_valid. unfold all. rewrite <- Hl. apply proj_zrange. Qed.

Lemma renumber_forth j : length j = length sizes -> renumber (proj (map pi all) j) = j.
Proof.
  intros Hl. unfold renumber. transitivity (proj all j); [|unfold all; rewrite <- Hl; apply proj_zrange].
  unfold proj at 1 3. rewrite map_map. apply map_ext_in. intros d Hd. unfold all in Hd. apply in_zrange in Hd. destruct (Hpi d Hd) as (_ & H1 & _ & H2).
  rewrite nth_proj_all by auto. now rewrite H2.
Qed.

Lemma renumber_matching : matching sizes (renumber sizes) renumber.
Proof.
  split; [|split].
  - intros i Hi. unfold renumber. apply index_in_valid_proj; auto. apply valid_map; [|apply all_valid]. intros d Hd. now apply Hpi.
  - intros i j Hi Hj E. apply index_in_length in Hi, Hj. rewrite <- (renumber_back i Hi), <- (renumber_back j Hj). now rewrite E.
  - intros j Hj. exists (proj (map pi all) j). assert (length j = length sizes) as Hl by (apply index_in_length in Hj; now rewrite renumber_length in Hj).
    split; [|now apply renumber_forth]. rewrite <- (renumber_back sizes eq_refl). apply index_in_valid_proj; auto. rewrite renumber_length.
    apply valid_map; [|apply all_valid]. intros d Hd. now apply Hpi.
Qed.
End Dimensions.

Lemma matching_id sizes : matching sizes sizes (fun i => i).
Proof. split; auto. split; auto. intros j Hj. eauto. Qed.

Section Instances.
Context (fuel fuel' : nat) (seed seed' : ndarray Qc) (ilist ilist' : list (ndarray Z)) (mlist mlist' : list (ndarray Qc)).
Hypothesis Hr : g_range 0%Qc ilist mlist.
Hypothesis Hpr : all_proper 0%Qc ilist mlist.
Hypothesis Hws : wf_array seed.
Hypothesis Hs : prodZ (shape seed) < 2 ^ 60.
Hypothesis Hfu : prodZ (shape seed) < Z.of_nat fuel.
Hypothesis Hr' : g_range 0%Qc ilist' mlist'.
Hypothesis Hpr' : all_proper 0%Qc ilist' mlist'.
Hypothesis Hws' : wf_array seed'.
Hypothesis Hs' : prodZ (shape seed') < 2 ^ 60.
Hypothesis Hfu' : prodZ (shape seed') < Z.of_nat fuel'.
Let cs := gcons_of 0%Qc ilist mlist.
Let cs' := gcons_of 0%Qc ilist' mlist'.

Lemma categories_claim sigma tau res res' : py_ipf_exact fuel seed ilist mlist = Ok res -> py_ipf_exact fuel' seed' ilist' mlist' = Ok res' ->
  categories (shape seed) sigma tau -> shape seed' = shape seed ->
  let every := zrange (Z.of_nat (length (shape seed))) in
  (forall i, index_in (shape seed) i -> entry 0%Qc seed' (rename sigma every i) = entry 0%Qc seed i) ->
  Forall2 (fun c c' => g_dims c' = g_dims c /\ g_sizes c' = g_sizes c /\
    forall k, index_in (g_sizes c) k -> g_at c' (rename sigma (g_dims c) k) = g_at c k) cs cs' ->
  (forall i, index_in (shape seed) i -> entry 0%Qc (ir_array res') (rename sigma every i) = entry 0%Qc (ir_array res) i) /\
  ir_conv res' = ir_conv res /\ ir_pop res' = ir_pop res /\ ir_iters res' = ir_iters res /\ ir_max res' = ir_max res.
Proof.
  intros E E' Hst Esh every Hseed Hcs. pose proof (all_well_indexed fuel seed ilist mlist Hr Hpr Hws Hs Hfu res E) as Hwi.
  apply (rename_claim fuel fuel' seed seed' ilist ilist' mlist mlist' Hr Hpr Hws Hs Hfu Hr' Hpr' Hws' Hs' Hfu' (rename sigma every) res res' E E').
  - rewrite Esh. pose proof (rename_matching (shape seed) sigma tau Hst every (all_dims_valid (shape seed))) as H. unfold every in H. now rewrite proj_zrange in H.
  - exact Hseed.
  - apply (Forall2_in_l _ _ _ _ Hcs). intros c c' Hc (Ed & Ez & Ha). destruct (Hwi c Hc) as (_ & _ & Hv & _ & Es).
    exists (rename sigma (g_dims c)). split; [rewrite Ez, Es; now apply (rename_matching (shape seed) sigma tau Hst)|]. split; [|exact Ha].
    intros i Hi. rewrite Ed. now apply proj_rename.
Qed.

Lemma dimensions_claim pi pi' res res' : py_ipf_exact fuel seed ilist mlist = Ok res -> py_ipf_exact fuel' seed' ilist' mlist' = Ok res' ->
  let n := Z.of_nat (length (shape seed)) in let moved i := proj (map pi' (zrange n)) i in
  dimensions n pi pi' -> shape seed' = moved (shape seed) ->
  (forall i, index_in (shape seed) i -> entry 0%Qc seed' (moved i) = entry 0%Qc seed i) ->
  Forall2 (fun c c' => g_dims c' = map pi (g_dims c) /\ g_sizes c' = g_sizes c /\ forall k, index_in (g_sizes c) k -> g_at c' k = g_at c k) cs cs' ->
  (forall i, index_in (shape seed) i -> entry 0%Qc (ir_array res') (moved i) = entry 0%Qc (ir_array res) i) /\
  ir_conv res' = ir_conv res /\ ir_pop res' = ir_pop res /\ ir_iters res' = ir_iters res /\ ir_max res' = ir_max res.
Proof.
  intros E E' n moved Hpi Esh Hseed Hcs. pose proof (all_well_indexed fuel seed ilist mlist Hr Hpr Hws Hs Hfu res E) as Hwi.
  apply (rename_claim fuel fuel' seed seed' ilist ilist' mlist mlist' Hr Hpr Hws Hs Hfu Hr' Hpr' Hws' Hs' Hfu' moved res res' E E').
  - rewrite Esh. exact (renumber_matching (shape seed) pi pi' Hpi).
  - exact Hseed.
  - apply (Forall2_in_l _ _ _ _ Hcs). intros c c' Hc (Ed & Ez & Ha). destruct (Hwi c Hc) as (_ & _ & Hv & _ & _).
    exists (fun k => k). split; [rewrite Ez; apply matching_id|]. split; [|exact Ha].
    intros i Hi. rewrite Ed. exact (proj_renumber (shape seed) pi pi' Hpi (g_dims c) i Hv).
Qed.
End Instances.

(** ** Doubles: the marginals given in another orientation *)

Section Double.
Context (fuel fuel' : nat) (seed : ndarray double) (ilist ilist' : list (ndarray Z)) (mlist mlist' : list (ndarray double)).
Hypothesis Hr : d_range ilist mlist.
Hypothesis Hpr : all_proper d_zero ilist mlist.
Hypothesis Hws : wf_array seed.
Hypothesis Hs : prodZ (shape seed) < 2 ^ 60.
Hypothesis Hfu : prodZ (shape seed) < Z.of_nat fuel.
Hypothesis Hr' : d_range ilist' mlist'.
Hypothesis Hpr' : all_proper d_zero ilist' mlist'.
Hypothesis Hfu' : prodZ (shape seed) < Z.of_nat fuel'.
Let cs := dcons_of ilist mlist.
Let cs' := dcons_of ilist' mlist'.
Let DS := DblScale (fun m => m).

Definition okD (c c' : gcon double) : Prop := well_indexed (shape seed) c /\ same_marginal (shape seed) (fun i => i) c c'.

Lemma okD_spec c c' : okD c c' -> well_indexed (shape seed) c /\ exists kappa,
  matching (g_sizes c) (g_sizes c') kappa /\ (forall i, index_in (shape seed) i -> proj (g_dims c') i = kappa (proj (g_dims c) i)) /\
  (forall k, index_in (g_sizes c) k -> g_at c' (kappa k) = g_at c k) /\
  (forall f f' k, related (shape seed) (fun i => i) f f' -> index_in (g_sizes c) k ->
     gmargin (shape seed) (g_dims c') DS d_add f' (kappa k) = gmargin (shape seed) (g_dims c) DS d_add f k).
Proof.
  intros (Hw & kap & Hb & Hp & Ha). split; auto. exists kap. repeat (split; auto). intros f f' k Hf Hk. unfold gmargin. f_equal.
  destruct Hw as (_ & _ & Hv & _ & Es). destruct Hb as (_ & Hin & _).
  erewrite filter_ext_in.
  - apply map_ext_in. intros i Hi. apply filter_In in Hi as [Hi _]. apply (Hf i). now apply in_all_indices.
  - intros i Hi. apply in_all_indices in Hi. cbv beta. rewrite Hp by auto.
    assert (index_in (g_sizes c) (proj (g_dims c) i)) as Hc by (rewrite Es; now apply index_in_valid_proj).
    unfold idx_eqb. destruct (list_eq_dec Z.eq_dec (kap (proj (g_dims c) i)) (kap k)) as [E|N]; destruct (list_eq_dec Z.eq_dec (proj (g_dims c) i) k) as [E'|N']; auto.
    + exfalso. apply N'. now apply Hin.
    + exfalso. apply N. now rewrite E'.
Qed.

Lemma oriented_claim res res' : py_ipf fuel seed ilist mlist = Ok res -> py_ipf fuel' seed ilist' mlist' = Ok res' ->
  Forall2 (same_marginal (shape seed) (fun i => i)) cs cs' ->
  ir_array res' = ir_array res /\ ir_conv res' = ir_conv res /\ ir_iters res' = ir_iters res /\ ir_max res' = ir_max res.
Proof.
  intros E E' Hcs. unfold py_ipf in E, E'. fold DS in E, E'.
  destruct (ipf_cases DblMarg DS DblErr d_add d_add d_zero d_zero (fun _ _ => eq_refl) dpop_cases (fun _ _ => eq_refl)
    fuel seed ilist mlist Hr Hpr Hws Hs Hfu) as [(e & F)|[(w & F & _)|(pop & Ha & Hf & Hwi & F)]]; [congruence|congruence|].
  destruct (ipf_cases DblMarg DS DblErr d_add d_add d_zero d_zero (fun _ _ => eq_refl) dpop_cases (fun _ _ => eq_refl)
    fuel' seed ilist' mlist' Hr' Hpr' Hws Hs Hfu') as [(e & F')|[(w & F' & _)|(pop' & Ha' & Hf' & Hwi' & F')]]; [congruence|congruence|].
  rewrite E in F. rewrite E' in F'. clear E E'.
  change (gcons_of d_zero ilist mlist) with cs in *. change (gcons_of d_zero ilist' mlist') with cs' in *.
  assert (Forall2 okD cs cs') as Hok.
  { apply (Forall2_in_l _ _ _ _ Hcs). intros c c' Hc H. split; auto. }
  assert (is_nan (e_lowest DblErr) = false) as Hlow by (vm_compute; reflexivity).
  assert (related (shape seed) (fun i => i) (entry d_zero seed) (entry d_zero seed)) as Hseed by (intros i Hi; reflexivity).
  pose proof (sweeps_rename DS DblErr d_add (shape seed) (shape seed) (fun i => i) okD okD_spec (fun m => is_nan m = false) Hlow (dmax_keep (fun m => m))
    (dmax_comm (fun m => m)) cs cs' Hok (Z.to_nat 1000) (entry d_zero seed) (entry d_zero seed) 0 Hseed) as Hsw.
  destruct (sweeps DS DblErr d_add (shape seed) cs (Z.to_nat 1000) (entry d_zero seed) 0) as [g n].
  destruct (sweeps DS DblErr d_add (shape seed) cs' (Z.to_nat 1000) (entry d_zero seed) 0) as [g' n'].
  destruct Hsw as [Hg ->]. injection F as ->. injection F' as ->. cbn [ir_array ir_conv ir_pop ir_iters ir_max].
  split; [|split; [|split; [reflexivity|]]].
  - f_equal. apply map_ext_in. intros i Hi. apply Hg. now apply in_all_indices.
  - exact (conv_rename DS DblErr d_add (shape seed) (shape seed) (fun i => i) okD okD_spec (fun m => is_nan m = false) Hlow (dmax_keep (fun m => m))
      (dmax_comm (fun m => m)) cs cs' g g' Hok Hg).
  - exact (max_rename DS DblErr d_add (shape seed) (shape seed) (fun i => i) okD okD_spec (fun m => is_nan m = false) Hlow (dmax_keep (fun m => m))
      (dmax_comm (fun m => m)) cs cs' g g' Hok Hg).
Qed.
End Double.

(** * Examples *)

Definition zq (l : list Z) : list Qc := map (fun z => Q2Qc (inject_Z z)) l.
Definition rot (d x : Z) : Z := if d =? 1 then (x + 1) mod 3 else x.
Definition tor (d x : Z) : Z := if d =? 1 then (x + 2) mod 3 else x.
Definition flip (d : Z) : Z := 1 - d.
Definition exR_i : list (ndarray Z) := [NDA [1] [0]; NDA [1] [1]].
Definition exR_s : ndarray Qc := NDA [2; 3] (zq [1; 2; 3; 2; 4; 6]).
Definition exR_m : list (ndarray Qc) := [NDA [2] (zq [4; 2]); NDA [3] (zq [1; 3; 2])].
(** the categories of dimension 1 moved round by one *)
Definition exR_s1 : ndarray Qc := NDA [2; 3] (zq [3; 1; 2; 6; 2; 4]).
Definition exR_m1 : list (ndarray Qc) := [NDA [2] (zq [4; 2]); NDA [3] (zq [2; 1; 3])].
(** the dimensions swapped *)
Definition exR_i2 : list (ndarray Z) := [NDA [1] [1]; NDA [1] [0]].
Definition exR_s2 : ndarray Qc := NDA [3; 2] (zq [1; 2; 2; 4; 3; 6]).

Lemma small_cases n x : 0 <= x < n -> n <= 3 -> x = 0 \/ x = 1 \/ x = 2. Proof. lia. Qed.

Lemma exR_categories : categories [2; 3] rot tor.
Proof.
  intros d n x Hn Hd Hx. destruct (Z.to_nat d) as [|[|[|k]]] eqn:E; cbn in Hn; try discriminate.
  - injection Hn as <-. unfold rot, tor. replace (d =? 1) with false by (symmetry; apply Z.eqb_neq; lia). lia.
  - injection Hn as <-. unfold rot, tor. replace (d =? 1) with true by (symmetry; apply Z.eqb_eq; lia).
    destruct (small_cases 3 x Hx) as [-> | [-> | ->]]; [lia| | |]; cbv; repeat split; congruence.
Qed.

Lemma forall_indices (P : list Z -> Prop) sizes : Forall P (all_indices sizes) -> forall i, index_in sizes i -> P i.
Proof. intros H i Hi. rewrite Forall_forall in H. apply H. now apply in_all_indices. Qed.

Lemma qc_by (a b : Qc) : Qc_eq_bool a b = true -> a = b. Proof. apply qc_eqb. Qed.

Lemma flip_ok : dimensions 2 flip flip.
Proof. intros d Hd. unfold flip. lia. Qed.

Lemma exR_ok : g_range 0%Qc exR_i exR_m /\ all_proper 0%Qc exR_i exR_m /\ wf_array exR_s /\ g_range 0%Qc exR_i exR_m1 /\ all_proper 0%Qc exR_i exR_m1 /\ wf_array exR_s1 /\
  g_range 0%Qc exR_i2 exR_m /\ all_proper 0%Qc exR_i2 exR_m /\ wf_array exR_s2 /\
  is_ok (py_ipf_exact 7 exR_s exR_i exR_m) = true /\ is_ok (py_ipf_exact 7 exR_s1 exR_i exR_m1) = true /\ is_ok (py_ipf_exact 7 exR_s2 exR_i2 exR_m) = true /\
  categories (shape exR_s) rot tor /\ (forall i, index_in [2; 3] i -> entry 0%Qc exR_s1 (rename rot [0; 1] i) = entry 0%Qc exR_s i) /\
  Forall2 (fun c c' => g_dims c' = g_dims c /\ g_sizes c' = g_sizes c /\ forall k, index_in (g_sizes c) k -> g_at c' (rename rot (g_dims c) k) = g_at c k)
    (gcons_of 0%Qc exR_i exR_m) (gcons_of 0%Qc exR_i exR_m1) /\
  dimensions 2 flip flip /\ shape exR_s2 = proj (map flip [0; 1]) (shape exR_s) /\
  (forall i, index_in [2; 3] i -> entry 0%Qc exR_s2 (proj (map flip [0; 1]) i) = entry 0%Qc exR_s i) /\
  Forall2 (fun c c' => g_dims c' = map flip (g_dims c) /\ g_sizes c' = g_sizes c /\ forall k, index_in (g_sizes c) k -> g_at c' k = g_at c k)
    (gcons_of 0%Qc exR_i exR_m) (gcons_of 0%Qc exR_i2 exR_m).
Proof.
  split; [apply (g_range_by _ _ _ [2; 3]); vm_compute; reflexivity|]. split; [apply (all_proper_by _ _ _ [2; 3]); vm_compute; reflexivity|].
  split; [apply shape_by; vm_compute; reflexivity|].
  split; [apply (g_range_by _ _ _ [2; 3]); vm_compute; reflexivity|]. split; [apply (all_proper_by _ _ _ [2; 3]); vm_compute; reflexivity|].
  split; [apply shape_by; vm_compute; reflexivity|].
  split; [apply (g_range_by _ _ _ [3; 2]); vm_compute; reflexivity|]. split; [apply (all_proper_by _ _ _ [3; 2]); vm_compute; reflexivity|].
  split; [apply shape_by; vm_compute; reflexivity|].
  split; [vm_compute; reflexivity|]. split; [vm_compute; reflexivity|]. split; [vm_compute; reflexivity|].
  split; [exact exR_categories|].
  split; [apply forall_indices; repeat constructor; apply qc_by; vm_compute; reflexivity|].
  split; [repeat constructor; cbn [g_sizes gcon_of shape snd]; apply forall_indices; repeat constructor; apply qc_by; vm_compute; reflexivity|].
  split; [exact flip_ok|]. split; [reflexivity|].
  split; [apply forall_indices; repeat constructor; apply qc_by; vm_compute; reflexivity|].
  repeat constructor.
Qed.

(** a marginal on two of three dimensions, and its transpose *)
Definition exO_s : ndarray double := NDA [2; 3; 2] (dz [1; 2; 3; 4; 5; 6; 7; 8; 9; 1; 2; 3]).
Definition exO_i : list (ndarray Z) := [NDA [2] [0; 1]; NDA [1] [2]].
Definition exO_i' : list (ndarray Z) := [NDA [2] [1; 0]; NDA [1] [2]].
Definition exO_m : list (ndarray double) := [NDA [2; 3] (dz [1; 2; 3; 4; 5; 6]); NDA [2] (dz [10; 11])].
Definition exO_m' : list (ndarray double) := [NDA [3; 2] (dz [1; 4; 2; 5; 3; 6]); NDA [2] (dz [10; 11])].

Lemma exO_ok : d_range exO_i exO_m /\ all_proper d_zero exO_i exO_m /\ wf_array exO_s /\ d_range exO_i' exO_m' /\ all_proper d_zero exO_i' exO_m' /\
  is_ok (py_ipf 13 exO_s exO_i exO_m) = true /\ is_ok (py_ipf 13 exO_s exO_i' exO_m') = true /\
  Forall2 (same_marginal [2; 3; 2] (fun i => i)) (dcons_of exO_i exO_m) (dcons_of exO_i' exO_m').
Proof.
  split; [apply (g_range_by _ _ _ [2; 3; 2]); vm_compute; reflexivity|]. split; [apply (all_proper_by _ _ _ [2; 3; 2]); vm_compute; reflexivity|].
  split; [apply shape_by; vm_compute; reflexivity|].
  split; [apply (g_range_by _ _ _ [2; 3; 2]); vm_compute; reflexivity|]. split; [apply (all_proper_by _ _ _ [2; 3; 2]); vm_compute; reflexivity|].
  split; [vm_compute; reflexivity|]. split; [vm_compute; reflexivity|].
  constructor; [|constructor; [|constructor]].
  - exists (proj [1; 0]). split; [|split].
    + exact (renumber_matching [2; 3] flip flip flip_ok).
    + intros i Hi. inversion Hi as [|? a ? l Ha Hl]; subst. inversion Hl as [|? b ? l' Hb Hl']; subst. reflexivity.
    + apply forall_indices. repeat constructor.
  - exists (fun k => k). split; [apply matching_id|]. split; auto.
Qed.

(** in doubles, reversing the categories of a dimension changes the last bit of a cell *)
Definition exB_seed : ndarray double := NDA [3; 2] (dz [1; 1; 1; 1; 1; 3]).
Definition exB_rev : ndarray double := NDA [3; 2] (dz [1; 3; 1; 1; 1; 1]).
Definition exB_marg : list (ndarray double) := [NDA [3] (dz [1; 2; 1]); NDA [2] (dz [2; 2])].
Lemma differ_by (o o' : outcome (ipf_result double)) i j : match o, o' with
    | Ok r, Ok r' => ir_conv r && ir_conv r' && negb (d_eqb (entry d_zero (ir_array r) i) (entry d_zero (ir_array r') j)) && negb (is_nan (entry d_zero (ir_array r) i))
    | _, _ => false end = true ->
  exists r r', o = Ok r /\ o' = Ok r' /\ ir_conv r = true /\ ir_conv r' = true /\ entry d_zero (ir_array r') j <> entry d_zero (ir_array r) i.
Proof.
  intros H. destruct o as [r| | |]; try discriminate. destruct o' as [r'| | |]; try discriminate.
  apply andb_true_iff in H as [H H4]. apply andb_true_iff in H as [H H3]. apply andb_true_iff in H as [H1 H2].
  exists r, r'. split; [reflexivity|]. split; [reflexivity|]. split; [exact H1|]. split; [exact H2|].
  intros E. rewrite E in H3. apply negb_true_iff in H3, H4. unfold d_eqb in H3. rewrite Beqb_refl, H4 in H3. discriminate.
Qed.
Lemma reverse_claim : exists r r', py_ipf 7 exB_seed exR_i exB_marg = Ok r /\ py_ipf 7 exB_rev exR_i exB_marg = Ok r' /\
  ir_conv r = true /\ ir_conv r' = true /\ entry d_zero (ir_array r') [0; 1] <> entry d_zero (ir_array r) [2; 1].
Proof. apply differ_by. vm_compute. reflexivity. Qed.
