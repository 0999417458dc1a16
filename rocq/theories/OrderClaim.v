(** The table of ipf is determined by the seed and by the marginals it has reached (C82). *)
From Coq Require Import QArith Qcanon Reals Lra Lia Permutation.
From Verif Require Import Base Spec SpecFacts NDArray IndexProofs ArrayProofs Float64 ArrayOps Bind BindProofs RealSpec IntegeriseProofs Micro Qis
  SynthSpec MicroProofs Ipf IpfSpec IpfProofs MicroDbl IpfClaims IpfExact Raking IpfLimit IpfConv QisExamples IpfExamples EntropySpec Entropy MisfitClaim OrderSpec.
Open Scope Z_scope.

Notation factor_list := (list (list (list Z) * (list Z -> list Z) * (list Z -> R))).

(** the factors belong to cells of marginals of [cs] *)
Definition belongs (cs : list (gcon Qc)) (ms : factor_list) : Prop :=
  forall K h x, In (K, h, x) ms -> exists c, In c cs /\ K = all_indices (g_sizes c) /\ h = proj (g_dims c).

Lemma prodx_app l l' i : prodx (l ++ l') i = (prodx l i * prodx l' i)%R.
Proof. unfold prodx. induction l as [|[[K h] x] l IH]; cbn [app map fold_right]; [lra|]. rewrite IH. lra. Qed.

Lemma call_factors fuel seed ilist mlist res : called fuel seed ilist mlist res ->
  (forall i, index_in (shape seed) i -> (0 <= entry 0%Qc seed i)%Qc) ->
  shape (ir_array res) = shape seed /\ (forall c, In c (gcons_of 0%Qc ilist mlist) -> well_indexed (shape seed) c) /\
  (forall i, index_in (shape seed) i -> (0 <= entry 0%Qc (ir_array res) i)%Qc) /\
  exists ms, ms <> [] /\ belongs (gcons_of 0%Qc ilist mlist) ms /\
    forall i, index_in (shape seed) i -> entryQ (ir_array res) i = (entryQ seed i * prodx ms i)%R.
Proof.
  intros (Hr & Hpr & Hws & Hsz & Hfu & E) Hseed.
  destruct (exact_product_claim fuel seed ilist mlist Hr Hpr Hws Hsz Hfu res E) as (Hsh & xs & Hl & Hx).
  destruct (limit_ok fuel seed ilist mlist Hr Hpr Hws Hsz Hfu res 1 E ltac:(lia)) as (Hne & Hwi & _).
  split; [exact Hsh|]. split; [exact Hwi|]. split; [exact (exact_nonneg fuel seed ilist mlist Hr Hpr Hws Hsz Hfu res E Hseed)|].
  set (cs := gcons_of 0%Qc ilist mlist) in *.
  exists (map (fun p => (all_indices (g_sizes (fst p)), proj (g_dims (fst p)), fun k => q2r (snd p k))) (combine cs xs)). split; [|split].
  - destruct cs as [|c l]; [congruence|]. destruct xs as [|x xs']; [discriminate|]. discriminate.
  - intros K h x Hin. apply in_map_iff in Hin as ([c y] & Q & Hin). cbn [fst snd] in Q. injection Q as <- <- _.
    apply in_combine_l in Hin. eauto.
  - intros i Hi. rewrite <- factors_real by exact Hl. change (entryQ (ir_array res) i) with (q2r (entry 0%Qc (ir_array res) i)).
    rewrite Hx by auto. apply q2r_mult.
Qed.

(** two tables made of the seed and of factors of the marginals in [cs], with the same such marginals, are equal *)
Lemma same_table sizes (cs : list (gcon Qc)) (s f g : list Z -> Qc) ms ms' :
  (forall i, index_in sizes i -> (0 <= s i)%Qc) -> (forall i, index_in sizes i -> (0 <= f i)%Qc) -> (forall i, index_in sizes i -> (0 <= g i)%Qc) ->
  (forall c, In c cs -> well_indexed sizes c) -> ms <> [] -> ms' <> [] -> belongs cs ms -> belongs cs ms' ->
  (forall i, index_in sizes i -> q2r (f i) = (q2r (s i) * prodx ms i)%R) -> (forall i, index_in sizes i -> q2r (g i) = (q2r (s i) * prodx ms' i)%R) ->
  (forall c k, In c cs -> index_in (g_sizes c) k -> marginQ sizes (g_dims c) k f = marginQ sizes (g_dims c) k g) ->
  forall i, index_in sizes i -> f i = g i.
Proof.
  intros Ps Pf Pg Hwi N N' B B' Ef Eg Hm.
  assert (forall h : list Z -> Qc, (forall i, index_in sizes i -> (0 <= h i)%Qc) -> forall i, In i (all_indices sizes) -> (0 <= q2r (h i))%R) as P.
  { intros h Hh i Hi. rewrite <- q2r_0. apply q2r_le. apply Hh. now apply in_all_indices. }
  assert (forall (h : list Z -> Qc) l, (forall i, index_in sizes i -> q2r (h i) = (q2r (s i) * prodx l i)%R) ->
    forall i, In i (all_indices sizes) -> q2r (h i) <> 0%R -> q2r (s i) <> 0%R) as Q.
  { intros h l Hh i Hi Nz Z0. apply Nz. rewrite Hh by (now apply in_all_indices). rewrite Z0. lra. }
  assert (forall (a b : list Z -> Qc) l, belongs cs l -> (forall c k, In c cs -> index_in (g_sizes c) k -> marginQ sizes (g_dims c) k b = marginQ sizes (g_dims c) k a) ->
    forall K h x, In (K, h, x) l -> NoDup K /\ (forall i, In i (all_indices sizes) -> In (h i) K) /\
    forall k, In k K -> cellR (all_indices sizes) h (fun i => q2r (b i)) k = cellR (all_indices sizes) h (fun i => q2r (a i)) k) as C.
  { intros a b l Bl Hab K h x Hin. destruct (Bl K h x Hin) as (c & Hc & -> & ->). split; [apply NoDup_all_indices|]. split.
    - apply (in_cells sizes c). auto.
    - intros k Hk. apply in_all_indices in Hk. rewrite !cellR_q. now rewrite (Hab c k Hc Hk). }
  destruct (least (all_indices sizes) (fun i => q2r (s i)) (fun i => q2r (f i)) (fun i => q2r (g i)) ms (P s Ps) (P f Pf) (P g Pg) (Q g ms' Eg)
    (fun i Hi => Ef i (proj1 (in_all_indices sizes i) Hi)) (C f g ms B (fun c k H H' => eq_sym (Hm c k H H'))) N) as [L1 U].
  destruct (least (all_indices sizes) (fun i => q2r (s i)) (fun i => q2r (g i)) (fun i => q2r (f i)) ms' (P s Ps) (P g Pg) (P f Pf) (Q f ms Ef)
    (fun i Hi => Eg i (proj1 (in_all_indices sizes i) Hi)) (C g f ms' B' Hm) N') as [L2 _].
  intros i Hi. apply q2r_inj. symmetry. apply U; [|now apply in_all_indices]. apply Rle_antisym; assumption.
Qed.

(** * Claims *)

Lemma restart_claim fuel fuel1 fuel2 seed ilist mlist ilist1 mlist1 ilist2 mlist2 res res1 res2 :
  called fuel seed ilist mlist res -> called fuel1 seed ilist1 mlist1 res1 -> called fuel2 (ir_array res1) ilist2 mlist2 res2 ->
  (forall i, index_in (shape seed) i -> (0 <= entry 0%Qc seed i)%Qc) ->
  (forall c k, In c (gcons_of 0%Qc ilist mlist ++ gcons_of 0%Qc ilist1 mlist1 ++ gcons_of 0%Qc ilist2 mlist2) -> index_in (g_sizes c) k ->
     marginQ (shape seed) (g_dims c) k (entry 0%Qc (ir_array res2)) = marginQ (shape seed) (g_dims c) k (entry 0%Qc (ir_array res))) ->
  forall i, index_in (shape seed) i -> entry 0%Qc (ir_array res2) i = entry 0%Qc (ir_array res) i.
Proof.
  intros C C1 C2 Hseed Hm.
  destruct (call_factors _ _ _ _ _ C Hseed) as (_ & W & P & ms & N & B & E).
  destruct (call_factors _ _ _ _ _ C1 Hseed) as (S1 & W1 & P1 & ms1 & N1 & B1 & E1).
  rewrite <- S1 in P1. destruct (call_factors _ _ _ _ _ C2 P1) as (S2 & W2 & P2 & ms2 & N2 & B2 & E2). rewrite S1 in *.
  apply (same_table (shape seed) (gcons_of 0%Qc ilist mlist ++ gcons_of 0%Qc ilist1 mlist1 ++ gcons_of 0%Qc ilist2 mlist2) (entry 0%Qc seed) _ _ (ms1 ++ ms2) ms); auto.
  - intros c Hc. rewrite !in_app_iff in Hc. intuition.
  - destruct ms1; [congruence|discriminate].
  - intros K h x Hin. apply in_app_iff in Hin as [Hin|Hin]; [destruct (B1 _ _ _ Hin) as (c & Hc & Q)|destruct (B2 _ _ _ Hin) as (c & Hc & Q)];
      exists c; (split; [rewrite !in_app_iff; auto|exact Q]).
  - intros K h x Hin. destruct (B _ _ _ Hin) as (c & Hc & Q). exists c. split; [rewrite !in_app_iff; auto|exact Q].
  - intros i Hi. rewrite prodx_app, <- Rmult_assoc. change (q2r (entry 0%Qc (ir_array res2) i)) with (entryQ (ir_array res2) i).
    rewrite E2 by exact Hi. rewrite E1 by exact Hi. reflexivity.
Qed.

Lemma determined_claim fuel fuel' seed ilist mlist ilist' mlist' res res' :
  called fuel seed ilist mlist res -> called fuel' seed ilist' mlist' res' ->
  (forall i, index_in (shape seed) i -> (0 <= entry 0%Qc seed i)%Qc) ->
  (forall c k, In c (gcons_of 0%Qc ilist mlist ++ gcons_of 0%Qc ilist' mlist') -> index_in (g_sizes c) k ->
     marginQ (shape seed) (g_dims c) k (entry 0%Qc (ir_array res')) = marginQ (shape seed) (g_dims c) k (entry 0%Qc (ir_array res))) ->
  forall i, index_in (shape seed) i -> entry 0%Qc (ir_array res') i = entry 0%Qc (ir_array res) i.
Proof.
  intros C C1 Hseed Hm.
  destruct (call_factors _ _ _ _ _ C Hseed) as (_ & W & P & ms & N & B & E).
  destruct (call_factors _ _ _ _ _ C1 Hseed) as (S1 & W1 & P1 & ms1 & N1 & B1 & E1).
  apply (same_table (shape seed) (gcons_of 0%Qc ilist mlist ++ gcons_of 0%Qc ilist' mlist') (entry 0%Qc seed) _ _ ms1 ms); auto.
  - intros c Hc. rewrite !in_app_iff in Hc. intuition.
  - intros K h x Hin. destruct (B1 _ _ _ Hin) as (c & Hc & Q). exists c. split; [rewrite !in_app_iff; auto|exact Q].
  - intros K h x Hin. destruct (B _ _ _ Hin) as (c & Hc & Q). exists c. split; [rewrite !in_app_iff; auto|exact Q].
Qed.

Lemma order_claim fuel fuel' seed ilist mlist ilist' mlist' res res' :
  called fuel seed ilist mlist res -> called fuel' seed ilist' mlist' res' ->
  (forall i, index_in (shape seed) i -> (0 <= entry 0%Qc seed i)%Qc) ->
  Permutation (gcons_of 0%Qc ilist mlist) (gcons_of 0%Qc ilist' mlist') ->
  (forall c k, In c (gcons_of 0%Qc ilist mlist) -> index_in (g_sizes c) k ->
     marginQ (shape seed) (g_dims c) k (entry 0%Qc (ir_array res)) = g_at c k /\ marginQ (shape seed) (g_dims c) k (entry 0%Qc (ir_array res')) = g_at c k) ->
  forall i, index_in (shape seed) i -> entry 0%Qc (ir_array res') i = entry 0%Qc (ir_array res) i.
Proof.
  intros C C1 Hseed Hp Hm. apply (determined_claim fuel fuel' seed ilist mlist ilist' mlist' res res' C C1 Hseed).
  intros c k Hc Hk. assert (In c (gcons_of 0%Qc ilist mlist)) as Hc'.
  { apply in_app_iff in Hc as [Hc|Hc]; [exact Hc|]. apply (Permutation_in (l := gcons_of 0%Qc ilist' mlist')); [now symmetry|exact Hc]. }
  destruct (Hm c k Hc' Hk) as [-> ->]. reflexivity.
Qed.

(** * The order of the marginals changes a converged result *)
Definition exW_s : ndarray Qc := NDA [2; 2] [Q2Qc 1; Q2Qc 2; Q2Qc 3; Q2Qc 4].
Definition exW_i' : list (ndarray Z) := [NDA [1] [1]; NDA [1] [0]].
Definition exW_a : ndarray Qc := NDA [2] [Q2Qc 1; Q2Qc 3].
Definition exW_b : ndarray Qc := NDA [2] [Q2Qc 2; Q2Qc 2].

Lemma differ_by (o o' : outcome (ipf_result Qc)) (i : list Z) :
  match o, o' with Ok r, Ok r' => ir_conv r && ir_conv r' && (ir_iters r =? 5) && (ir_iters r' =? 4) &&
    negb (Qc_eq_bool (entry 0%Qc (ir_array r) i) (entry 0%Qc (ir_array r') i)) | _, _ => false end = true ->
  exists r r', o = Ok r /\ o' = Ok r' /\ ir_conv r = true /\ ir_conv r' = true /\ ir_iters r = 5 /\ ir_iters r' = 4 /\
    entry 0%Qc (ir_array r') i <> entry 0%Qc (ir_array r) i.
Proof.
  destruct o as [r| | |]; try discriminate. destruct o' as [r'| | |]; try discriminate. intros H.
  rewrite !Bool.andb_true_iff, Bool.negb_true_iff, !Z.eqb_eq in H. destruct H as [[[[H1 H2] H3] H4] H5].
  exists r, r'. repeat split; auto. intros Q. rewrite Q in H5. rewrite (proj2 (qc_eqb _ _) eq_refl) in H5. discriminate.
Qed.

Lemma order_refuted_claim : exists fuel seed ilist mlist ilist' mlist' r r',
  called fuel seed ilist mlist r /\ called fuel seed ilist' mlist' r' /\ (forall i, index_in (shape seed) i -> (0 < entry 0%Qc seed i)%Qc) /\
  Permutation (gcons_of 0%Qc ilist mlist) (gcons_of 0%Qc ilist' mlist') /\ ir_conv r = true /\ ir_conv r' = true /\
  ir_iters r = 5 /\ ir_iters r' = 4 /\ entry 0%Qc (ir_array r') [0; 0] <> entry 0%Qc (ir_array r) [0; 0].
Proof.
  exists 5%nat, exW_s, exI_i, [exW_a; exW_b], exW_i', [exW_b; exW_a].
  destruct (differ_by (py_ipf_exact 5 exW_s exI_i [exW_a; exW_b]) (py_ipf_exact 5 exW_s exW_i' [exW_b; exW_a]) [0; 0]) as (r & r' & E & E' & C & C' & I & I' & D);
    [vm_compute; reflexivity|].
  exists r, r'. split; [|split; [|split; [|split]]].
  - split; [apply (g_range_by _ _ _ [2; 2]); vm_compute; reflexivity|]. split; [apply (all_proper_by _ _ _ [2; 2]); vm_compute; reflexivity|].
    split; [apply shape_by; vm_compute; reflexivity|]. split; [reflexivity|]. split; [reflexivity|exact E].
  - split; [apply (g_range_by _ _ _ [2; 2]); vm_compute; reflexivity|]. split; [apply (all_proper_by _ _ _ [2; 2]); vm_compute; reflexivity|].
    split; [apply shape_by; vm_compute; reflexivity|]. split; [reflexivity|]. split; [reflexivity|exact E'].
  - apply pos_by. vm_compute. reflexivity.
  - apply perm_swap.
  - auto.
Qed.

Definition exW_m : list (ndarray Qc) := [exW_a; exW_b].
Definition exW_m' : list (ndarray Qc) := [exW_b; exW_a].

(** a boolean test of the marginals of a table *)
Definition fits_q (cs : list (gcon Qc)) (a : ndarray Qc) : bool :=
  forallb (fun c => forallb (fun k => Qc_eq_bool (marginQ (shape a) (g_dims c) k (entry 0%Qc a)) (g_at c k)) (all_indices (g_sizes c))) cs.
Lemma fits_q_by cs a : fits_q cs a = true -> forall c k, In c cs -> index_in (g_sizes c) k -> marginQ (shape a) (g_dims c) k (entry 0%Qc a) = g_at c k.
Proof.
  unfold fits_q. intros H c k Hc Hk. rewrite forallb_forall in H. specialize (H c Hc). rewrite forallb_forall in H. apply qc_eqb. apply H. now apply in_all_indices.
Qed.

Lemma result_by (o : outcome (ipf_result Qc)) (t : ipf_result Qc -> bool) : match o with Ok r => t r | _ => false end = true -> exists r, o = Ok r /\ t r = true.
Proof. destruct o as [r| | |]; try discriminate. eauto. Qed.

Definition exW_t (r : ipf_result Qc) : bool := fits_q (gcons_of 0%Qc exI_i exW_m) (ir_array r) && idx_eqb (shape (ir_array r)) [2; 2].
Lemma exW_call s i m : (wf_array s /\ shape s = [2; 2]) -> (g_range 0%Qc i m /\ all_proper 0%Qc i m) ->
  match py_ipf_exact 5 s i m with Ok r => exW_t r | _ => false end = true ->
  exists r, called 5 s i m r /\ forall c k, In c (gcons_of 0%Qc exI_i exW_m) -> index_in (g_sizes c) k -> marginQ [2; 2] (g_dims c) k (entry 0%Qc (ir_array r)) = g_at c k.
Proof.
  intros [Ws Ss] [Hr Hp] H. destruct (result_by _ _ H) as (r & E & T). exists r. unfold exW_t in T. apply Bool.andb_true_iff in T as [T1 T2].
  assert (shape (ir_array r) = [2; 2]) as Sr by (now apply idx_eqb_true). split.
  - split; [exact Hr|]. split; [exact Hp|]. split; [exact Ws|]. rewrite Ss. split; [reflexivity|]. split; [reflexivity|exact E].
  - intros c k. rewrite <- Sr. now apply fits_q_by.
Qed.

(** the table of the first of two calls *)
Definition table_of (o : outcome (ipf_result Qc)) : ndarray Qc := match o with Ok r => ir_array r | _ => NDA [] [] end.
Definition exW_1 : ndarray Qc := table_of (py_ipf_exact 5 exE_s exI_i exQ_m).

Lemma exW_ok : exists r r' r1 r2, called 5 exE_s exI_i exW_m r /\ called 5 exE_s exW_i' exW_m' r' /\
  called 5 exE_s exI_i exQ_m r1 /\ called 5 (ir_array r1) exI_i exW_m r2 /\
  (forall i, index_in [2; 2] i -> (0 < entry 0%Qc exE_s i)%Qc) /\ Permutation (gcons_of 0%Qc exI_i exW_m) (gcons_of 0%Qc exW_i' exW_m') /\
  (forall c k, In c (gcons_of 0%Qc exI_i exW_m) -> index_in (g_sizes c) k ->
    marginQ [2; 2] (g_dims c) k (entry 0%Qc (ir_array r)) = g_at c k /\ marginQ [2; 2] (g_dims c) k (entry 0%Qc (ir_array r')) = g_at c k /\
    marginQ [2; 2] (g_dims c) k (entry 0%Qc (ir_array r2)) = g_at c k).
Proof.
  assert (wf_array exE_s /\ shape exE_s = [2; 2]) as Ws by (split; [apply shape_by; vm_compute; reflexivity|reflexivity]).
  assert (g_range 0%Qc exI_i exW_m /\ all_proper 0%Qc exI_i exW_m) as H.
  { split; [apply (g_range_by _ _ _ [2; 2]); vm_compute; reflexivity|apply (all_proper_by _ _ _ [2; 2]); vm_compute; reflexivity]. }
  assert (g_range 0%Qc exW_i' exW_m' /\ all_proper 0%Qc exW_i' exW_m') as H'.
  { split; [apply (g_range_by _ _ _ [2; 2]); vm_compute; reflexivity|apply (all_proper_by _ _ _ [2; 2]); vm_compute; reflexivity]. }
  assert (g_range 0%Qc exI_i exQ_m /\ all_proper 0%Qc exI_i exQ_m) as H1.
  { split; [apply (g_range_by _ _ _ [2; 2]); vm_compute; reflexivity|apply (all_proper_by _ _ _ [2; 2]); vm_compute; reflexivity]. }
  destruct (exW_call exE_s exI_i exW_m Ws H) as (r & C & F); [vm_compute; reflexivity|].
  destruct (exW_call exE_s exW_i' exW_m' Ws H') as (r' & C' & F'); [vm_compute; reflexivity|].
  destruct (result_by (py_ipf_exact 5 exE_s exI_i exQ_m) (fun _ => true)) as (r1 & E1 & _); [vm_compute; reflexivity|].
  assert (ir_array r1 = exW_1) as A1 by (unfold exW_1; rewrite E1; reflexivity).
  destruct (exW_call exW_1 exI_i exW_m) as (r2 & C2 & F2); [split; [apply shape_by; vm_compute; reflexivity|vm_compute; reflexivity]|exact H|vm_compute; reflexivity|].
  exists r, r', r1, r2. split; [exact C|]. split; [exact C'|]. split.
  { split; [apply H1|]. split; [apply H1|]. split; [apply Ws|]. split; [reflexivity|]. split; [reflexivity|exact E1]. }
  rewrite A1. split; [exact C2|]. split; [apply (pos_by exE_s); vm_compute; reflexivity|]. split; [apply perm_swap|].
  intros c k Hc Hk. split; [now apply F|]. split; [now apply F'|now apply F2].
Qed.
