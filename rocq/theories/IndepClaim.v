(** The call of ipf with a unit seed and disjoint integer marginals. *)
From Coq Require Import Reals Psatz.
From Flocq Require Import Core.Core IEEE754.BinarySingleNaN.
From Verif Require Import Base Spec SpecFacts NDArray IndexProofs Float64 FloatProofs ArrayOps ArrayProofs Bind BindProofs Ipf
  SynthSpec MicroProofs SplitProofs QisExamples QisExpect RealSpec ExpectRound IpfSpec IpfClaims IpfDbl IpfExamples IpfFitSpec IpfFit IpfRoundSpec IpfRound RealMargSpec RealMarg
  IndepSpec IndepProofs.
(* not used here: the two files take about 4 GB each to check, and this keeps make from checking them at the same time *)
From Verif Require PropIpf.
Open Scope Z_scope.

Lemma holds_of ilist : forall mlist, Forall2 holds (dcons_of ilist (map reals mlist)) (cons_of ilist mlist).
Proof.
  induction ilist as [|i il IH]; intros [|m ml]; try constructor; [|apply IH].
  split; [reflexivity|]. split; [reflexivity|]. intros k _. apply (entry_dbl_of m k).
Qed.
Lemma outline_of ilist mlist sizes : implied (map outline (dcons_of ilist (map reals mlist))) sizes <-> implied (cons_of ilist mlist) sizes.
Proof. destruct (dcons_int ilist mlist) as (_ & _ & E). change (map reals mlist) with (map dbl_of mlist). rewrite E. apply implied_outline. Qed.

Lemma holds_in gs l g : Forall2 holds gs l -> In g gs -> exists c, In c l /\ holds g c.
Proof.
  induction 1 as [|x y gs l E Hl IH]; intros Hc; [easy|].
  destruct Hc as [<-|Hc]; [exists y; split; auto; now left|]. destruct (IH Hc) as (c' & ? & ?). exists c'. split; auto. now right.
Qed.
Lemma holds_len gs l : Forall2 holds gs l -> length gs = length l.
Proof. induction 1; cbn; auto. Qed.
Lemma holds_dims gs l : Forall2 holds gs l -> flat_map g_dims gs = flat_map c_dims l.
Proof. induction 1 as [|x y gs l [E _] Hl IH]; [reflexivity|]. cbn [flat_map]. now rewrite E, IH. Qed.

Section Call.
Context (fuel : nat) (ilist mlist : list (ndarray Z)) (sizes : list Z) (pop : Z).
Let cs := cons_of ilist mlist.
Context (Hv : vectors ilist mlist) (Hr : in_range ilist mlist) (Himp : implied cs sizes) (Hdis : disjoint cs).
Context (H2 : (2 <= length cs)%nat) (Hnn : forall c, In c cs -> nonneg c) (Htot : forall c, In c cs -> c_total c = pop) (Hpop : 0 < pop).
Let K := Z.of_nat (length cs).
Context (Hbound : pop * (K * (2 * prodZ sizes + K + 1)) <= 2 * 10 ^ 7) (Hfu : prodZ sizes < Z.of_nat fuel).

Lemma con_wf c : In c cs -> c_sizes c <> [] /\ positive (c_sizes c).
Proof.
  intros Hc. unfold cs, cons_of in Hc. apply in_map_iff in Hc as ((i & m) & <- & Hc). apply in_combine_r in Hc.
  destruct Hr as [H _]. rewrite Forall_forall in H. destruct (H m Hc) as ((W1 & W2 & _) & _). split; assumption.
Qed.
Lemma dims_pos c : In c cs -> (1 <= length (c_dims c))%nat.
Proof.
  intros Hc. destruct Himp as [_ H]. destruct (H c Hc) as [E _]. rewrite E. destruct (con_wf c Hc) as [W _]. destruct (c_sizes c); [easy|cbn; lia].
Qed.
Lemma nd : NoDup (flat_map c_dims cs). Proof. now apply disjoint_NoDup. Qed.
Lemma sizes_pos : positive sizes.
Proof.
  apply Forall_forall. intros n Hn. apply In_nth with (d := 0) in Hn as (p & Hp & <-). destruct Himp as [H1 H3].
  destruct (proj2 (H1 (Z.of_nat p))) as (c & Hc & Hd); [lia|]. apply In_nth with (d := 0) in Hd as (q & Hq & Ed).
  destruct (H3 c Hc) as [E1 E2]. assert (nth q (c_sizes c) 0 = nth p sizes 0) as E.
  { rewrite <- E2, nth_proj by exact Hq. rewrite Ed, Nat2Z.id. reflexivity. }
  rewrite <- E. destruct (con_wf c Hc) as [_ W]. unfold positive in W. rewrite Forall_forall in W. apply W. apply nth_In. lia.
Qed.
Lemma len_sum l : Z.of_nat (length (flat_map c_dims l)) = sumZ (map (fun c => Z.of_nat (length (c_dims c))) l).
Proof. induction l as [|c l IH]; [reflexivity|]. cbn [flat_map map sumZ fold_right]. rewrite app_length, Nat2Z.inj_add, IH. reflexivity. Qed.
Lemma len_sizes : (length (flat_map c_dims cs) <= length sizes)%nat.
Proof.
  assert (length (flat_map c_dims cs) <= length (map Z.of_nat (seq 0 (length sizes))))%nat as H; [|now rewrite map_length, seq_length in H].
  apply NoDup_incl_length; [apply nd|]. intros d Hd. apply in_flat_map in Hd. apply Himp in Hd.
  replace d with (Z.of_nat (Z.to_nat d)) by lia. apply in_map, in_seq. lia.
Qed.
Lemma dims_lt c : In c cs -> (length (c_dims c) < length sizes)%nat.
Proof.
  intros Hc. destruct (in_split _ _ Hc) as (pre & post & E). pose proof len_sizes as L. pose proof H2 as H2'. rewrite E in L, H2'. rewrite flat_map_app in L. cbn [flat_map] in L.
  rewrite !app_length in L. rewrite app_length in H2'. cbn [length] in H2'.
  destruct pre as [|c' pre].
  - destruct post as [|c' post]; [cbn in H2'; lia|]. assert (In c' cs) as Hc' by (rewrite E; cbn; auto).
    pose proof (dims_pos c' Hc'). cbn [flat_map] in L. rewrite app_length in L. lia.
  - assert (In c' cs) as Hc' by (rewrite E; cbn; auto). pose proof (dims_pos c' Hc'). cbn [flat_map] in L. rewrite app_length in L. lia.
Qed.
Lemma proper_all : all_proper d_zero ilist (map reals mlist).
Proof.
  intros s c Hs Hc. apply outline_of in Hs. fold cs in Hs. rewrite (implied_unique _ _ _ Hs Himp).
  destruct (holds_in _ _ c (holds_of ilist mlist) Hc) as (c' & Hc' & E & _).
  rewrite E. split; [now apply Hdis|now apply dims_lt].
Qed.
Lemma in_holds g : In g (dcons_of ilist (map reals mlist)) -> exists c, In c cs /\ holds g c.
Proof.
  apply holds_in, holds_of.
Qed.
Lemma N_prod : Z.of_nat (length (all_indices sizes)) = prodZ sizes.
Proof. apply length_all_indices. eapply Forall_impl; [|apply sizes_pos]. cbn. intros; lia. Qed.
Lemma bound_nat : pop * Z.of_nat (length cs * (2 * length (all_indices sizes) + length cs + 1)) <= 2 * 10 ^ 7.
Proof.
  replace (Z.of_nat (length cs * (2 * length (all_indices sizes) + length cs + 1))) with (K * (2 * prodZ sizes + K + 1)); [exact Hbound|].
  rewrite <- N_prod. unfold K. lia.
Qed.
Lemma len1 : (1 <= length cs)%nat. Proof. lia. Qed.
Lemma sizes_2 : (2 <= length sizes)%nat.
Proof.
  assert (exists c, In c cs) as (c & Hc) by (pose proof len1 as H; destruct cs as [|c l]; [cbn in H; lia|exists c; now left]).
  pose proof (dims_pos c Hc). pose proof (dims_lt c Hc). lia.
Qed.
Lemma seed_wf : wf_array (ones sizes).
Proof.
  split; [|split; [apply sizes_pos|]].
  - cbn. intros E. pose proof sizes_2 as H. rewrite E in H. cbn in H. lia.
  - cbn. rewrite map_length. apply N_prod.
Qed.
Lemma small_N : 0 < prodZ sizes <= 10 ^ 7 /\ pop * prodZ sizes <= 5 * 10 ^ 6.
Proof.
  pose proof (prodZ_pos _ sizes_pos). assert (2 <= K) by (unfold K; lia).
  assert (4 * prodZ sizes <= K * (2 * prodZ sizes + K + 1)) by nia. split; nia.
Qed.
Lemma exact_at g k : In g (dcons_of ilist (map reals mlist)) -> index_in (g_sizes g) k -> exists c, In c cs /\ g_dims g = c_dims c /\ g_sizes g = c_sizes c /\
  0 <= c_at c k <= pop /\ fin (g_at g k) (IZR (c_at c k)).
Proof.
  intros Hg Hk. destruct (in_holds g Hg) as (c & Hc & E1 & E2 & E3). exists c. split; auto. split; auto. split; auto. rewrite E2 in Hk.
  pose proof (c_bound cs pop Hnn Htot c k Hc Hk) as B. split; auto. rewrite (E3 k Hk). apply d_ofZ_exact. rewrite Z.abs_eq by lia.
  pose proof small_N. nia.
Qed.
Lemma gc_sum g c : In c cs -> holds g c -> sum_exact g = IZR pop.
Proof.
  intros Hc (E1 & E2 & E3). unfold sum_exact. rewrite E2, <- (Htot c Hc), <- sum_c. unfold sumR. f_equal. apply map_ext_in. intros k Hk.
  apply in_all_indices in Hk. rewrite (E3 k Hk). pose proof (c_bound cs pop Hnn Htot c k Hc Hk) as B. pose proof small_N.
  apply d_ofZ_exact. rewrite Z.abs_eq by lia. nia.
Qed.
Lemma nodup_flat_uniq (l : list (gcon double)) g j g' j' d : NoDup (flat_map g_dims l) -> In g l -> In g' l ->
  nth_error (g_dims g) j = Some d -> nth_error (g_dims g') j' = Some d -> g = g' /\ j = j'.
Proof.
  induction l as [|x l IH]; intros Hn Hg Hg' Ej Ej'; [easy|]. cbn [flat_map] in Hn.
  assert (forall a, In a (g_dims x) -> ~ In a (flat_map g_dims l)) as Hx.
  { intros a Ha Hb. clear - Hn Ha Hb. induction (g_dims x) as [|y t IH]; [easy|]. cbn [app] in Hn. inversion Hn as [|? ? N1 N2]; subst.
    destruct Ha as [->|Ha]; [apply N1, in_app_iff; auto|auto]. }
  assert (NoDup (flat_map g_dims l)) as Hl by (clear - Hn; induction (g_dims x); [exact Hn|inversion Hn; auto]).
  assert (NoDup (g_dims x)) as Hxn.
  { clear - Hn. induction (g_dims x) as [|y t IH]; constructor; inversion Hn as [|? ? N1 N2]; subst; auto. intros Hy. apply N1, in_app_iff. auto. }
  destruct Hg as [->|Hg], Hg' as [->|Hg']; auto.
  - split; auto. rewrite <- Ej' in Ej. apply (proj1 (NoDup_nth_error _) Hxn); [|exact Ej]. apply nth_error_Some. rewrite Ej, Ej'. discriminate.
  - exfalso. apply (Hx d); [now apply nth_error_In in Ej|]. apply in_flat_map. exists g'. split; auto. now apply nth_error_In in Ej'.
  - exfalso. apply (Hx d); [now apply nth_error_In in Ej'|]. apply in_flat_map. exists g. split; auto. now apply nth_error_In in Ej.
Qed.
Lemma g_nd : NoDup (flat_map g_dims (dcons_of ilist (map reals mlist))).
Proof.
  rewrite (holds_dims _ _ (holds_of ilist mlist)). apply nd.
Qed.
Lemma agree_all : agree (dcons_of ilist (map reals mlist)) (IZR pop).
Proof.
  assert (length (dcons_of ilist (map reals mlist)) = length cs) as El by (apply (holds_len _ _ (holds_of ilist mlist))).
  split; [now rewrite El|]. split.
  { exists sizes. split; [now apply outline_of|apply sizes_2]. }
  split.
  { intros g k Hg Hk. destruct (exact_at g k Hg Hk) as (c & _ & _ & _ & B & F & ->). split; auto. apply IZR_le. lia. }
  split.
  { intros g Hg. destruct (in_holds g Hg) as (c & Hc & Hh). now apply (gc_sum g c). }
  intros d c j c' j' v Hc Hc' Ej Ej'. destruct (nodup_flat_uniq _ _ _ _ _ _ g_nd Hc Hc' Ej Ej') as [-> ->]. reflexivity.
Qed.

Lemma indep_claim : exists res, py_ipf fuel (ones sizes) ilist (map reals mlist) = Ok res /\
  ir_conv res = true /\ ir_iters res = 1 /\ ir_pop res = pop /\ shape (ir_array res) = sizes /\
  forall i, index_in sizes i -> is_finite (entry d_zero (ir_array res) i) = true /\
    within (Z.to_nat (K * (2 * prodZ sizes + K + 1))) (entryR (ir_array res) i) (indep cs pop i).
Proof.
  pose proof small_N as [SN SN2]. assert (prodZ sizes < 2 ^ 60) as H60 by lia.
  assert (d_range ilist (map reals mlist)) as Hrange by now apply int_range.
  assert (g_vectors ilist (map reals mlist)) as Hgv by (destruct Hv as [V1 V2]; split; auto; now rewrite map_length).
  destruct (enough_claim fuel (ones sizes) ilist (map reals mlist) Hrange proper_all seed_wf H60 Hfu (IZR pop) (prodZ sizes) pop) as (res & Hres & Epop); auto.
  - now apply outline_of.
  - apply agree_all.
  - intros m Hm. apply in_map_iff in Hm as (m0 & <- & Hm). cbn [reals shape].
    assert (exists c, In c cs /\ c_sizes c = shape m0) as (c & Hc & <-).
    { destruct Hv as [V1 _]. unfold cs, cons_of. apply In_nth with (d := m0) in Hm as (p & Hp & Ep).
      exists (con_of (nth p ilist m0) m0). split; [|reflexivity]. apply in_map_iff. exists (nth p ilist m0, m0). split; [reflexivity|].
      rewrite <- Ep at 2. rewrite <- combine_nth by exact V1. apply nth_In. rewrite combine_length. lia. }
    assert (cells c <= INR (length (all_indices sizes)))%R as CN.
    { rewrite <- (tots_one_all cs sizes Himp nd). destruct (in_split _ _ Hc) as (pre & post & E).
      pose proof (tots_one_ge cs sizes pop Himp sizes_pos Hpop len1 bound_nat) as G.
      assert (1 <= totsR (map one pre))%R as G1 by (apply G; intros; rewrite E, in_app_iff; auto).
      assert (1 <= totsR (map one post))%R as G2 by (apply G; intros; rewrite E, in_app_iff; cbn; auto).
      rewrite E, map_app, totsR_app. change (totsR (map one (c :: post))) with (totR (one c) * totsR (map one post))%R. rewrite tot_one.
      assert (0 <= cells c)%R by apply pos_INR.
      apply Rle_trans with (1 * (cells c * 1))%R; [lra|]. apply Rmult_le_compat; try lra. apply Rmult_le_compat; lra. }
    unfold cells in CN. apply INR_le in CN. apply inj_le in CN. rewrite N_prod in CN. rewrite length_all_indices in CN; auto.
    destruct (con_wf c Hc) as [_ W]. eapply Forall_impl; [|exact W]. cbn. intros; lia.
  - lia.
  - rewrite <- mult_IZR. apply Rle_trans with (IZR (5 * 10 ^ 6)); [now apply IZR_le|]. rewrite pow_IZR. apply IZR_le. vm_compute. discriminate.
  - assert (/ 2 ^ 27 <= / 2)%R; [|lra]. apply Rinv_le_contravar; [lra|]. rewrite <- (pow_1 2) at 1. apply Rle_pow; [lra|lia].
  - exists res. split; auto. destruct (fit_claim fuel (ones sizes) ilist (map reals mlist) Hrange proper_all seed_wf H60 Hfu res Hres)
      as (n & Hn & Hit & Ha & Hbefore & Hconv & _). cbv zeta in Ha, Hbefore, Hconv. cbn [ones shape] in Ha, Hbefore, Hconv.
    set (gs := dcons_of ilist (map reals mlist)) in *. set (f := fitted sizes gs (entry d_zero (ones sizes))) in *.
    assert (Inv sizes pop cs [] (f 1%nat)) as HI.
    { unfold f. cbn [fitted]. apply (steps cs sizes pop Himp Hnn Htot nd sizes_pos Hpop len1 bound_nat) with (post := cs) (pre := []); auto.
      - apply holds_of.
      - apply (start cs sizes pop Himp nd sizes_pos Hpop len1 bound_nat). intros i Hi. unfold ones. now rewrite entry_NDA_map. }
    pose proof (result_fits cs sizes pop Himp Hnn Htot nd sizes_pos Hpop len1 bound_nat _ gs (holds_of ilist mlist) HI) as Hfit.
    assert (n = 1)%nat as ->.
    { destruct (Nat.eq_dec n 1); auto. exfalso. apply (Hbefore 1%nat); [lia|exact Hfit]. }
    split; [now apply Hconv|]. split; [exact Hit|]. split; [exact Epop|]. rewrite Ha. split; [reflexivity|]. intros i Hi. unfold entryR. rewrite entry_NDA_map by auto.
    destruct (result_rel cs sizes pop Himp nd sizes_pos Hpop len1 bound_nat _ i HI Hi) as (y & [Fy Ey] & Py & Ry). split; auto. rewrite Ey.
    apply rel_within. eapply rel_mono; [|exact Py| |exact Ry].
    + pose proof (Bk_J cs sizes len1 (length cs) ltac:(lia) len1). pose proof N_prod. unfold K.
      replace (Z.to_nat (Z.of_nat (length cs) * (2 * prodZ sizes + Z.of_nat (length cs) + 1))) with (length cs * (2 * length (all_indices sizes) + length cs + 1))%nat; lia.
    + now apply (indep_nonneg cs sizes pop Himp Hnn Htot nd sizes_pos Hpop len1 bound_nat).
Qed.
End Call.

Lemma one_round_claim fuel ilist mlist sizes pop : independent ilist mlist sizes pop ->
  let cs := cons_of ilist mlist in let K := Z.of_nat (length cs) in let errors := K * (2 * prodZ sizes + K + 1) in
  pop * errors <= 2 * 10 ^ 7 -> prodZ sizes < Z.of_nat fuel ->
  exists res, py_ipf fuel (ones sizes) ilist (map reals mlist) = Ok res /\
    ir_conv res = true /\ ir_iters res = 1 /\ ir_pop res = pop /\ shape (ir_array res) = sizes /\
    forall i, index_in sizes i -> is_finite (entry d_zero (ir_array res) i) = true /\
      within (Z.to_nat errors) (entryR (ir_array res) i) (indep cs pop i).
Proof. intros (H1 & H2 & H3 & H4 & H5 & H6 & H7 & H8) cs K errors Hb Hf. now apply indep_claim. Qed.

(** * Concrete cases *)

Definition indep_b (ilist mlist : list (ndarray Z)) (sizes : list Z) (pop : Z) : bool :=
  Nat.eqb (length ilist) (length mlist) && (forallb (fun i => Nat.eqb (length (shape i)) 1) ilist && (range_b mlist &&
  (implied_b (cons_of ilist mlist) sizes && ((prodZ sizes <? 2 ^ 60) && (shared_b 0 [] (cons_of ilist mlist) && (Nat.leb 2 (length (cons_of ilist mlist)) &&
  (forallb (fun c => forallb (fun k => 0 <=? c_at c k) (all_indices (c_sizes c))) (cons_of ilist mlist) &&
  (forallb (fun c => c_total c =? pop) (cons_of ilist mlist) && (0 <? pop))))))))).
Lemma indep_by ilist mlist sizes pop : indep_b ilist mlist sizes pop = true -> independent ilist mlist sizes pop.
Proof.
  unfold indep_b. rewrite !Bool.andb_true_iff. intros (H1 & H2 & H3 & H4 & H5 & H6 & H7 & H8 & H9 & H10).
  split; [|split; [|split; [|split; [|split; [|split; [|split]]]]]].
  - split; [now apply Nat.eqb_eq|]. apply Forall_forall. intros i Hi. rewrite forallb_forall in H2. now apply Nat.eqb_eq, H2.
  - apply (in_range_by _ _ sizes); auto. now apply Z.ltb_lt.
  - now apply implied_by.
  - now apply disjoint_by.
  - now apply Nat.leb_le.
  - intros c Hc k Hk. rewrite forallb_forall in H8. specialize (H8 c Hc). rewrite forallb_forall in H8. apply Z.leb_le, H8. now apply in_all_indices.
  - intros c Hc. rewrite forallb_forall in H9. now apply Z.eqb_eq, H9.
  - now apply Z.ltb_lt.
Qed.

(** 1000 people by three marginals over four dimensions, one cell of a marginal empty *)
Definition exK_i : list (ndarray Z) := [ind1 [1]; ind1 [0; 3]; ind1 [2]].
Definition exK_m : list (ndarray Z) := [NDA [3] [250; 0; 750]; NDA [2; 2] [100; 200; 300; 400]; NDA [2] [1; 999]].
Lemma exK_indep : independent exK_i exK_m [2; 3; 2; 2] 1000. Proof. apply indep_by. vm_compute. reflexivity. Qed.

(** 83 million people, two marginals of two categories *)
Definition exL_i : list (ndarray Z) := [ind1 [0]; ind1 [1]].
Definition exL_m : list (ndarray Z) := [NDA [2] [9940000; 73060000]; NDA [2] [13070000; 69930000]].
Lemma exL_indep : independent exL_i exL_m [2; 2] 83000000. Proof. apply indep_by. vm_compute. reflexivity. Qed.
Lemma large_claim : exists fuel ilist mlist sizes pop res, independent ilist mlist sizes pop /\ pop = 83000000 /\ prodZ sizes < Z.of_nat fuel /\
  py_ipf fuel (ones sizes) ilist (map reals mlist) = Ok res /\ ir_conv res = false /\ ir_iters res = 1000.
Proof.
  exists 5%nat, exL_i, exL_m, [2; 2], 83000000.
  assert ((match py_ipf 5 (ones [2; 2]) exL_i (map reals exL_m) with Ok r => negb (ir_conv r) && (ir_iters r =? 1000) | _ => false end) = true) as H
    by (vm_compute; reflexivity).
  destruct (py_ipf 5 (ones [2; 2]) exL_i (map reals exL_m)) as [r| | |]; try discriminate H. exists r. apply Bool.andb_true_iff in H as [H0 H1].
  split; [apply exL_indep|]. split; [reflexivity|]. split; [reflexivity|]. split; [reflexivity|]. split; [now destruct (ir_conv r)|lia].
Qed.
