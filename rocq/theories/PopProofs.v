(** The population reported by ipf for marginals of integers (C89). *)
From Coq Require Import Reals Lra Lia.
From Flocq Require Import Core.Core IEEE754.BinarySingleNaN.
From Verif Require Import Base Spec SpecFacts NDArray IndexProofs Float64 FloatProofs FloatExt ArrayOps ArrayProofs Bind BindProofs Micro Qis
  SynthSpec MicroProofs QisProofs QisClaims Ipf IpfSpec IpfProofs MicroDbl IpfClaims IpfDbl IpfFitSpec IpfFit RealMarg IntegeriseProofs QisExamples IpfExamples.
Open Scope Z_scope.

Lemma sum_exactly l : forall acc a, fin acc (IZR a) -> Z.abs a + sumZ (map Z.abs l) <= 2 ^ 53 ->
  fin (fold_left d_add (map d_ofZ l) acc) (IZR (a + sumZ l)).
Proof.
  induction l as [|x l IH]; intros acc a Ha Hb; cbn [map fold_left sumZ fold_right] in *.
  - now rewrite Z.add_0_r.
  - assert (0 <= sumZ (map Z.abs l)) by (apply sumZ_nonneg; intros y Hy; apply in_map_iff in Hy as (z & <- & _); lia).
    unfold sumZ in Hb. cbn [map fold_right] in Hb. fold (sumZ (map Z.abs l)) in Hb.
    change (fold_right Z.add 0 l) with (sumZ l). rewrite Z.add_assoc.
    apply IH; [|lia]. rewrite plus_IZR. apply d_add_exact; auto.
    + apply d_ofZ_exact. lia.
    + rewrite <- plus_IZR. replace (IZR (a + x)) with (IZR (a + x) * bpow radix2 0)%R by (simpl; lra). apply repr_dyadic; lia.
    + rewrite <- plus_IZR, <- abs_IZR. rewrite <- IZR_p2 by lia. apply IZR_lt. apply Z.le_lt_trans with (2 ^ 53); [lia|]. apply Z.pow_lt_mono_r; lia.
Qed.

(** ties go to the even neighbour *)
Lemma tie t : 2 ^ 52 <= t < 2 ^ 53 -> RN (IZR t + / 2) = IZR (if Z.odd t then t + 1 else t).
Proof.
  intros Ht. unfold RN, round, scaled_mantissa.
  assert (cexp radix2 fx (IZR t + / 2) = 0) as ->.
  { unfold cexp. rewrite (mag_unique_pos radix2 (IZR t + / 2) 53).
    - rewrite fx_FLT. unfold FLT_exp. lia.
    - rewrite <- !IZR_p2 by lia. split.
      + pose proof (IZR_le (2 ^ (53 - 1)) t ltac:(simpl; lia)). lra.
      + pose proof (IZR_le (t + 1) (2 ^ 53) ltac:(lia)) as H. rewrite plus_IZR in H. lra. }
  change (bpow radix2 (- 0)) with 1%R. rewrite Rmult_1_r. unfold F2R. cbn [Fnum Fexp]. change (bpow radix2 0) with 1%R. rewrite Rmult_1_r. f_equal.
  assert (Zfloor (IZR t + / 2) = t) as Ef by (apply Zfloor_imp; rewrite plus_IZR; lra).
  assert (Zceil (IZR t + / 2) = t + 1) as Ec.
  { rewrite Zceil_floor_neq; rewrite Ef; [reflexivity|lra]. }
  unfold Znearest. rewrite Ef, Ec. rewrite Rcompare_Eq by lra. rewrite <- Z.negb_odd, negb_involutive. reflexivity.
Qed.

Lemma trunc_int x z : fin x (IZR z) -> Z.abs z < 2 ^ 62 -> d_to_i64 x = Ok z.
Proof. intros H Hz. rewrite (d_to_i64_ok _ _ H); rewrite Ztrunc_IZR; [reflexivity|lia]. Qed.

Lemma add_half s t : fin s (IZR t) -> 0 <= t < 2 ^ 53 ->
  d_to_i64 (d_add s d_half) = Ok (if (2 ^ 52 <? t) && Z.odd t then t + 1 else t).
Proof.
  intros Hs Ht. destruct (Z.lt_ge_cases t (2 ^ 52)) as [Hl|Hg].
  - replace (2 ^ 52 <? t) with false by lia. cbn [andb].
    destruct (trunc_half t ltac:(lia)) as [H1 H2].
    assert (fin (d_add s d_half) (IZR t + / 2)) as H.
    { apply d_add_exact; [exact Hs|apply fin_half| |].
      + replace (IZR t + / 2)%R with (IZR (2 * t + 1) * bpow radix2 (-1))%R by (rewrite plus_IZR, mult_IZR; simpl; lra). apply repr_dyadic; lia.
      + rewrite Rabs_pos_eq by (pose proof (IZR_le 0 t ltac:(lia)); lra).
        apply Rlt_trans with (bpow radix2 53); [|apply bpow_lt; lia]. rewrite <- IZR_p2 by lia.
        apply Rlt_le_trans with (IZR (t + 1)); [rewrite plus_IZR; lra|]. apply IZR_le. lia. }
    rewrite (d_to_i64_ok _ _ H); rewrite H2; [reflexivity|lia].
  - assert (fin (d_add s d_half) (IZR (if Z.odd t then t + 1 else t))) as H.
    { rewrite <- tie by lia. apply d_add_round; [exact Hs|apply fin_half|]. rewrite tie by lia. rewrite <- abs_IZR, <- IZR_p2 by lia.
      apply IZR_lt. apply Z.lt_trans with (2 ^ 54); [destruct (Z.odd t); lia|]. apply Z.pow_lt_mono_r; lia. }
    rewrite (trunc_int _ _ H) by (destruct (Z.odd t); lia).
    destruct (Z.eq_dec t (2 ^ 52)) as [->|]; [reflexivity|]. replace (2 ^ 52 <? t) with true by lia. reflexivity.
Qed.

Section Claim.
Context (fuel : nat) (seed : ndarray double) (ilist : list (ndarray Z)) (mlist : list (ndarray Z)).
Hypothesis Hr : in_range ilist mlist.
Hypothesis He : exact_totals mlist.
Hypothesis Hpr : all_proper d_zero ilist (map dbl_of mlist).
Hypothesis Hws : wf_array seed.
Hypothesis Hs : prodZ (shape seed) < 2 ^ 60.
Hypothesis Hfu : prodZ (shape seed) < Z.of_nat fuel.

Lemma pop_rule res : py_ipf fuel seed ilist (map dbl_of mlist) = Ok res ->
  forall m, In m mlist -> 0 <= sumZ (flat m) /\
    (sumZ (flat m) < 2 ^ 53 -> ir_pop res = if (2 ^ 52 <? sumZ (flat m)) && Z.odd (sumZ (flat m)) then sumZ (flat m) + 1 else sumZ (flat m)).
Proof.
  intros E m Hm. pose proof (int_range _ _ Hr) as Hdr.
  destruct (fit_claim fuel seed ilist (map dbl_of mlist) Hdr Hpr Hws Hs Hfu res E) as (n & _ & _ & _ & _ & _ & _ & _ & _ & Hp).
  specialize (Hp (dbl_of m) (in_map _ _ _ Hm)).
  destruct (ipf_ok fuel seed ilist (map dbl_of mlist) Hdr Hpr Hws Hs Hfu res E) as (f' & pop & Ha & _).
  destruct Ha as (Hv & _ & _ & _ & Hng & Hpp). pose proof (accepted_entries _ pop Hng Hpp) as Hent.
  assert (wf_array m) as Hwm by (destruct Hr as [H1 _]; rewrite Forall_forall in H1; apply (H1 m Hm)).
  assert (sumZ (map Z.abs (flat m)) <= 2 ^ 53) as Hab.
  { unfold exact_totals in He. rewrite Forall_forall in He. specialize (He m Hm). unfold total in He.
    rewrite <- (map_map (entry 0 m) Z.abs) in He. now rewrite map_entry in He. }
  assert (forall x, In x (flat m) -> 0 <= x) as Hnn.
  { intros x Hx. rewrite <- (map_entry 0 m Hwm) in Hx. apply in_map_iff in Hx as (i & <- & Hi). apply in_all_indices in Hi.
    destruct Hv as [Hlen _]. rewrite map_length in Hlen. destruct (In_nth mlist m m Hm) as (j & Hj & Ej).
    assert (In (gcon_of d_zero (nth j ilist (NDA [] [])) (dbl_of m)) (gcons_of d_zero ilist (map dbl_of mlist))) as Hin.
    { unfold gcons_of. apply in_map_iff. exists (nth j ilist (NDA [] []), dbl_of m). split; [reflexivity|]. rewrite <- Ej at 1.
      rewrite <- (map_nth dbl_of mlist m j). rewrite <- combine_nth by (now rewrite map_length). apply nth_In. rewrite combine_length, map_length. lia. }
    destruct (Hent _ i Hin Hi) as [_ Hge]. cbn [gcon_of g_at] in Hge. rewrite entry_dbl_of in Hge.
    assert (Z.abs (entry 0 m i) <= 2 ^ 53) as Hb.
    { apply Z.le_trans with (2 := Hab). apply (sumZ_ge1 Z.abs); [intros; lia|]. rewrite <- (map_entry 0 m Hwm). apply in_map. now apply in_all_indices. }
    apply Z.nlt_ge. intros Hneg. rewrite <- (negb_involutive (nnb _)), <- nnb_ltb in Hge.
    rewrite (d_ltb_R _ _ _ _ (d_ofZ_exact _ Hb) fin_zero), Rlt_bool_true in Hge; [discriminate|]. now apply IZR_lt. }
  assert (0 <= sumZ (flat m)) as H0 by now apply sumZ_nonneg. split; [exact H0|]. intros Hlt.
  cbn [dbl_of flat] in Hp. rewrite (add_half _ (0 + sumZ (flat m))) in Hp.
  - injection Hp as <-. reflexivity.
  - apply sum_exactly; [|cbn [Z.abs]; lia]. apply fin_zero.
  - lia.
Qed.

Lemma pop_claim res : py_ipf fuel seed ilist (map dbl_of mlist) = Ok res -> forall m, In m mlist ->
  sumZ (flat m) <= 2 ^ 52 -> ir_pop res = sumZ (flat m).
Proof.
  intros E m Hm Hl. destruct (pop_rule res E m Hm) as [H0 H]. rewrite H by lia. now replace (2 ^ 52 <? sumZ (flat m)) with false by lia.
Qed.

Lemma even_claim res : py_ipf fuel seed ilist (map dbl_of mlist) = Ok res -> forall m, In m mlist ->
  sumZ (flat m) < 2 ^ 53 -> Z.Even (sumZ (flat m)) -> ir_pop res = sumZ (flat m).
Proof.
  intros E m Hm Hl Hev. destruct (pop_rule res E m Hm) as [H0 H]. rewrite H by lia.
  apply Z.even_spec in Hev. rewrite <- Z.negb_even, Hev. cbn [negb]. now rewrite andb_false_r.
Qed.

Lemma odd_claim res : py_ipf fuel seed ilist (map dbl_of mlist) = Ok res -> forall m, In m mlist ->
  2 ^ 52 < sumZ (flat m) < 2 ^ 53 -> Z.Odd (sumZ (flat m)) -> ir_pop res = sumZ (flat m) + 1.
Proof.
  intros E m Hm Hl Ho. destruct (pop_rule res E m Hm) as [H0 H]. rewrite H by lia.
  apply Z.odd_spec in Ho. rewrite Ho. now replace (2 ^ 52 <? sumZ (flat m)) with true by lia.
Qed.
End Claim.

(** * Examples *)

Definition exP_m : list (ndarray Z) := [NDA [2] [2 ^ 52 + 1; 0]; NDA [2] [2 ^ 52 + 1; 0]].
Definition exPd_m : list (ndarray Z) := [NDA [2] [2 ^ 52 + 1; 0]; NDA [2] [2 ^ 52 + 2; 0]].
Definition exPs_m : list (ndarray Z) := [NDA [2] [2 ^ 51 + 1; 2 ^ 51 - 1]; NDA [2] [2 ^ 52; 0]].

Definition ran (o : outcome (ipf_result double)) : option (Z * bool) := match o with Ok r => Some (ir_pop r, ir_conv r) | _ => None end.

Lemma exP_run : ran (py_ipf 5 exT_s exT_i (map dbl_of exP_m)) = Some (2 ^ 52 + 2, true).
Proof. vm_compute. reflexivity. Qed.
Lemma exPd_run : ran (py_ipf 5 exT_s exT_i (map dbl_of exPd_m)) = Some (2 ^ 52 + 2, false).
Proof. vm_compute. reflexivity. Qed.
Lemma exPs_run : ran (py_ipf 5 exT_s exT_i (map dbl_of exPs_m)) = Some (2 ^ 52, true).
Proof. vm_compute. reflexivity. Qed.

Lemma exP_hyps mlist : mlist = exP_m \/ mlist = exPd_m \/ mlist = exPs_m -> in_range exT_i mlist /\ exact_totals mlist /\
  all_proper d_zero exT_i (map dbl_of mlist) /\ wf_array exT_s /\ prodZ (shape exT_s) < 2 ^ 60 /\ prodZ (shape exT_s) < Z.of_nat 5.
Proof.
  intros H. split; [destruct H as [->|[->| ->]]; apply (in_range_by _ _ [2; 2]); vm_compute; reflexivity|].
  split; [destruct H as [->|[->| ->]]; repeat constructor; vm_compute; congruence|].
  split; [destruct H as [->|[->| ->]]; apply (all_proper_by _ _ _ [2; 2]); vm_compute; reflexivity|].
  split; [apply shape_by; vm_compute; reflexivity|]. split; vm_compute; reflexivity.
Qed.

Lemma mismatch_claim : exists fuel seed ilist m m' res,
  in_range ilist [m; m'] /\ exact_totals [m; m'] /\ all_proper d_zero ilist (map dbl_of [m; m']) /\ wf_array seed /\ prodZ (shape seed) < Z.of_nat fuel /\
  sumZ (flat m) <> sumZ (flat m') /\ py_ipf fuel seed ilist (map dbl_of [m; m']) = Ok res.
Proof.
  exists 5%nat, exT_s, exT_i, (NDA [2] [2 ^ 52 + 1; 0]), (NDA [2] [2 ^ 52 + 2; 0]). pose proof exPd_run as H.
  destruct (exP_hyps exPd_m (or_intror (or_introl eq_refl))) as (H1 & H2 & H3 & H4 & _ & H5). unfold exPd_m in *.
  destruct (py_ipf 5 exT_s exT_i _) as [r| | |]; try discriminate H. exists r.
  repeat (split; [assumption|]). split; [vm_compute; discriminate|reflexivity].
Qed.
