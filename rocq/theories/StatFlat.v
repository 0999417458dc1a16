(** The statistics as functions of the returned arrays (C65). *)
From Coq Require Import Reals Lra Lia.
From Flocq Require Import Core.Core IEEE754.BinarySingleNaN.
From Verif Require Import Base Spec SpecFacts NDArray IndexProofs Float64 FloatProofs FloatExt ArrayOps ArrayProofs Bind BindProofs
  Micro Stat StatSpec Qis SynthSpec MicroProofs QisProofs StatProofs QisClaims Ipf IpfSpec Qisi QisiClaims.
Open Scope Z_scope.

Lemma combine_map {A B C} (f : A -> B) (g : A -> C) l : combine (map f l) (map g l) = map (fun x => (f x, g x)) l.
Proof. induction l; simpl; congruence. Qed.

Lemma chi_flat sizes r ex : chi_val sizes r ex = pearson (map r (all_indices sizes)) (map ex (all_indices sizes)).
Proof. unfold chi_val, pearson. now rewrite combine_map, map_map. Qed.

Lemma ofZ_pred z : 0 < z <= 2 ^ 53 -> d_sub (d_ofZ z) d_one = d_ofZ (z - 1).
Proof.
  intros Hz. destruct (Z.eq_dec z 1) as [->|N1]; [vm_compute; reflexivity|].
  destruct (d_ofZ_exact z ltac:(lia)) as [Fz Ez]. destruct (d_ofZ_exact (z - 1) ltac:(lia)) as [Fp Ep].
  destruct fin_one as [F1 E1].
  destruct (d_sub_exact (d_ofZ z) d_one (IZR z) 1 (conj Fz Ez) (conj F1 E1)) as [Fs Es].
  { rewrite <- minus_IZR, <- Ep. apply generic_format_B2R. }
  { rewrite <- minus_IZR, <- Ep. apply abs_B2R_lt_emax. }
  apply B2R_inj.
  - destruct (d_sub _ _); try discriminate; auto. simpl in Es. rewrite <- minus_IZR in Es. apply eq_sym, eq_IZR in Es. lia.
  - destruct (d_ofZ (z - 1)); try discriminate; auto. simpl in Ep. apply eq_sym, eq_IZR in Ep. lia.
  - now rewrite Es, Ep, minus_IZR.
Qed.

Lemma zrange_S n : 0 <= n -> zrange (n + 1) = 0 :: map (Z.add 1) (zrange n).
Proof.
  intros Hn. unfold zrange. replace (Z.to_nat (n + 1)) with (S (Z.to_nat n)) by lia. cbn [seq map]. f_equal.
  rewrite <- seq_shift, !map_map. apply map_ext. intros; lia.
Qed.

Lemma deg_fold L (n : list Z) : forall acc, Z.of_nat (length n) <= 2 ^ 53 ->
  snd (fold_left (fun sr x => (d_sub (fst sr) d_one, d_mul (snd sr) (d_div (fst sr) (l_tgamma L (d_ofZ (x + 1 + 1)))))) n
    (d_ofZ (Z.of_nat (length n)), acc)) =
  fold_left d_mul (map (fun '(k, x) => d_div (d_ofZ (Z.of_nat (length n) - k)) (l_tgamma L (d_ofZ (x + 2)))) (combine (zrange (Z.of_nat (length n))) n)) acc.
Proof.
  induction n as [|x n IH]; intros acc Hl; [reflexivity|].
  simpl length in *. rewrite Nat2Z.inj_succ, <- Z.add_1_r in *. rewrite zrange_S by lia. cbn [fold_left combine map fst snd].
  rewrite ofZ_pred by lia. rewrite Z.add_simpl_r, Z.sub_0_r, IH by lia.
  replace (x + 1 + 1) with (x + 2) by lia. f_equal.
  generalize (zrange (Z.of_nat (length n))) as ks. generalize (Z.of_nat (length n)) as m. clear. intros m ks. revert n.
  induction ks as [|k ks IH]; intros [|y n]; cbn [map combine]; auto. rewrite IH. f_equal. do 2 f_equal. lia.
Qed.

Lemma deg_flat L sizes r : fits sizes -> prodZ sizes <= 2 ^ 53 -> deg_val L sizes r = running_product L (map r (all_indices sizes)).
Proof.
  intros Hf Hs. unfold deg_val, running_product. rewrite map_length.
  pose proof (length_all_indices sizes (positive_nonneg _ (fits_pos _ Hf))) as Hl. rewrite Hl.
  pose proof (deg_fold L (map r (all_indices sizes)) d_one) as H. rewrite map_length, Hl in H. rewrite <- H by auto.
  f_equal. generalize (d_ofZ (prodZ sizes), d_one) as z. generalize (all_indices sizes) as l. clear.
  induction l as [|i l IH]; intros z; cbn [fold_left map]; auto.
Qed.

Lemma stats_qis_claim L fuel ilist mlist skips res : in_range ilist mlist -> py_qis L fuel ilist mlist skips = Ok res ->
  let n := qr_pop_array res in
  qr_chisq res = pearson (flat n) (flat (qr_expectation res)) /\
  qr_pvalue res = fst (pvalue L (degrees (shape n)) (qr_chisq res)) /\
  (prodZ (shape n) <= 2 ^ 53 -> qr_degeneracy res = running_product L (flat n)).
Proof.
  intros Hr E. destruct (qis_ok_inv L fuel ilist mlist skips res Hr E) as (sizes & r & _ & Hf & _ & _ & _ & -> & -> & _ & _ & _ & H1 & H2 & H3).
  cbn [flat shape]. split; [now rewrite H1, chi_flat|]. split; [exact H2|]. intros Hs. rewrite H3. now apply deg_flat.
Qed.

Lemma stats_qisi_claim L fuel seed ilist mlist skips res : qisi_range ilist mlist seed -> py_qisi L fuel seed ilist mlist skips = Ok res ->
  let n := qr_pop_array res in
  qr_chisq res = pearson (flat n) (flat (qr_expectation res)) /\
  qr_pvalue res = fst (pvalue L (degrees (shape n)) (qr_chisq res)) /\
  (prodZ (shape n) <= 2 ^ 53 -> qr_degeneracy res = running_product L (flat n)).
Proof.
  intros Hr E. pose proof (qisi_cases L fuel seed ilist mlist skips Hr) as H. cbv zeta in H. rewrite E in H.
  destruct H as (_ & _ & Hf & _ & _ & _ & r & _ & _ & -> & ex & -> & H1 & H2 & H3).
  cbn [flat shape]. split; [now rewrite H1, chi_flat|]. split; [exact H2|]. intros Hs. rewrite H3. now apply deg_flat.
Qed.
