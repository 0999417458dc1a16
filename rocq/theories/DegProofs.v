(** The reported degeneracy is N!/prod((a_k+1)!) up to rounding, which is too small whenever there are as many people as cells (C44). *)
From Coq Require Import Reals Psatz.
From Flocq Require Import Core.Core IEEE754.BinarySingleNaN.
From Verif Require Import Base Spec SpecFacts NDArray IndexProofs Float64 FloatProofs FloatExt ArrayOps ArrayProofs Bind BindProofs Micro Stat StatSpec Qis SynthSpec
  RealSpec IntegeriseDbl ExpectRound Ipf IpfSpec MicroDbl IpfClaims IpfDbl IpfRoundSpec IpfRound QisClaims QisExamples StatClaims StatFlat DegSpec.
Open Scope Z_scope.

Lemma factZ_pos n : 0 < factZ n.
Proof. unfold factZ. pose proof (lt_O_fact (Z.to_nat n)). lia. Qed.
Lemma factZ_S n : 0 <= n -> factZ (n + 1) = (n + 1) * factZ n.
Proof.
  intros Hn. unfold factZ. replace (Z.to_nat (n + 1)) with (S (Z.to_nat n)) by lia. rewrite fact_simpl. rewrite Nat2Z.inj_mul. f_equal. lia.
Qed.
Lemma factZ_le m n : 0 <= m <= n -> factZ m <= factZ n.
Proof. intros H. unfold factZ. apply Nat2Z.inj_le, fact_le. lia. Qed.

Lemma prodZ_map_pos {A} (f : A -> Z) l : (forall x, In x l -> 0 < f x) -> 0 < prodZ (map f l).
Proof. induction l as [|x l IH]; intros H; [cbn; lia|]. change (prodZ (map f (x :: l))) with (f x * prodZ (map f l)). pose proof (H x (or_introl eq_refl)). specialize (IH (fun y Hy => H y (or_intror Hy))). lia. Qed.
Lemma prodZ_map_mul {A} (f g : A -> Z) l : prodZ (map (fun x => f x * g x) l) = prodZ (map f l) * prodZ (map g l).
Proof. induction l as [|x l IH]; [reflexivity|]. change (f x * g x * prodZ (map (fun x => f x * g x) l) = f x * prodZ (map f l) * (g x * prodZ (map g l))). rewrite IH. ring. Qed.
Lemma prod_ge_sum l : (forall x, In x l -> 0 <= x) -> 1 + sumZ l <= prodZ (map (fun x => x + 1) l).
Proof.
  induction l as [|x l IH]; intros H; [cbn; lia|]. change (1 + (x + sumZ l) <= (x + 1) * prodZ (map (fun x => x + 1) l)).
  specialize (IH (fun y Hy => H y (or_intror Hy))). pose proof (H x (or_introl eq_refl)).
  assert (0 <= sumZ l) by (clear - H; assert (forall y, In y l -> 0 <= y) as G by (intros; apply H; now right); clear H; induction l as [|y l IH]; [cbn; lia|];
    change (0 <= y + sumZ l); pose proof (G y (or_introl eq_refl)); specialize (IH (fun z Hz => G z (or_intror Hz))); lia). nia.
Qed.

Lemma formula_bound a : (forall x, In x a -> 0 <= x) -> Z.of_nat (length a) <= sumZ a ->
  (cell_formula a * IZR (1 + sumZ a) <= multinomial a)%R.
Proof.
  intros Ha Hs. unfold cell_formula, multinomial.
  assert (prodZ (map (fun x => factZ (x + 1)) a) = prodZ (map (fun x => x + 1) a) * prodZ (map factZ a)) as ->.
  { rewrite <- prodZ_map_mul. f_equal. apply map_ext_in. intros x Hx. apply factZ_S. auto. }
  pose proof (prodZ_map_pos factZ a (fun x _ => factZ_pos x)) as P1. pose proof (prod_ge_sum a Ha) as P2.
  pose proof (factZ_le (Z.of_nat (length a)) (sumZ a) ltac:(lia)) as P3. pose proof (factZ_pos (Z.of_nat (length a))) as P4.
  set (P := prodZ (map factZ a)) in *. set (Q := prodZ (map (fun x => x + 1) a)) in *. set (N := factZ (Z.of_nat (length a))) in *.
  set (F := factZ (sumZ a)) in *. assert (0 < Q) as PQ by lia. apply IZR_lt in P1, PQ. apply IZR_le in P2, P3. apply IZR_lt in P4. rewrite mult_IZR.
  apply Rmult_le_reg_r with (IZR Q * IZR P)%R; [nra|].
  replace (IZR N / (IZR Q * IZR P) * IZR (1 + sumZ a) * (IZR Q * IZR P))%R with (IZR N * IZR (1 + sumZ a))%R by (field; lra).
  replace (IZR F / IZR P * (IZR Q * IZR P))%R with (IZR F * IZR Q)%R by (field; lra).
  apply Rmult_le_compat; try lra. apply IZR_le. pose proof (Nat2Z.is_nonneg (length a)). lia.
Qed.

(** a product of doubles *)
Lemma mul_rel x y : normal x -> normal (d_mul x y) -> rel 1 (B2R (d_mul x y)) (B2R x * B2R y).
Proof.
  intros Hx Hm. pose proof (normal_pos _ Hx) as Px. destruct Hx as [Fx _]. destruct (mul_finite_inv x y Fx ltac:(lra) (proj1 Hm)) as [_ E].
  destruct Hm as [_ Hm]. rewrite E in *. apply rel_RN. right. apply Rnot_lt_le. intros Hlt.
  pose proof (RN_le_repr _ (p2 (-1022)) (repr_p2 (-1022) ltac:(lia)) (Rlt_le _ _ Hlt)) as Hle.
  pose proof (bpow_lt radix2 (-1022) (-1021) ltac:(lia)). lra.
Qed.
Lemma div_rel x y : is_finite x = true -> normal (d_div x y) -> rel 1 (B2R (d_div x y)) (B2R x / B2R y).
Proof.
  intros Fx Hm. pose proof (normal_pos _ Hm) as Pm. destruct Hm as [Fm Hm]. destruct (div_finite_inv x y Fx Fm ltac:(lra)) as (_ & _ & E).
  rewrite E in *. apply rel_RN. right. apply Rnot_lt_le. intros Hlt.
  pose proof (RN_le_repr _ (p2 (-1022)) (repr_p2 (-1022) ltac:(lia)) (Rlt_le _ _ Hlt)) as Hle.
  pose proof (bpow_lt radix2 (-1022) (-1021) ltac:(lia)). lra.
Qed.

Fixpoint prodR (l : list R) : R := match l with [] => 1%R | x :: l' => (x * prodR l')%R end.

Lemma fold_rel k l : forall xs acc, Forall normal l -> (forall pre post, l = pre ++ post -> normal (fold_left d_mul pre acc)) ->
  Forall2 (fun q x => (0 <= x)%R /\ rel k (B2R q) x) l xs ->
  rel (length l * (k + 1)) (B2R (fold_left d_mul l acc)) (B2R acc * prodR xs).
Proof.
  induction l as [|q l IH]; intros xs acc Hn Hp H2; inversion H2 as [|? x ? xs' [Hx Hr] H2']; subst; cbn [fold_left prodR length].
  - rewrite Rmult_1_r. apply rel_refl. pose proof (normal_pos _ (Hp [] [] eq_refl)). cbn in H. lra.
  - pose proof (Hp [] (q :: l) eq_refl) as Ha. cbn in Ha. pose proof (Hp [q] l eq_refl) as Hm. cbn in Hm. inversion Hn as [|? ? Nq Nl]; subst.
    pose proof (normal_pos _ Ha) as Pa. pose proof (normal_pos _ Hm) as Pm. pose proof (normal_pos _ Nq) as Pq.
    assert (0 <= prodR xs')%R as Px.
    { clear - H2'. induction H2' as [|? ? ? ? [H _] _ IH]; cbn; [lra|now apply Rmult_le_pos]. }
    pose proof (IH xs' (d_mul acc q) Nl (fun pre post E => Hp (q :: pre) post (f_equal (cons q) E)) H2') as Hi.
    pose proof (mul_rel acc q Ha Hm) as H1.
    replace (S (length l) * (k + 1))%nat with (length l * (k + 1) + (1 + k))%nat by lia. eapply rel_trans; [exact Hi|].
    replace (B2R acc * (x * prodR xs'))%R with (B2R acc * x * prodR xs')%R by ring.
    replace (1 + k)%nat with ((1 + k) + 0)%nat by lia. apply rel_mul; [lra|nra|auto|auto| |now apply rel_refl].
    eapply rel_trans; [exact H1|]. rewrite <- (Nat.add_0_l k). apply rel_mul; try lra; auto. apply rel_refl. lra.
Qed.

Definition exact_factors (cells : Z) (ks n : list Z) : list R := map (fun '(k, x) => (IZR (cells - k) / IZR (factZ (x + 1)))%R) (combine ks n).

Lemma exact_product n : prodR (exact_factors (Z.of_nat (length n)) (zrange (Z.of_nat (length n))) n) = cell_formula n.
Proof.
  unfold cell_formula. induction n as [|x n IH]; [change (1 = 1 / 1)%R; lra|].
  cbn [length]. rewrite Nat2Z.inj_succ, <- Z.add_1_r, zrange_S by lia. unfold exact_factors in *. cbn [combine map prodR]. rewrite Z.sub_0_r.
  assert (map (fun '(k, x) => (IZR (Z.of_nat (length n) + 1 - k) / IZR (factZ (x + 1)))%R) (combine (map (Z.add 1) (zrange (Z.of_nat (length n)))) n) =
          map (fun '(k, x) => (IZR (Z.of_nat (length n) - k) / IZR (factZ (x + 1)))%R) (combine (zrange (Z.of_nat (length n))) n)) as ->.
  { generalize (zrange (Z.of_nat (length n))) as ks. generalize (Z.of_nat (length n)) as m. clear. intros m ks. revert n.
    induction ks as [|k ks IH]; intros [|y n]; cbn [map combine]; auto. rewrite IH. f_equal. do 2 f_equal. lia. }
  rewrite IH. rewrite (factZ_S (Z.of_nat (length n))) by lia. change (prodZ (factZ (x + 1) :: map (fun x => factZ (x + 1)) n)) with (factZ (x + 1) * prodZ (map (fun x => factZ (x + 1)) n)).
  rewrite !mult_IZR. field. split; apply not_eq_sym, Rlt_not_eq, IZR_lt; [apply prodZ_map_pos; intros; apply factZ_pos|apply factZ_pos].
Qed.

Lemma product_within L k n : Z.of_nat (length n) <= 2 ^ 53 -> (forall x, In x n -> tgamma_near L k x) -> product_normal L n ->
  within (length n * (k + 2)) (B2R (running_product L n)) (cell_formula n).
Proof.
  intros Hl Ht [Hn Hp]. rewrite <- exact_product, <- (Rmult_1_l (prodR _)).
  change (running_product L n) with (fold_left d_mul (cell_factors L n) d_one).
  assert (B2R d_one = 1)%R as E1 by apply fin_one. rewrite <- E1.
  set (m := Z.of_nat (length n)) in *.
  assert (length (cell_factors L n) = length n) as El.
  { unfold cell_factors. rewrite map_length, combine_length. unfold zrange. rewrite map_length, seq_length. lia. }
  replace (length n * (k + 2))%nat with (length (cell_factors L n) * (S k + 1))%nat by (rewrite El; lia).
  apply fold_rel; auto. unfold cell_factors, exact_factors in *. fold m in Hn |- *.
  assert (forall d, In d (zrange m) -> 0 <= d < m) as Hk by (intros d; apply in_zrange).
  clearbody m. clear Hp El E1. revert n Ht Hn. induction (zrange m) as [|d ks IH]; intros [|x n] Ht Hn; cbn [combine map]; constructor.
  - cbn [combine map] in Hn. inversion Hn as [|? ? Nq _]; subst. pose proof (Hk d (or_introl eq_refl)) as Hd.
    destruct (d_ofZ_exact (m - d) ltac:(lia)) as [Fd Ed]. destruct (Ht x (or_introl eq_refl)) as [Ft Hr].
    pose proof (IZR_lt _ _ (factZ_pos (x + 1))) as Pf. assert (0 < IZR (m - d))%R as Pd by (apply IZR_lt; lia).
    pose proof (normal_pos _ Nq) as Pq.
    assert (0 < B2R (l_tgamma L (d_ofZ (x + 2))))%R as Pt.
    { destruct Hr as [Hr _]. pose proof (EE_pow k) as He. change (1 + bpow radix2 (-52))%R with EE in Hr. apply Rnot_le_lt. intros Hle.
      assert (B2R (l_tgamma L (d_ofZ (x + 2))) * EE ^ k <= 0)%R by (rewrite <- (Rmult_0_l (EE ^ k)); apply Rmult_le_compat_r; lra). lra. }
    split; [apply Rlt_le; apply Rdiv_lt_0_compat; lra|]. replace (S k) with (1 + k)%nat by lia.
    eapply rel_trans; [apply div_rel; [exact Fd|exact Nq]|]. rewrite Ed. unfold Rdiv. rewrite <- (Nat.add_0_l k).
    apply rel_mul; try lra; [left; now apply Rinv_0_lt_compat|left; now apply Rinv_0_lt_compat|apply rel_refl; lra|]. apply rel_inv; auto.
  - cbn [combine map] in Hn. inversion Hn; subst. apply IH; auto; intros; [apply Hk; now right|apply Ht; now right].
Qed.

(** ** the results of qis *)
Section Qis.
Context (L : libm) (fuel : nat) (ilist : list (ndarray Z)) (mlist : list (ndarray Z)) (skips : Z) (res : qis_result).
Hypothesis Hr : in_range ilist mlist.
Hypothesis E : py_qis L fuel ilist mlist skips = Ok res.
Let n := flat (qr_pop_array res).

Lemma deg_eq : Z.of_nat (length n) <= 2 ^ 53 -> qr_degeneracy res = running_product L n.
Proof.
  intros Hl. destruct (stats_qis_claim L fuel ilist mlist skips res Hr E) as (_ & _ & H). apply H.
  destruct (qis_ok_inv L fuel ilist mlist skips res Hr E) as (sizes & r & _ & Hf & _ & _ & _ & Ea & _).
  unfold n in Hl. rewrite Ea in *. cbn [flat shape] in *. rewrite map_length, length_all_indices in Hl by now apply positive_nonneg, fits_pos. exact Hl.
Qed.

Lemma deg_counts : (forall x, In x n -> 0 <= x) /\ sumZ n = qr_pop res.
Proof.
  destruct (qis_ok_inv L fuel ilist mlist skips res Hr E) as (sizes & r & _ & Hf & [Hrn Hrt] & _ & _ & Ea & _).
  unfold n. rewrite Ea. cbn [flat]. split; [|exact Hrt]. intros x Hx. apply in_map_iff in Hx as (i & <- & Hi). apply Hrn. now apply in_all_indices.
Qed.

Lemma deg_value_claim k : Z.of_nat (length n) <= 2 ^ 53 -> (forall x, In x n -> tgamma_near L k x) -> product_normal L n ->
  within (length n * (k + 2)) (B2R (qr_degeneracy res)) (cell_formula n).
Proof. intros Hl Ht Hp. rewrite deg_eq by auto. now apply product_within. Qed.

Lemma deg_small_claim k : (forall x, In x n -> tgamma_near L k x) -> product_normal L n -> Z.of_nat (length n * (k + 2)) <= 2 ^ 50 ->
  0 < Z.of_nat (length n) <= qr_pop res ->
  (B2R (qr_degeneracy res) < multinomial n)%R /\ (B2R (qr_degeneracy res) * IZR (1 + qr_pop res) <= 3 / 2 * multinomial n)%R.
Proof.
  intros Ht Hp Hk Hs. destruct deg_counts as [Hn Hsum].
  assert (Z.of_nat (length n) <= 2 ^ 53) as Hl by lia.
  destruct (deg_value_claim k Hl Ht Hp) as [_ H]. pose proof (formula_bound n Hn ltac:(lia)) as Hb. rewrite Hsum in Hb.
  change (1 + bpow radix2 (-52))%R with EE in H. set (q := (length n * (k + 2))%nat) in *.
  assert (INR q * p2 (-52) <= / 4)%R as Hq.
  { rewrite INR_IZR_INZ. apply Rle_trans with (p2 50 * p2 (-52))%R.
    - apply Rmult_le_compat_r; [apply bpow_ge_0|]. rewrite <- IZR_Zpower by lia. apply IZR_le. exact Hk.
    - rewrite <- bpow_plus. apply Rle_refl. }
  pose proof (EE_bound q ltac:(lra)) as He.
  assert (0 < multinomial n)%R as Hm.
  { unfold multinomial. apply Rdiv_lt_0_compat; apply IZR_lt; [apply factZ_pos|apply prodZ_map_pos; intros; apply factZ_pos]. }
  assert (0 < cell_formula n)%R as Hc.
  { unfold cell_formula. apply Rdiv_lt_0_compat; apply IZR_lt; [apply factZ_pos|apply prodZ_map_pos; intros; apply factZ_pos]. }
  assert (2 <= IZR (1 + qr_pop res))%R as H2 by (apply IZR_le; lia).
  assert (B2R (qr_degeneracy res) <= 3 / 2 * cell_formula n)%R as Hd.
  { apply Rle_trans with (1 := H). rewrite Rmult_comm. apply Rmult_le_compat_r; lra. }
  set (D := B2R (qr_degeneracy res)) in *. set (Q := IZR (1 + qr_pop res)) in *. set (C := cell_formula n) in *. set (M := multinomial n) in *.
  assert (2 * C <= M)%R by (apply Rle_trans with (2 := Hb); rewrite Rmult_comm; apply Rmult_le_compat_l; lra).
  split; [lra|]. apply Rle_trans with (3 / 2 * C * Q)%R; [apply Rmult_le_compat_r; lra|]. rewrite Rmult_assoc. apply Rmult_le_compat_l; lra.
Qed.

Lemma div_inf z y : is_finite z = true -> is_finite y = false -> zn (d_div z y) = true.
Proof. destruct z as [s|s| |s m e B]; try discriminate; intros _; destruct y as [s'|s'| |s' m' e' B']; try discriminate; reflexivity. Qed.
Lemma zn_mul_r x y : zn y = true -> zn (d_mul x y) = true.
Proof. destruct y as [sx|sx| |sx mx ex Bx]; try discriminate; intros _; destruct x as [sy|sy| |sy my ey By]; reflexivity. Qed.

Lemma fold_zn l : forall acc, (zn acc = true \/ exists q, In q l /\ zn q = true) -> zn (fold_left d_mul l acc) = true.
Proof.
  induction l as [|q l IH]; intros acc H; cbn [fold_left]; [destruct H as [H|(q & [] & _)]; exact H|].
  apply IH. destruct H as [H|(q' & [<-|Hq] & Hz)]; [left; now apply zn_mul|left; now apply zn_mul_r|right; eauto].
Qed.

Lemma in_combine_l' {A B} (ks : list A) (l : list B) x : length ks = length l -> In x l -> exists k, In (k, x) (combine ks l).
Proof.
  revert l. induction ks as [|k ks IH]; intros [|y l] El Hin; try discriminate; [destruct Hin|]. injection El as El.
  destruct Hin as [<-|Hin]; [exists k; now left|]. destruct (IH l El Hin) as (k' & Hk). exists k'. now right.
Qed.

Lemma deg_overflow_claim x : Z.of_nat (length n) <= 2 ^ 53 -> In x n -> is_finite (l_tgamma L (d_ofZ (x + 2))) = false ->
  is_nan (qr_degeneracy res) = true \/ d_eqb (qr_degeneracy res) d_zero = true.
Proof.
  intros Hl Hx Ht. rewrite deg_eq by auto.
  assert (zn (running_product L n) = true) as H; [|destruct (proj1 (zn_cases _) H); auto].
  change (running_product L n) with (fold_left d_mul (cell_factors L n) d_one). apply fold_zn. right.
  destruct (in_combine_l' (zrange (Z.of_nat (length n))) n x) as (k & Hk); auto.
  { unfold zrange. rewrite map_length, seq_length. lia. }
  eexists. split; [unfold cell_factors; apply in_map_iff; exists (k, x); split; [reflexivity|exact Hk]|]. apply div_inf; [|exact Ht].
  apply in_combine_l in Hk. apply in_zrange in Hk. apply (d_ofZ_exact (Z.of_nat (length n) - k)). lia.
Qed.
End Qis.

(** ** examples *)
Definition L2 : libm := {| l_lgamma := fun x => x; l_log := fun x => x; l_exp := fun x => x; l_tgamma := fun _ => d_ofZ 2 |}.
Lemma near_L2 k : tgamma_near L2 k 1.
Proof.
  destruct (d_ofZ_exact 2 ltac:(lia)) as [F E2]. split; [exact F|]. cbn [l_tgamma L2]. rewrite E2. change (factZ (1 + 1)) with 2.
  split; apply (rel_refl k); lra.
Qed.

Lemma product_normal_by L n : forallb normalb (cell_factors L n) = true ->
  forallb (fun j => normalb (fold_left d_mul (firstn j (cell_factors L n)) d_one)) (seq 0 (S (length (cell_factors L n)))) = true -> product_normal L n.
Proof.
  intros H1 H2. rewrite forallb_forall in H1, H2. split.
  - apply Forall_forall. intros x Hx. now apply normal_by, H1.
  - intros pre post Ee. apply normal_by. specialize (H2 (length pre)). rewrite Ee, firstn_app, firstn_all, Nat.sub_diag, app_nil_r in H2. apply H2.
    apply in_seq. rewrite app_length. lia.
Qed.
Lemma normal_L2 : product_normal L2 [1; 1; 1; 1].
Proof. apply product_normal_by; vm_compute; reflexivity. Qed.

(** infinite from 172 on, as tgamma is *)
Definition Linf : libm := {| l_lgamma := fun x => x; l_log := fun x => x; l_exp := fun x => x;
  l_tgamma := fun x => if d_ltb x (d_ofZ 172) then d_ofZ 2 else B754_infinity false |}.
Definition exO_m : list (ndarray Z) := [NDA [2] [400; 400]; NDA [2] [400; 400]].

Lemma fact_mul a b : (fact a * fact b <= fact (a + b))%nat.
Proof.
  induction b as [|b IH]; [rewrite Nat.add_0_r; change (fact 0) with 1%nat; lia|]. rewrite Nat.add_succ_r. rewrite !fact_simpl.
  replace (fact a * (S b * fact b))%nat with (S b * (fact a * fact b))%nat by ring. apply Nat.mul_le_mono; lia.
Qed.
Lemma prod_fact_le n : (forall x, In x n -> 0 <= x) -> prodZ (map factZ n) <= factZ (sumZ n) /\ 0 <= sumZ n.
Proof.
  induction n as [|x n IH]; intros H; [split; vm_compute; discriminate|]. destruct IH as [IH IS]; [intros; apply H; now right|].
  pose proof (H x (or_introl eq_refl)) as Hx. change (sumZ (x :: n)) with (x + sumZ n). split; [|lia].
  change (prodZ (map factZ (x :: n))) with (factZ x * prodZ (map factZ n)).
  apply Z.le_trans with (factZ x * factZ (sumZ n)); [apply Z.mul_le_mono_nonneg_l; [pose proof (factZ_pos x)|]; lia|].
  unfold factZ. rewrite <- Nat2Z.inj_mul, Z2Nat.inj_add by lia. apply Nat2Z.inj_le, fact_mul.
Qed.
Lemma multinomial_ge1 n : (forall x, In x n -> 0 <= x) -> (1 <= multinomial n)%R.
Proof.
  intros H. destruct (prod_fact_le n H) as [Hp _]. unfold multinomial.
  assert (0 < IZR (prodZ (map factZ n)))%R as Hz by (apply IZR_lt, prodZ_map_pos; intros; apply factZ_pos).
  apply Rmult_le_reg_r with (IZR (prodZ (map factZ n))); auto. unfold Rdiv. rewrite Rmult_assoc, Rinv_l, Rmult_1_l, Rmult_1_r by lra. now apply IZR_le.
Qed.

Lemma deg_value_all : forall L fuel ilist mlist skips res k, in_range ilist mlist -> py_qis L fuel ilist mlist skips = Ok res ->
  let a := flat (qr_pop_array res) in
  Z.of_nat (length a) <= 2 ^ 53 -> (forall x, In x a -> tgamma_near L k x) -> product_normal L a ->
  within (length a * (k + 2)) (B2R (qr_degeneracy res)) (cell_formula a).
Proof. intros L fuel ilist mlist skips res k Hr E a. exact (deg_value_claim L fuel ilist mlist skips res Hr E k). Qed.

Lemma deg_small_all : forall L fuel ilist mlist skips res k, in_range ilist mlist -> py_qis L fuel ilist mlist skips = Ok res ->
  let a := flat (qr_pop_array res) in
  (forall x, In x a -> tgamma_near L k x) -> product_normal L a -> Z.of_nat (length a * (k + 2)) <= 2 ^ 50 ->
  0 < Z.of_nat (length a) <= qr_pop res ->
  (B2R (qr_degeneracy res) < multinomial a)%R /\ (B2R (qr_degeneracy res) * IZR (1 + qr_pop res) <= 3 / 2 * multinomial a)%R.
Proof. intros L fuel ilist mlist skips res k Hr E a. exact (deg_small_claim L fuel ilist mlist skips res Hr E k). Qed.

Lemma deg_overflow_all : forall L fuel ilist mlist skips res x, in_range ilist mlist -> py_qis L fuel ilist mlist skips = Ok res ->
  let a := flat (qr_pop_array res) in
  Z.of_nat (length a) <= 2 ^ 53 -> In x a -> is_finite (l_tgamma L (d_ofZ (x + 2))) = false ->
  (is_nan (qr_degeneracy res) = true \/ d_eqb (qr_degeneracy res) d_zero = true) /\ (1 <= multinomial a)%R.
Proof.
  intros L fuel ilist mlist skips res x Hr E a Hl Hx Ht. split; [exact (deg_overflow_claim L fuel ilist mlist skips res Hr E x Hl Hx Ht)|].
  apply multinomial_ge1. apply (proj1 (deg_counts L fuel ilist mlist skips res Hr E)).
Qed.
