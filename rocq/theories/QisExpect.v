(** The expected state occupancy of qis: it reproduces disjoint marginals. *)
From Coq Require Import Reals Psatz Permutation.
From Flocq Require Import Core.Core IEEE754.BinarySingleNaN Relative.
From Verif Require Import Base Spec SpecFacts NDArray IndexProofs Float64 FloatProofs ArrayOps ArrayProofs Bind BindProofs
  Sobol Micro Stat Qis SynthSpec MicroProofs PickProofs SampleProofs SplitProofs QisProofs QisClaims RealSpec.
Open Scope Z_scope.

(** * Sums of products over independent dimensions *)

Lemma sumZ_perm l l' : Permutation l l' -> sumZ l = sumZ l'.
Proof. induction 1; simpl; lia. Qed.

(** reading all dimensions, each once, in another order permutes the cells *)
Lemma reorder_perm sizes D : NoDup D -> (forall d, In d D <-> 0 <= d < Z.of_nat (length sizes)) ->
  Permutation (map (proj D) (all_indices sizes)) (all_indices (proj D sizes)).
Proof.
  intros Hnd Hcov.
  assert (valid_dims (length sizes) D) as Hv by (apply Forall_forall; intros d; now rewrite Hcov).
  apply NoDup_Permutation.
  - assert (forall l, NoDup l -> (forall i, In i l -> index_in sizes i) -> NoDup (map (proj D) l)) as G.
    { induction 1 as [|i l Hi Hl IH]; intros Hin; simpl; constructor; [|apply IH; intros; apply Hin; now right].
      intros Hm. apply in_map_iff in Hm as (j & E & Hj). apply Hi. replace i with j; auto.
      assert (length j = length sizes) by (apply index_in_length, Hin; now right).
      assert (length i = length sizes) by (apply index_in_length, Hin; now left).
      apply nth_ext with 0 0; [lia|]. intros n Hn. 
      assert (In (Z.of_nat n) D) as Hd by (apply Hcov; lia). apply In_nth with (d := 0) in Hd as (p & Hp & Ep).
      assert (nth p (proj D j) 0 = nth p (proj D i) 0) as E' by now rewrite E.
      rewrite !nth_proj in E' by auto. rewrite Ep, Nat2Z.id in E'. exact E'. }
    apply G; [apply NoDup_all_indices|]. intros i. apply in_all_indices.
  - apply NoDup_all_indices.
  - intros k. rewrite in_map_iff, in_all_indices. split.
    + intros (i & <- & Hi). apply in_all_indices in Hi. apply index_in_proj; auto.
    + intros Hk. assert (length k = length D) as Hl by (rewrite (index_in_length _ _ Hk); apply proj_length).
      exists (writes D k (repeat 0 (length sizes))).
      assert (proj D (writes D k (repeat 0 (length sizes))) = k) as E by (apply proj_writes; auto; now rewrite repeat_length).
      split; auto. apply in_all_indices. apply index_in_nth.
      assert (length (writes D k (repeat 0 (length sizes))) = length sizes) as Hlw by (rewrite length_writes, repeat_length; auto).
      split; [auto|]. intros n Hn. assert (In (Z.of_nat n) D) as Hd by (apply Hcov; lia).
      apply In_nth with (d := 0) in Hd as (p & Hp & Ep).
      rewrite <- E in Hk. apply index_in_nth in Hk as [_ Hk].
      specialize (Hk p). rewrite proj_length in Hk. specialize (Hk Hp). rewrite !nth_proj in Hk by auto. rewrite Ep, Nat2Z.id in Hk. exact Hk.
Qed.
Lemma total_reorder sizes D h : NoDup D -> (forall d, In d D <-> 0 <= d < Z.of_nat (length sizes)) ->
  total sizes (fun i => h (proj D i)) = total (proj D sizes) h.
Proof.
  intros Hnd Hcov. unfold total. apply sumZ_perm. rewrite <- (map_map (proj D) h). apply Permutation_map. now apply reorder_perm.
Qed.

(** the product of the marginals at a state *)
Definition prodv (cs : list con) (i : list Z) : Z := fold_right (fun c p => c_at c (proj (c_dims c) i) * p) 1 cs.
Definition totals (cs : list con) : Z := fold_right (fun c p => c_total c * p) 1 cs.

Fixpoint seg (cs : list con) (i : list Z) : Z :=
  match cs with
  | [] => 1
  | c :: cs' => c_at c (firstn (length (c_sizes c)) i) * seg cs' (skipn (length (c_sizes c)) i)
  end.

Lemma sumZ_map_mul {A} k (f : A -> Z) l : sumZ (map (fun x => k * f x) l) = k * sumZ (map f l).
Proof. induction l; simpl; lia. Qed.

Lemma total_seg cs : total (flat_map c_sizes cs) (seg cs) = totals cs.
Proof.
  induction cs as [|c cs IH]; [reflexivity|]. cbn [flat_map totals fold_right]. fold (totals cs). unfold total.
  rewrite all_indices_app, map_flat_map, sumZ_flat_map.
  rewrite (sumZ_map_ext _ (fun a => totals cs * c_at c a)).
  - rewrite sumZ_map_mul. unfold c_total, total. lia.
  - intros a Ha. apply in_all_indices, index_in_length in Ha. rewrite map_map.
    rewrite (sumZ_map_ext _ (fun b => c_at c a * seg cs b)).
    + rewrite sumZ_map_mul. rewrite <- IH. unfold total. lia.
    + intros b _. cbn [seg]. rewrite <- Ha. rewrite firstn_app, firstn_all, Nat.sub_diag, skipn_app, skipn_all, Nat.sub_diag.
      simpl. now rewrite app_nil_r.
Qed.

Lemma seg_proj cs i : (forall c, In c cs -> length (c_dims c) = length (c_sizes c)) -> seg cs (proj (flat_map c_dims cs) i) = prodv cs i.
Proof.
  induction cs as [|c cs IH]; intros Hl; [reflexivity|]. cbn [seg flat_map prodv fold_right]. fold (prodv cs i).
  unfold proj at 1 2. rewrite map_app. fold (proj (c_dims c) i). fold (proj (flat_map c_dims cs) i).
  rewrite <- (Hl c) by now left. rewrite <- (proj_length (c_dims c) i).
  rewrite firstn_app, firstn_all, Nat.sub_diag, skipn_app, skipn_all, Nat.sub_diag. cbn [firstn skipn app].
  rewrite app_nil_r, IH; auto. intros. apply Hl. now right.
Qed.

Lemma proj_flat_map cs sizes : (forall c, In c cs -> proj (c_dims c) sizes = c_sizes c) ->
  proj (flat_map c_dims cs) sizes = flat_map c_sizes cs.
Proof.
  induction cs as [|c cs IH]; intros H; [reflexivity|]. cbn [flat_map]. unfold proj. rewrite map_app.
  fold (proj (c_dims c) sizes). fold (proj (flat_map c_dims cs) sizes). rewrite IH, H; auto; [now left|]. intros. apply H. now right.
Qed.

Lemma disjoint_NoDup cs : disjoint cs -> NoDup (flat_map c_dims cs).
Proof.
  induction cs as [|c cs IH]; intros [H1 H2]; [constructor|]. cbn [flat_map].
  assert (NoDup (flat_map c_dims cs)) as Hrest.
  { apply IH. split; [intros; apply H1; now right|]. intros pre a mid b post d E. apply (H2 (c :: pre) a mid b post d). simpl. now rewrite E. }
  assert (forall d, In d (c_dims c) -> ~ In d (flat_map c_dims cs)) as Hd.
  { intros d Hd Hin. apply in_flat_map in Hin as (c' & Hc' & Hd'). apply in_split in Hc' as (mid & post & ->).
    apply (H2 [] c mid c' post d); auto. }
  pose proof (H1 c (or_introl eq_refl)) as Hc. clear - Hc Hrest Hd. induction Hc as [|x l Hx Hl IH]; auto. simpl. constructor.
  - rewrite in_app_iff. intros [?|Hin]; [tauto|]. apply (Hd x); auto. now left.
  - apply IH. intros d Hd'. apply Hd. now right.
Qed.

(** the sum of the products is the product of the sums *)
Lemma total_prodv cs sizes : implied cs sizes -> NoDup (flat_map c_dims cs) -> total sizes (prodv cs) = totals cs.
Proof.
  intros [Hcov Hs] Hnd. rewrite <- total_seg, <- (proj_flat_map cs sizes) by (intros; now apply Hs).
  rewrite <- total_reorder; auto.
  - apply sumZ_map_ext. intros i _. symmetry. apply seg_proj. intros. now apply Hs.
  - intros d. rewrite <- Hcov. rewrite in_flat_map. reflexivity.
Qed.

Lemma prodv_cons c cs i : prodv (c :: cs) i = c_at c (proj (c_dims c) i) * prodv cs i. Proof. reflexivity. Qed.
Lemma totals_cons c cs : totals (c :: cs) = c_total c * totals cs. Proof. reflexivity. Qed.
Lemma prodv_app cs cs' i : prodv (cs ++ cs') i = prodv cs i * prodv cs' i.
Proof.
  induction cs as [|c cs IH]; cbn [app]; [change (prodv [] i) with 1; lia|]. rewrite !prodv_cons, IH. lia.
Qed.
Lemma totals_app cs cs' : totals (cs ++ cs') = totals cs * totals cs'.
Proof. induction cs as [|c cs IH]; cbn [app]; [change (totals []) with 1; lia|]. rewrite !totals_cons, IH. lia. Qed.
Lemma totals_const cs n : (forall c, In c cs -> c_total c = n) -> totals cs = n ^ Z.of_nat (length cs).
Proof.
  induction cs as [|c cs IH]; intros H; [reflexivity|]. rewrite totals_cons. cbn [length].
  rewrite Nat2Z.inj_succ. rewrite Z.pow_succ_r by apply Nat2Z.is_nonneg. rewrite IH by (intros; apply H; now right). rewrite H by now left. reflexivity.
Qed.

Lemma margin_prodv pre c post sizes k : let cs := pre ++ c :: post in implied cs sizes -> NoDup (flat_map c_dims cs) ->
  index_in (c_sizes c) k -> margin sizes (c_dims c) k (prodv cs) = totals pre * c_at c k * totals post.
Proof.
  intros cs Himp Hnd Hk. set (c' := CON (c_dims c) (c_sizes c) (fun j => if idx_eqb j k then c_at c j else 0)).
  assert (implied (pre ++ c' :: post) sizes) as Himp'.
  { destruct Himp as [H1 H2]. split.
    - intros d. rewrite <- H1. split; intros (x & Hx & Hd); unfold cs in *; rewrite in_app_iff in Hx; simpl in Hx.
      + destruct Hx as [Hx|[<-|Hx]].
        * exists x. rewrite in_app_iff. auto.
        * exists c. rewrite in_app_iff. simpl. auto.
        * exists x. rewrite in_app_iff. simpl. auto.
      + destruct Hx as [Hx|[<-|Hx]].
        * exists x. rewrite in_app_iff. auto.
        * exists c'. rewrite in_app_iff. simpl. auto.
        * exists x. rewrite in_app_iff. simpl. auto.
    - intros x Hx. rewrite in_app_iff in Hx. simpl in Hx. destruct Hx as [Hx|[<-|Hx]].
      + apply H2. unfold cs. rewrite in_app_iff. auto.
      + apply (H2 c). unfold cs. rewrite in_app_iff. simpl. auto.
      + apply H2. unfold cs. rewrite in_app_iff. simpl. auto. }
  assert (NoDup (flat_map c_dims (pre ++ c' :: post))) as Hnd'.
  { unfold cs in Hnd. rewrite flat_map_app in *. exact Hnd. }
  pose proof (total_prodv _ _ Himp' Hnd') as E. rewrite totals_app in E. rewrite totals_cons in E.
  assert (c_total c' = c_at c k) as Ec.
  { unfold c_total, total. cbn [c_sizes c_at c']. rewrite (sumZ_map_ext _ (fun x => if list_eq_dec Z.eq_dec x k then c_at c k else 0)).
    - apply sum_one; [apply NoDup_all_indices|now apply in_all_indices].
    - intros x _. unfold c'. cbn [c_at]. unfold idx_eqb. destruct list_eq_dec; subst; auto. }
  rewrite Ec in E. rewrite <- Z.mul_assoc, <- E. unfold margin, sum_where, total. rewrite sum_filter. apply sumZ_map_ext.
  intros i _. unfold cs. rewrite !prodv_app, !prodv_cons. cbn [c_at c_dims c'].
  destruct idx_eqb; lia.
Qed.

(** * Rounding *)

Lemma RN_rel x : x = 0%R \/ (p2 (-1022) <= x)%R -> (Rabs (RN x - x) <= p2 (-53) * x)%R.
Proof.
  intros [->|H]; [rewrite RN_0, Rminus_0_r, Rabs_R0; lra|].
  pose proof (relative_error_N_FLT radix2 (-1074) 53 eq_refl (fun z => negb (Z.even z)) x) as E.
  rewrite <- fx_FLT in E. fold (RN x) in E. pose proof (bpow_gt_0 radix2 (-1022)).
  rewrite (Rabs_pos_eq x) in E by lra. replace (p2 (-53)) with (/ 2 * p2 (-53 + 1))%R; [apply E; exact H|].
  replace (/ 2)%R with (p2 (-1)) by (simpl; lra). rewrite <- bpow_plus. reflexivity.
Qed.

Lemma sum_fin l ns : Forall2 (fun x n => fin x (IZR n)) l ns -> forall a acc, (forall n, In n ns -> 0 <= n) -> 0 <= acc ->
  acc + sumZ ns <= 2 ^ 53 -> fin a (IZR acc) -> fin (fold_left d_add l a) (IZR (acc + sumZ ns)).
Proof.
  induction 1 as [|x n l ns Hx Hl IH]; intros a acc Hn Ha Hb Hf; simpl in *; [now rewrite Z.add_0_r|].
  assert (0 <= n) by auto. assert (0 <= sumZ ns) by (apply sumZ_nonneg; auto). rewrite Z.add_assoc. apply IH; auto; try lia.
  rewrite plus_IZR. apply (d_add_exact _ _ _ _ Hf Hx).
  - rewrite <- plus_IZR. apply repr_Z. lia.
  - rewrite <- plus_IZR. apply (fin_bound (d_ofZ (acc + n))). apply d_ofZ_exact. lia.
Qed.

Lemma prod_fin pop i cs : 0 < pop <= 2 ^ 53 -> forall v a, (forall c, In c cs -> 0 <= c_at c (proj (c_dims c) i) <= pop) -> 0 <= a ->
  a * pop ^ Z.of_nat (length cs) <= 2 ^ 53 -> fin v (IZR a) ->
  fin (fold_left (fun v c => d_mul v (d_ofZ (c_at c (proj (c_dims c) i)))) cs v) (IZR (a * prodv cs i)) /\ 0 <= prodv cs i.
Proof.
  intros Hp. induction cs as [|c cs IH]; intros v a Hc Ha Hb Hv; cbn [fold_left prodv fold_right length].
  - rewrite Z.mul_1_r. split; [auto|]. simpl. lia.
  - fold (prodv cs i). destruct (Hc c (or_introl eq_refl)) as [Hc0 Hc1]. set (x := c_at c (proj (c_dims c) i)) in *.
    cbn [length] in Hb. rewrite Nat2Z.inj_succ, Z.pow_succ_r in * by lia.
    assert (1 <= pop ^ Z.of_nat (length cs)) as Hq.
    { change 1 with (pop ^ 0). apply Z.pow_le_mono_r; lia. }
    assert (0 <= a * x <= a * pop) as Hax by (split; [now apply Z.mul_nonneg_nonneg|now apply Z.mul_le_mono_nonneg_l]).
    assert (a * x * pop ^ Z.of_nat (length cs) <= 2 ^ 53) as Hax2.
    { eapply Z.le_trans; [apply Z.mul_le_mono_nonneg_r with (m := a * pop); lia|]. lia. }
    assert (a * x <= 2 ^ 53) as Hax3.
    { eapply Z.le_trans; [|exact Hax2]. rewrite <- (Z.mul_1_r (a * x)) at 1. apply Z.mul_le_mono_nonneg_l; lia. }
    destruct (IH (d_mul v (d_ofZ x)) (a * x)) as [IH1 IH2]; auto; try lia.
    { intros; apply Hc; now right. }
    { rewrite mult_IZR. apply (d_mul_exact _ _ _ _ Hv (d_ofZ_exact x ltac:(lia))).
      - rewrite <- mult_IZR. apply repr_Z. lia.
      - rewrite <- mult_IZR. apply (fin_bound (d_ofZ (a * x))). apply d_ofZ_exact. lia. }
    split; [|now apply Z.mul_nonneg_nonneg]. now rewrite Z.mul_assoc.
Qed.

Lemma sumR_close {A} e (f g : A -> R) l : (forall i, In i l -> Rabs (f i - g i) <= e * g i)%R ->
  (Rabs (sumR (map f l) - sumR (map g l)) <= e * sumR (map g l))%R.
Proof.
  induction l as [|x l IH]; intros H; simpl.
  - rewrite Rminus_0_r, Rabs_R0. lra.
  - pose proof (H x (or_introl eq_refl)) as Hx. specialize (IH (fun i Hi => H i (or_intror Hi))).
    replace (f x + sumR (map f l) - (g x + sumR (map g l)))%R with ((f x - g x) + (sumR (map f l) - sumR (map g l)))%R by ring.
    eapply Rle_trans; [apply Rabs_triang|]. lra.
Qed.
Lemma sumR_scale {A} k (f : A -> Z) l : sumR (map (fun i => IZR (f i) * k)%R l) = (IZR (sumZ (map f l)) * k)%R.
Proof. induction l as [|x l IH]; simpl; [lra|]. rewrite IH, plus_IZR. ring. Qed.

Lemma Forall2_map_same {A B C} (P : B -> C -> Prop) (f : A -> B) (g : A -> C) l : (forall x, In x l -> P (f x) (g x)) -> Forall2 P (map f l) (map g l).
Proof. induction l; simpl; intros H; constructor; auto. Qed.

Section Expect.
Context (cs : list con) (sizes : list Z) (pop : Z).
Context (Himp : implied cs sizes) (Hnn : forall c, In c cs -> nonneg c) (Htot : forall c, In c cs -> c_total c = pop).
Context (Hnd : NoDup (flat_map c_dims cs)) (Hpop : 0 < pop) (Hlen : (1 <= length cs)%nat)
        (Hexact : pop ^ Z.of_nat (length cs) <= 2 ^ 53).

Lemma pop_le : pop <= 2 ^ 53.
Proof.
  eapply Z.le_trans; [|exact Hexact]. rewrite <- (Z.pow_1_r pop) at 1. apply Z.pow_le_mono_r; lia.
Qed.

Lemma cell_bound c i : In c cs -> index_in sizes i -> 0 <= c_at c (proj (c_dims c) i) <= pop.
Proof.
  intros Hc Hi. assert (index_in (c_sizes c) (proj (c_dims c) i)) as Hk by now apply (proj_in cs sizes).
  split; [now apply Hnn|]. rewrite <- (Htot c Hc). unfold c_total.
  replace (c_at c (proj (c_dims c) i)) with (sumZ (map (c_at c) [proj (c_dims c) i])) by (simpl; lia). apply sumZ_incl.
  - constructor; [easy|constructor].
  - intros x [<-|[]]. now apply in_all_indices.
  - intros x Hx. apply (Hnn c Hc). now apply in_all_indices.
Qed.

Lemma state_fin i : index_in sizes i -> fin (state_value cs i) (IZR (prodv cs i)) /\ 0 <= prodv cs i.
Proof.
  intros Hi. destruct (prod_fin pop i cs ltac:(pose proof pop_le; lia) d_one 1) as [H1 H2]; auto; try lia.
  - intros c Hc. now apply cell_bound.
  - apply fin_one.
  - split; auto. now rewrite Z.mul_1_l in H1.
Qed.

Lemma total_fin : fin (sv_total cs sizes) (IZR (pop ^ Z.of_nat (length cs))).
Proof.
  unfold sv_total. rewrite <- (totals_const cs pop Htot), <- (total_prodv cs sizes Himp Hnd).
  assert (total sizes (prodv cs) = 0 + sumZ (map (prodv cs) (all_indices sizes))) as -> by reflexivity.
  apply sum_fin; try lia.
  - apply Forall2_map_same. intros i Hi. apply state_fin. now apply in_all_indices.
  - intros n Hn. apply in_map_iff in Hn as (i & <- & Hi). apply state_fin. now apply in_all_indices.
  - fold (total sizes (prodv cs)). rewrite (total_prodv cs sizes Himp Hnd), (totals_const cs pop Htot). lia.
  - apply fin_zero.
Qed.

Lemma expect_close i : index_in sizes i -> let w := (IZR (prodv cs i) * (IZR pop / IZR (pop ^ Z.of_nat (length cs))))%R in
  is_finite (expectation cs sizes pop i) = true /\ (Rabs (B2R (expectation cs sizes pop i) - w) <= p2 (-51) * w)%R.
Proof.
  intros Hi w. destruct (state_fin i Hi) as [Hv Hv0]. pose proof total_fin as Ht. pose proof pop_le.
  set (T := pop ^ Z.of_nat (length cs)) in *.
  assert (pop <= T) as HpT.
  { unfold T. rewrite <- (Z.pow_1_r pop) at 1. apply Z.pow_le_mono_r; lia. }
  assert (0 < IZR pop)%R as Hp0 by (apply IZR_lt; lia). assert (0 < IZR T)%R as HT0 by (apply IZR_lt; lia).
  assert (prodv cs i <= T) as HvT.
  { unfold T. rewrite <- (totals_const cs pop Htot), <- (total_prodv cs sizes Himp Hnd). unfold total.
    replace (prodv cs i) with (sumZ (map (prodv cs) [i])) by (simpl; lia). apply sumZ_incl.
    - constructor; [easy|constructor].
    - intros x [<-|[]]. now apply in_all_indices.
    - intros x Hx. apply state_fin. now apply in_all_indices. }
  set (q := (IZR pop / IZR T)%R) in *.
  assert (q <= 1)%R as Hq1.
  { unfold q. apply Rmult_le_reg_r with (IZR T); auto. unfold Rdiv. rewrite Rmult_assoc, Rinv_l, Rmult_1_r, Rmult_1_l by lra. apply IZR_le. lia. }
  assert (p2 (-53) <= q)%R as Hq0.
  { unfold q. apply Rmult_le_reg_r with (IZR T); auto. unfold Rdiv. rewrite Rmult_assoc, Rinv_l, Rmult_1_r by lra.
    apply Rle_trans with (p2 (-53) * IZR (2 ^ 53))%R; [apply Rmult_le_compat_l; [apply bpow_ge_0|apply IZR_le; lia]|].
    rewrite IZR_p2, <- bpow_plus by lia. simpl. apply IZR_le. lia. }
  assert (p2 (-1022) <= p2 (-53))%R as Hbig by (apply bpow_le; lia).
  assert (RN q <= 1)%R as Hrq1 by (apply RN_le_repr; auto; apply (repr_Z 1); lia).
  assert (p2 (-53) <= RN q)%R as Hrq0 by (apply RN_ge_repr; auto; apply repr_p2; lia).
  assert (0 < p2 (-53))%R as Hu by apply bpow_gt_0.
  assert (1 < p2 1024)%R as H1 by (change 1%R with (p2 0); apply bpow_lt; lia).
  assert (fin (d_div (d_ofZ pop) (sv_total cs sizes)) (RN q)) as Hs.
  { apply d_div_round; auto; [apply d_ofZ_exact; lia|lra|]. fold q. rewrite Rabs_pos_eq; lra. }
  pose proof (RN_rel q ltac:(right; lra)) as Eq.
  assert (0 <= IZR (prodv cs i) <= IZR T)%R as HvR by (split; apply IZR_le; lia).
  set (v := IZR (prodv cs i)) in *.
  assert (v = 0 \/ 1 <= v)%R as Hv1.
  { destruct (Z.eq_dec (prodv cs i) 0) as [E|]; [left; unfold v; now rewrite E|right; apply IZR_le; lia]. }
  assert (v * RN q = 0 \/ p2 (-1022) <= v * RN q)%R as Hvq.
  { destruct Hv1 as [->|]; [left; ring|right]. apply Rle_trans with (1 * p2 (-53))%R; [lra|]. apply Rmult_le_compat; lra. }
  pose proof (RN_rel _ Hvq) as Ev.
  assert (IZR T <= p2 53)%R as HT53 by (rewrite <- IZR_p2 by lia; apply IZR_le; lia).
  assert (0 <= v * RN q <= p2 53)%R as Hvb.
  { split; [apply Rmult_le_pos; lra|]. rewrite <- (Rmult_1_r (p2 53)). apply Rmult_le_compat; lra. }
  assert (fin (expectation cs sizes pop i) (RN (v * RN q))) as He.
  { unfold expectation. apply d_mul_round; auto. rewrite Rabs_pos_eq by (apply RN_nonneg; lra).
    apply Rle_lt_trans with (p2 53); [apply RN_le_repr; [apply repr_p2; lia|lra]|apply bpow_lt; lia]. }
  destruct He as [He1 He2]. split; auto. rewrite He2.
  assert (w = v * q)%R as Ew by reflexivity.
  assert (Rabs (v * RN q - w) <= p2 (-53) * w)%R as E1.
  { rewrite Ew. replace (v * RN q - v * q)%R with (v * (RN q - q))%R by ring. rewrite Rabs_mult, (Rabs_pos_eq v) by lra.
    apply Rle_trans with (v * (p2 (-53) * q))%R; [apply Rmult_le_compat_l; lra|]. right. ring. }
  assert (0 <= w)%R as Hw by (rewrite Ew; apply Rmult_le_pos; lra).
  assert (v * RN q <= 2 * w)%R as E2.
  { apply Rabs_le_inv in E1. assert (p2 (-53) <= 1)%R by (change 1%R with (p2 0); apply bpow_le; lia).
    assert (p2 (-53) * w <= 1 * w)%R by (apply Rmult_le_compat_r; lra). lra. }
  replace (RN (v * RN q) - w)%R with ((RN (v * RN q) - v * RN q) + (v * RN q - w))%R by ring.
  eapply Rle_trans; [apply Rabs_triang|].
  assert (p2 (-51) = 4 * p2 (-53))%R as ->.
  { replace 4%R with (p2 2) by (simpl; lra). rewrite <- bpow_plus. reflexivity. }
  assert (p2 (-53) * (v * RN q) <= p2 (-53) * (2 * w))%R by (apply Rmult_le_compat_l; lra).
  assert (0 <= p2 (-53) * w)%R by (apply Rmult_le_pos; lra). lra.
Qed.

Lemma expect_margin c k : In c cs -> index_in (c_sizes c) k ->
  (Rabs (marginR sizes (c_dims c) k (fun i => B2R (expectation cs sizes pop i)) - IZR (c_at c k)) <= p2 (-51) * IZR (c_at c k))%R.
Proof.
  intros Hc Hk. set (T := pop ^ Z.of_nat (length cs)).
  assert (sumR (map (fun i => IZR (prodv cs i) * (IZR pop / IZR T))%R (filter (fun i => idx_eqb (proj (c_dims c) i) k) (all_indices sizes)))
     = IZR (c_at c k)) as E.
  { rewrite sumR_scale. fold (sum_where sizes (fun i => idx_eqb (proj (c_dims c) i) k) (prodv cs)).
    fold (margin sizes (c_dims c) k (prodv cs)). apply in_split in Hc as (pre & post & Ecs).
    pose proof (margin_prodv pre c post sizes k) as M. cbv zeta in M. rewrite <- Ecs in M. rewrite M by auto.
    assert (T = totals pre * pop * totals post) as ET.
    { unfold T. rewrite <- (totals_const cs pop Htot). rewrite Ecs, totals_app, totals_cons.
      rewrite Htot by (rewrite Ecs, in_app_iff; simpl; auto). lia. }
    assert (T <> 0) by (unfold T; apply Z.pow_nonzero; lia).
    rewrite ET. rewrite !mult_IZR.
    assert (IZR (totals pre) <> 0)%R by (apply not_0_IZR; intros E; rewrite E in ET; lia).
    assert (IZR (totals post) <> 0)%R by (apply not_0_IZR; intros E; rewrite E in ET; lia).
    assert (IZR pop <> 0)%R by (apply not_0_IZR; lia). field. auto. }
  rewrite <- E. unfold marginR. apply sumR_close. intros i Hi. apply filter_In in Hi as [Hi _]. apply in_all_indices in Hi.
  now apply expect_close.
Qed.
End Expect.

(** C07 for disjoint marginals *)
Lemma expect_claim L fuel ilist mlist skips res : in_range ilist mlist -> disjoint (cons_of ilist mlist) ->
  py_qis L fuel ilist mlist skips = Ok res -> 0 < qr_pop res -> qr_pop res ^ Z.of_nat (length (cons_of ilist mlist)) <= 2 ^ 53 ->
  shape (qr_expectation res) = shape (qr_pop_array res) /\ all_finite (qr_expectation res) /\
  forall c k, In c (cons_of ilist mlist) -> index_in (c_sizes c) k ->
    (Rabs (marginR (shape (qr_expectation res)) (c_dims c) k (entryR (qr_expectation res)) - IZR (c_at c k)) <= IZR (c_at c k) / 2 ^ 51)%R.
Proof.
  intros Hr Hd E Hpop Hex. destruct (qis_ok_inv L fuel ilist mlist skips res Hr E) as (sizes & r & Hvc & Hf & Hc & _ & Ht & -> & -> & _).
  set (cs := cons_of ilist mlist) in *. pose proof Hvc as (Hl & Himp & _ & Hnn & _). cbn [shape].
  pose proof (disjoint_NoDup cs Hd) as Hnd. split; auto.
  assert (forall i, index_in sizes i -> entry d_zero (NDA sizes (map (expectation cs sizes (qr_pop res)) (all_indices sizes))) i =
     expectation cs sizes (qr_pop res) i) as Ee.
  { intros i Hi. apply entry_NDA_map; auto. }
  split.
  - intros i Hi. cbn [shape] in Hi. rewrite Ee by auto. apply expect_close; auto. lia.
  - intros c k Hin Hk.
    assert (marginR sizes (c_dims c) k (entryR (NDA sizes (map (expectation cs sizes (qr_pop res)) (all_indices sizes)))) =
            marginR sizes (c_dims c) k (fun i => B2R (expectation cs sizes (qr_pop res) i))) as ->.
    { unfold marginR. f_equal. apply map_ext_in. intros i Hi. apply filter_In in Hi as [Hi _]. apply in_all_indices in Hi.
      unfold entryR. now rewrite Ee. }
    replace (IZR (c_at c k) / 2 ^ 51)%R with (p2 (-51) * IZR (c_at c k))%R.
    + apply expect_margin; auto. lia.
    + unfold Rdiv. rewrite Rmult_comm. f_equal. rewrite <- (Rinv_inv (p2 (-51))).
      f_equal. rewrite <- bpow_opp. rewrite <- IZR_p2 by lia. rewrite pow_IZR. reflexivity.
Qed.
