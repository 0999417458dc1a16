(** ipf on a unit seed with disjoint marginals: one round gives the table of independence. *)
From Coq Require Import Reals Psatz Permutation.
From Flocq Require Import Core.Core IEEE754.BinarySingleNaN Relative.
From Verif Require Import Base Spec SpecFacts NDArray IndexProofs Float64 FloatProofs FloatExt ArrayOps ArrayProofs Bind BindProofs
  SynthSpec SampleProofs QisExpect RealSpec ExpectRound IpfSpec IpfFitSpec IpfRoundSpec IntegeriseDbl IpfRound IndepSpec.
Open Scope R_scope.

(** * Sums of products of real factors *)

Lemma sumR_perm l l' : Permutation l l' -> sumR l = sumR l'.
Proof. induction 1; simpl; lra. Qed.
Lemma sumR_app l l' : sumR (l ++ l') = sumR l + sumR l'.
Proof. induction l as [|x l IH]; simpl; [lra|]. fold (sumR l) (sumR (l ++ l')). lra. Qed.
Lemma sumR_flat_map {A B} (f : A -> list B) (g : B -> R) l : sumR (map g (flat_map f l)) = sumR (map (fun a => sumR (map g (f a))) l).
Proof. induction l as [|x l IH]; [reflexivity|]. cbn [flat_map map]. rewrite map_app, sumR_app, IH. reflexivity. Qed.
Lemma sumR_ext {A} (f g : A -> R) l : (forall x, In x l -> f x = g x) -> sumR (map f l) = sumR (map g l).
Proof. intros H. f_equal. now apply map_ext_in. Qed.
Lemma sumR_mul {A} k (f : A -> R) l : sumR (map (fun x => k * f x) l) = k * sumR (map f l).
Proof. induction l as [|x l IH]; simpl; [lra|]. fold (sumR (map f l)) (sumR (map (fun x => k * f x) l)). rewrite IH. ring. Qed.
Lemma sumR_filter {A} (p : A -> bool) (f : A -> R) l : sumR (map f (filter p l)) = sumR (map (fun x => if p x then f x else 0) l).
Proof. induction l as [|x l IH]; simpl; auto. destruct (p x); simpl; fold (sumR (map f (filter p l))); rewrite IH; unfold sumR; lra. Qed.
Lemma sumR_nonneg {A} (f : A -> R) l : (forall x, In x l -> 0 <= f x) -> 0 <= sumR (map f l).
Proof.
  induction l as [|x l IH]; intros H; simpl; [lra|]. fold (sumR (map f l)). specialize (IH (fun y Hy => H y (or_intror Hy))).
  pose proof (H x (or_introl eq_refl)). lra.
Qed.
Lemma sumR_zero {A} (f : A -> R) l : (forall x, In x l -> f x = 0) -> sumR (map f l) = 0.
Proof.
  induction l as [|x l IH]; intros H; simpl; [lra|]. fold (sumR (map f l)). rewrite (H x) by now left. rewrite IH; [lra|]. intros; apply H; now right.
Qed.
Lemma sumR_one {A} (dec : forall x y : A, {x = y} + {x <> y}) c v l : NoDup l -> In c l -> sumR (map (fun x => if dec x c then v else 0) l) = v.
Proof.
  induction 1 as [|x l Hx Hl IH]; intros Hc; [easy|]. cbn [map]. change (sumR (?a :: ?b)) with (a + sumR b). destruct (dec x c) as [->|Hn].
  - rewrite sumR_zero; [lra|]. intros y Hy. destruct (dec y c) as [->|]; [contradiction|reflexivity].
  - destruct Hc as [->|Hc]; [contradiction|]. rewrite IH by auto. lra.
Qed.

Definition prodR (rs : list (gcon R)) (i : list Z) : R := fold_right (fun c p => g_at c (proj (g_dims c) i) * p) 1 rs.
Definition totR (c : gcon R) : R := totalR (g_sizes c) (g_at c).
Definition totsR (rs : list (gcon R)) : R := fold_right (fun c p => totR c * p) 1 rs.

Fixpoint segR (rs : list (gcon R)) (i : list Z) : R :=
  match rs with
  | [] => 1
  | c :: rs' => g_at c (firstn (length (g_sizes c)) i) * segR rs' (skipn (length (g_sizes c)) i)
  end.

Lemma total_segR rs : totalR (flat_map g_sizes rs) (segR rs) = totsR rs.
Proof.
  induction rs as [|c rs IH]; [unfold totalR; cbn; lra|]. cbn [flat_map totsR fold_right]. fold (totsR rs). unfold totalR.
  rewrite all_indices_app, sumR_flat_map.
  rewrite (sumR_ext _ (fun a => totsR rs * g_at c a)).
  - rewrite sumR_mul. unfold totR, totalR. ring.
  - intros a Ha. apply in_all_indices, index_in_length in Ha. rewrite map_map.
    rewrite (sumR_ext _ (fun b => g_at c a * segR rs b)).
    + rewrite sumR_mul. rewrite <- IH. unfold totalR. ring.
    + intros b _. cbn [segR]. rewrite <- Ha. rewrite firstn_app, firstn_all, Nat.sub_diag, skipn_app, skipn_all, Nat.sub_diag.
      simpl. now rewrite app_nil_r.
Qed.
Lemma segR_proj rs i : (forall c, In c rs -> length (g_dims c) = length (g_sizes c)) -> segR rs (proj (flat_map g_dims rs) i) = prodR rs i.
Proof.
  induction rs as [|c rs IH]; intros Hl; [reflexivity|]. cbn [segR flat_map prodR fold_right]. fold (prodR rs i).
  unfold proj at 1 2. rewrite map_app. fold (proj (g_dims c) i). fold (proj (flat_map g_dims rs) i).
  rewrite <- (Hl c) by now left. rewrite <- (proj_length (g_dims c) i).
  rewrite firstn_app, firstn_all, Nat.sub_diag, skipn_app, skipn_all, Nat.sub_diag. cbn [firstn skipn app].
  rewrite app_nil_r, IH; auto. intros. apply Hl. now right.
Qed.
Lemma proj_flat_mapR (rs : list (gcon R)) sizes : (forall c, In c rs -> proj (g_dims c) sizes = g_sizes c) ->
  proj (flat_map g_dims rs) sizes = flat_map g_sizes rs.
Proof.
  induction rs as [|c rs IH]; intros H; [reflexivity|]. cbn [flat_map]. unfold proj. rewrite map_app.
  fold (proj (g_dims c) sizes). fold (proj (flat_map g_dims rs) sizes). rewrite IH, H; auto; [now left|]. intros. apply H. now right.
Qed.

(** the factors speak about each dimension exactly once *)
Definition each_once (rs : list (gcon R)) (sizes : list Z) : Prop :=
  NoDup (flat_map g_dims rs) /\ (forall d, In d (flat_map g_dims rs) <-> (0 <= d < Z.of_nat (length sizes))%Z) /\
  (forall c, In c rs -> length (g_dims c) = length (g_sizes c) /\ proj (g_dims c) sizes = g_sizes c).

Lemma total_prodR rs sizes : each_once rs sizes -> totalR sizes (prodR rs) = totsR rs.
Proof.
  intros (Hnd & Hcov & Hs). rewrite <- total_segR, <- (proj_flat_mapR rs sizes) by (intros; now apply Hs).
  unfold totalR. rewrite <- (sumR_perm _ _ (Permutation_map (segR rs) (reorder_perm sizes (flat_map g_dims rs) Hnd Hcov))).
  rewrite map_map. apply sumR_ext. intros i _. symmetry. apply segR_proj. intros. now apply Hs.
Qed.

Lemma prodR_app rs rs' i : prodR (rs ++ rs') i = prodR rs i * prodR rs' i.
Proof. induction rs as [|c rs IH]; [change (prodR [] i) with 1; cbn [app]; lra|].
  change (prodR ((c :: rs) ++ rs') i) with (g_at c (proj (g_dims c) i) * prodR (rs ++ rs') i).
  change (prodR (c :: rs) i) with (g_at c (proj (g_dims c) i) * prodR rs i). rewrite IH. ring. Qed.
Lemma totsR_app rs rs' : totsR (rs ++ rs') = totsR rs * totsR rs'.
Proof. induction rs as [|c rs IH]; [change (totsR []) with 1; cbn [app]; lra|].
  change (totsR ((c :: rs) ++ rs')) with (totR c * totsR (rs ++ rs')). change (totsR (c :: rs)) with (totR c * totsR rs). rewrite IH. ring. Qed.

Lemma margin_prodR pre c post sizes k : each_once (pre ++ c :: post) sizes -> index_in (g_sizes c) k ->
  marginR sizes (g_dims c) k (prodR (pre ++ c :: post)) = totsR pre * g_at c k * totsR post.
Proof.
  intros (Hnd & Hcov & Hs) Hk. set (c' := GC (g_dims c) (g_sizes c) (fun j => if idx_eqb j k then g_at c j else 0)).
  assert (each_once (pre ++ c' :: post) sizes) as Hp'.
  { assert (flat_map g_dims (pre ++ c' :: post) = flat_map g_dims (pre ++ c :: post)) as E by (rewrite !flat_map_app; reflexivity).
    split; [now rewrite E|]. split; [now rewrite E|]. intros x Hx. rewrite in_app_iff in Hx. cbn [In] in Hx.
    destruct Hx as [Hx|[<-|Hx]]; [apply Hs|apply (Hs c)|apply Hs]; rewrite in_app_iff; simpl; auto. }
  pose proof (total_prodR _ _ Hp') as E. rewrite totsR_app in E. cbn [totsR fold_right] in E. fold (totsR post) in E.
  assert (totR c' = g_at c k) as Ec.
  { unfold totR, totalR. cbn [g_sizes g_at c']. rewrite (sumR_ext _ (fun x => if list_eq_dec Z.eq_dec x k then g_at c k else 0)).
    - apply sumR_one; [apply NoDup_all_indices|now apply in_all_indices].
    - intros x _. unfold idx_eqb. destruct list_eq_dec; subst; auto. }
  rewrite Ec in E. rewrite Rmult_assoc, <- E. unfold marginR, totalR. rewrite sumR_filter. apply sumR_ext.
  intros i _. rewrite !prodR_app. cbn [prodR fold_right g_at g_dims c']. fold (prodR post i). destruct idx_eqb; ring.
Qed.

(** * Sums of non-negative doubles *)

Lemma sum_ok {A} (v : A -> double) (x : A -> R) l : (forall i, In i l -> fin (v i) (x i) /\ 0 <= x i) -> forall a y P j,
  fin a y -> 0 <= y -> 0 <= P -> rel j y P -> (P + sumR (map x l)) * EE ^ (j + length l) <= p2 1000 ->
  exists z, fin (fold_left d_add (map v l) a) z /\ 0 <= z /\ rel (j + length l) z (P + sumR (map x l)).
Proof.
  induction l as [|i l IH]; intros H a y P j Fa Pa HP Ra HB; cbn [map fold_left length].
  - exists y. change (sumR []) with 0. rewrite Rplus_0_r, Nat.add_0_r. auto.
  - cbn [map length] in HB. change (sumR (?a :: ?b)) with (a + sumR b) in *. destruct (H i (or_introl eq_refl)) as (Fi & Pi).
    assert (0 <= sumR (map x l)) as Hs by (apply sumR_nonneg; intros j' Hj; now apply H; right).
    assert (rel j (y + x i) (P + x i)) as Rs by (apply rel_add; [exact Ra|now apply rel_refl]).
    assert (RN (y + x i) <= p2 1000) as Hup.
    { apply RN_le_repr; [apply repr_p2; lia|]. destruct Rs as [_ Rs]. apply Rle_trans with (1 := Rs). apply Rle_trans with (2 := HB).
      apply Rmult_le_compat; [lra|pose proof (EE_pow j); lra|lra|]. apply Rle_pow; [left; apply EE_1|lia]. }
    assert (0 <= RN (y + x i)) as Hlo by (apply RN_nonneg; lra).
    destruct (IH (fun i' Hi' => H i' (or_intror Hi')) (d_add a (v i)) (RN (y + x i)) (P + x i) (S j)) as (z & Fz & Wz & Rz); auto; try lra.
    + apply d_add_round; auto. rewrite Rabs_pos_eq by exact Hlo. apply Rle_lt_trans with (1 := Hup). apply bpow_lt. lia.
    + replace (S j) with (1 + j)%nat by lia. apply rel_trans with (y + x i); [|exact Rs].
      apply rel_plus; auto; [now apply (fin_repr a)|now apply (fin_repr (v i))].
    + replace (S j + length l)%nat with (j + S (length l))%nat by lia. rewrite Rplus_assoc. exact HB.
    + exists z. split; [exact Fz|]. split; [exact Wz|]. replace (j + S (length l))%nat with (S j + length l)%nat by lia.
      rewrite <- Rplus_assoc. exact Rz.
Qed.

Lemma rel_low j a b L : EE ^ j <= 2 -> 0 <= a -> rel j a b -> b = 0 \/ L <= b -> a = 0 \/ L / 2 <= a.
Proof. intros H Ha [H1 H2] [->|Hb]; [left|right]; nra. Qed.
Lemma rel_high j a b U : EE ^ j <= 2 -> 0 <= b -> rel j a b -> b <= U -> a <= 2 * U.
Proof. intros H Hb [H1 H2] HU. nra. Qed.
Lemma rel_div j k x y z w : 0 <= x -> 0 <= y -> 0 < z -> 0 < w -> rel j x y -> rel k z w -> rel (j + k) (x / z) (y / w).
Proof.
  intros Hx Hy Hz Hw H1 H2. unfold Rdiv. apply rel_mul; auto; try (apply Rlt_le, Rinv_0_lt_compat; auto). now apply rel_inv.
Qed.

(** * One round *)

Definition cells (c : con) : R := INR (length (all_indices (c_sizes c))).
Definition one (c : con) : gcon R := GC (c_dims c) (c_sizes c) (fun _ => 1).
Definition same (x : gcon R) (c : con) : Prop := g_dims x = c_dims c /\ g_sizes x = c_sizes c.
Definition holds (g : gcon double) (c : con) : Prop := g_dims g = c_dims c /\ g_sizes g = c_sizes c /\
  forall k, index_in (c_sizes c) k -> g_at g k = d_ofZ (c_at c k).

Lemma sumR_1 {A} (l : list A) : sumR (map (fun _ => 1) l) = INR (length l).
Proof. induction l as [|x l IH]; [reflexivity|]. cbn [map length]. change (sumR (?a :: ?b)) with (a + sumR b). rewrite IH, S_INR. ring. Qed.
Lemma prodR_one l i : prodR (map one l) i = 1.
Proof.
  induction l as [|c l IH]; [reflexivity|]. change (prodR (map one (c :: l)) i) with (1 * prodR (map one l) i). rewrite IH. ring.
Qed.
Lemma same_dims rs l : Forall2 same rs l -> flat_map g_dims rs = flat_map c_dims l.
Proof. induction 1 as [|x c rs l [H1 H2] Hl IH]; [reflexivity|]. cbn [flat_map]. now rewrite H1, IH. Qed.
Lemma same_map (f : con -> gcon R) l : (forall c, same (f c) c) -> Forall2 same (map f l) l.
Proof. intros H. induction l; cbn [map]; constructor; auto. Qed.
Lemma same_in rs l x : Forall2 same rs l -> In x rs -> exists c, In c l /\ same x c.
Proof. induction 1 as [|y c rs l H Hl IH]; intros Hx; [easy|]. destruct Hx as [->|Hx]; [exists c; split; auto; now left|]. destruct (IH Hx) as (c' & ? & ?). exists c'. split; auto. now right. Qed.
Lemma EE_le j k : (j <= k)%nat -> EE ^ j <= EE ^ k.
Proof. intros H. apply Rle_pow; [left; apply EE_1|exact H]. Qed.

Section Indep.
Context (cs : list con) (sizes : list Z) (pop : Z).
Context (Himp : implied cs sizes) (Hnn : forall c, In c cs -> nonneg c) (Htot : forall c, In c cs -> c_total c = pop).
Context (Hnd : NoDup (flat_map c_dims cs)) (Hpos : positive sizes) (Hpop : (0 < pop)%Z) (Hlen : (1 <= length cs)%nat).
Let N := length (all_indices sizes).
Let K := length cs.
Let J := (K * (2 * N + K + 1))%nat.
Context (Hbound : (pop * Z.of_nat J <= 2 * 10 ^ 7)%Z).

Definition tf (c : con) : gcon R := GC (c_dims c) (c_sizes c) (fun k => IZR (c_at c k) * cells c / IZR pop).

Lemma N_ge : (1 <= N)%nat.
Proof.
  unfold N. pose proof (length_all_indices sizes (Forall_impl _ (fun n (H : (0 < n)%Z) => Z.lt_le_incl _ _ H) Hpos)) as E.
  assert (0 < prodZ sizes)%Z by now apply prodZ_pos. lia.
Qed.
Lemma J_ge : (2 * N <= J)%nat /\ (4 <= J)%nat.
Proof. pose proof N_ge. unfold J. fold K in Hlen. split; nia. Qed.
Lemma pop_J : (pop <= 5000000)%Z /\ (Z.of_nat J <= 20000000)%Z.
Proof. pose proof J_ge as [_ HJ]. change (2 * 10 ^ 7)%Z with 20000000%Z in Hbound. clear - Hpop Hbound HJ. split; nia. Qed.
Lemma N_le : (Z.of_nat N <= 10000000)%Z.
Proof. pose proof J_ge as [H _]. pose proof pop_J as [_ H2]. lia. Qed.
Lemma J_small : INR J * p2 (-52) <= / 2.
Proof.
  pose proof pop_J as [_ H]. apply IZR_le in H. rewrite <- INR_IZR_INZ in H.
  apply Rle_trans with (p2 25 * p2 (-52)).
  - apply Rmult_le_compat_r; [apply bpow_ge_0|]. apply Rle_trans with (1 := H). rewrite <- IZR_p2 by lia. apply IZR_le. lia.
  - rewrite <- bpow_plus. change (/ 2) with (p2 (-1)). apply bpow_le. lia.
Qed.
Lemma EE2 j : (j <= J)%nat -> EE ^ j <= 2.
Proof.
  intros Hj. apply Rle_trans with (EE ^ J); [now apply EE_le|]. apply Rle_trans with (1 := EE_bound _ J_small). pose proof J_small. lra.
Qed.
Lemma popR : 1 <= IZR pop <= IZR 5000000. Proof. split; apply IZR_le; [lia|apply pop_J]. Qed.
Lemma NR : 1 <= INR N <= IZR 10000000.
Proof. split; [apply (le_INR 1), N_ge|]. rewrite INR_IZR_INZ. apply IZR_le, N_le. Qed.

Lemma dims_ok c : In c cs -> Forall (fun d => (0 <= d < Z.of_nat (length sizes))%Z) (c_dims c).
Proof. intros Hc. apply Forall_forall. intros d Hd. apply Himp. eauto. Qed.
Lemma proj_ok c i : In c cs -> index_in sizes i -> index_in (c_sizes c) (proj (c_dims c) i).
Proof.
  intros Hc Hi. destruct Himp as [_ H]. destruct (H c Hc) as [_ <-]. apply index_in_proj; auto. now apply dims_ok.
Qed.
Lemma same_once rs : Forall2 same rs cs -> each_once rs sizes.
Proof.
  intros H. destruct Himp as [H1 H2]. unfold each_once. rewrite (same_dims _ _ H). split; [exact Hnd|]. split.
  - intros d. rewrite <- H1, in_flat_map. reflexivity.
  - intros x Hx. destruct (same_in _ _ _ H Hx) as (c & Hc & E1 & E2). rewrite E1, E2. now apply H2.
Qed.
Lemma cells_ge c : In c cs -> 1 <= cells c.
Proof.
  intros Hc. unfold cells. apply (le_INR 1). assert (In (hd [] (all_indices sizes)) (all_indices sizes)) as Hi.
  { pose proof N_ge as HN. unfold N in HN. destruct (all_indices sizes); [cbn in HN; lia|now left]. }
  apply in_all_indices in Hi. apply (proj_ok c) in Hi; auto. apply in_all_indices in Hi. destruct (all_indices (c_sizes c)); [easy|cbn; lia].
Qed.
Lemma tot_one c : totR (one c) = cells c. Proof. unfold totR, totalR, one, cells. cbn [g_sizes g_at]. apply sumR_1. Qed.
Lemma sum_c c : sumR (map (fun k => IZR (c_at c k)) (all_indices (c_sizes c))) = IZR (c_total c).
Proof.
  unfold c_total, total. induction (all_indices (c_sizes c)) as [|x l IH]; [reflexivity|]. cbn [map]. change (sumR (?a :: ?b)) with (a + sumR b).
  rewrite IH, <- plus_IZR. reflexivity.
Qed.
Lemma tot_tf c : In c cs -> totR (tf c) = cells c.
Proof.
  intros Hc. unfold totR, totalR, tf. cbn [g_sizes g_at]. pose proof popR.
  rewrite (sumR_ext _ (fun k => (cells c / IZR pop) * IZR (c_at c k))) by (intros; field; lra).
  rewrite sumR_mul, sum_c, (Htot c Hc). field. lra.
Qed.
Lemma tots_one_ge l : (forall c, In c l -> In c cs) -> 1 <= totsR (map one l).
Proof.
  induction l as [|c l IH]; intros H; [cbn; lra|]. change (totsR (map one (c :: l))) with (totR (one c) * totsR (map one l)).
  rewrite tot_one. pose proof (cells_ge c (H c (or_introl eq_refl))). specialize (IH (fun c' Hc' => H c' (or_intror Hc'))). nra.
Qed.
Lemma tots_one_all : totsR (map one cs) = INR N.
Proof.
  rewrite <- (total_prodR (map one cs) sizes) by (apply same_once, same_map; split; reflexivity).
  unfold totalR. rewrite (sumR_ext _ (fun _ => 1)) by (intros; apply prodR_one). apply sumR_1.
Qed.
Lemma c_bound c k : In c cs -> index_in (c_sizes c) k -> (0 <= c_at c k <= pop)%Z.
Proof.
  intros Hc Hk. split; [now apply Hnn|]. apply le_IZR. rewrite <- (Htot c Hc), <- sum_c.
  apply (IntegeriseProofs.sumR_ge1 (fun k => IZR (c_at c k))); [|now apply in_all_indices].
  intros j Hj. apply in_all_indices in Hj. apply IZR_le. now apply Hnn.
Qed.
Lemma c_single c k : In c cs -> index_in (c_sizes c) k -> cells c = 1 -> c_at c k = pop.
Proof.
  intros Hc Hk E. unfold cells in E. apply (INR_eq _ 1) in E. apply eq_IZR. rewrite <- (Htot c Hc), <- sum_c.
  apply in_all_indices in Hk. destruct (all_indices (c_sizes c)) as [|x [|]]; cbn in E; try lia. destruct Hk as [->|[]]. cbn. lra.
Qed.

(** the share of a cell times the number of cells of the marginal: zero, or neither tiny nor large *)
Lemma tf_range c k : In c cs -> index_in (c_sizes c) k -> let x := g_at (tf c) k in 0 <= x <= cells c /\ (x = 0 \/ / cells c ^ 24 <= x).
Proof.
  intros Hc Hk x. unfold x, tf. cbn [g_at]. pose proof (c_bound c k Hc Hk) as [B1 B2]. pose proof popR as [P1 P2]. pose proof (cells_ge c Hc) as C1.
  apply IZR_le in B1. apply IZR_le in B2. set (m := IZR (c_at c k)) in *. set (n := cells c) in *.
  assert (0 < / IZR pop) as Hi by (apply Rinv_0_lt_compat; lra).
  assert (m * n / IZR pop = n * (m / IZR pop)) as -> by (field; lra).
  assert (0 <= m / IZR pop <= 1) as Hr.
  { split; [unfold Rdiv; nra|]. apply Rmult_le_reg_r with (IZR pop); [lra|]. unfold Rdiv. rewrite Rmult_assoc, Rinv_l by lra. lra. }
  split; [nra|]. destruct (Z.eq_dec (c_at c k) 0) as [E0|E0].
  { left. unfold m. rewrite E0. field. lra. }
  right. destruct (Req_dec n 1) as [E1|E1].
  - unfold m. rewrite (c_single c k Hc Hk E1). rewrite E1. rewrite pow1. right. field. lra.
  - assert (2 <= n) as H2.
    { unfold n, cells in *. apply (le_INR 2). apply (INR_le 1) in C1. assert (length (all_indices (c_sizes c)) <> 1%nat) by (intros E; apply E1; rewrite E; reflexivity). lia. }
    assert (1 <= m) as Hm by (apply IZR_le; apply le_IZR in B1; lia).
    assert (IZR pop <= n ^ 24) as Hp.
    { apply Rle_trans with (1 := P2). apply Rle_trans with (2 ^ 24); [rewrite pow_IZR; apply IZR_le; vm_compute; discriminate|]. apply pow_incr. lra. }
    assert (/ n ^ 24 <= / IZR pop) as Hq by (apply Rinv_le_contravar; lra).
    apply Rle_trans with (1 := Hq). unfold Rdiv. apply Rle_trans with (1 * (1 * / IZR pop)); [lra|].
    apply Rmult_le_compat; try lra. apply Rmult_le_compat_r; lra.
Qed.
Lemma prod_tf_range l i : (forall c, In c l -> In c cs) -> index_in sizes i -> let x := prodR (map tf l) i in
  0 <= x <= totsR (map one l) /\ (x = 0 \/ / totsR (map one l) ^ 24 <= x).
Proof.
  intros Hl Hi. induction l as [|c l IH]; intros x.
  - unfold x. cbn [map]. change (prodR [] i) with 1. change (totsR []) with 1. rewrite pow1, Rinv_1. split; [lra|right; lra].
  - destruct (IH (fun c' Hc' => Hl c' (or_intror Hc'))) as [[I1 I2] I3]. clear IH. pose proof (Hl c (or_introl eq_refl)) as Hc.
    destruct (tf_range c (proj (c_dims c) i) Hc (proj_ok c i Hc Hi)) as [[T1 T2] T3]. pose proof (cells_ge c Hc) as C1.
    pose proof (tots_one_ge l (fun c' Hc' => Hl c' (or_intror Hc'))) as C2.
    unfold x. change (prodR (map tf (c :: l)) i) with (g_at (tf c) (proj (c_dims c) i) * prodR (map tf l) i).
    change (totsR (map one (c :: l))) with (totR (one c) * totsR (map one l)). rewrite tot_one.
    set (t := g_at (tf c) (proj (c_dims c) i)) in *. set (p := prodR (map tf l) i) in *. split; [split; [nra|now apply Rmult_le_compat]|].
    destruct T3 as [->|T3]; [left; ring|]. destruct I3 as [->|I3]; [left; ring|]. right.
    rewrite Rpow_mult_distr, Rinv_mult. apply Rmult_le_compat; auto; apply Rlt_le, Rinv_0_lt_compat, pow_lt; lra.
Qed.

Definition Bk (k : nat) : nat := (k * k + (2 * k - 1) * N)%nat.
Definition dk (k : nat) : nat := match k with O => O | S _ => (k + N)%nat end.
Definition Ak (pre : list con) : R := match pre with [] => 1 | _ => IZR pop / INR N end.

(** the state of the table when the marginals [pre] have been fitted and [post] have not *)
Definition Inv (pre post : list con) (g : list Z -> double) : Prop :=
  exists rs, Forall2 same rs pre /\
   (forall x k, In x rs -> index_in (g_sizes x) k -> 0 <= g_at x k) /\
   (forall i, index_in sizes i -> exists y, fin (g i) y /\ 0 <= y /\ rel (length pre) y (prodR rs i)) /\
   (forall i, index_in sizes i -> rel (Bk (length pre)) (prodR rs i) (Ak pre * prodR (map tf pre) i)) /\
   rel (dk (length pre)) (totsR rs * totsR (map one post)) (Ak pre * INR N).

Lemma Bk_S k : Bk (S k) = (Bk k + (k + N + 1) + dk k)%nat.
Proof. unfold Bk, dk. destruct k as [|k]; [lia|]. replace (2 * S (S k) - 1)%nat with (2 * k + 3)%nat by lia. replace (2 * S k - 1)%nat with (2 * k + 1)%nat by lia. lia. Qed.
Lemma dk_le k : (dk k <= k + N)%nat. Proof. destruct k; cbn; lia. Qed.
Lemma Bk_J k : (k <= K)%nat -> (1 <= k)%nat -> (k + Bk k + N <= J)%nat.
Proof.
  intros H1 H2. unfold Bk, J. assert (2 * k - 1 + 1 = 2 * k)%nat as E by lia.
  assert (k + (k * k + (2 * k - 1) * N) + N = k * (2 * N + k + 1))%nat as -> by nia. apply Nat.mul_le_mono; lia.
Qed.
Lemma k_J k : (k <= K)%nat -> (k + N + 1 <= J)%nat.
Proof. intros H. unfold J. pose proof N_ge. fold K in Hlen. nia. Qed.

Lemma Ak_range pre : / INR N <= Ak pre /\ 1 <= Ak pre * INR N <= IZR 10000000.
Proof.
  pose proof popR as [P1 P2]. pose proof NR as [N1 N2]. assert (0 < / INR N) as Hi by (apply Rinv_0_lt_compat; lra).
  assert (/ INR N <= 1) as Hi1 by (rewrite <- Rinv_1; apply Rinv_le_contravar; lra). destruct pre as [|c pre]; cbn [Ak].
  - lra.
  - replace (IZR pop / INR N * INR N) with (IZR pop) by (field; lra). unfold Rdiv. split; [nra|]. lra.
Qed.

Lemma rs_nonneg rs pre i : Forall2 same rs pre -> (forall c, In c pre -> In c cs) -> (forall x k, In x rs -> index_in (g_sizes x) k -> 0 <= g_at x k) ->
  index_in sizes i -> 0 <= prodR rs i.
Proof.
  intros Hs Hp Hx Hi. induction Hs as [|x c rs pre [E1 E2] Hs IH]; [cbn; lra|].
  change (prodR (x :: rs) i) with (g_at x (proj (g_dims x) i) * prodR rs i). apply Rmult_le_pos.
  - apply Hx; [now left|]. rewrite E1, E2. apply proj_ok; auto. apply Hp. now left.
  - apply IH; intros; [apply Hp|apply Hx]; auto; now right.
Qed.

Lemma filter_len {A} (p : A -> bool) l : (length (filter p l) <= length l)%nat.
Proof. induction l as [|x l IH]; cbn; [lia|]. destruct (p x); cbn; lia. Qed.

Lemma step pre c post gc g : cs = pre ++ c :: post -> holds gc c -> Inv pre (c :: post) g -> Inv (pre ++ [c]) post (fit1 sizes gc g).
Proof.
  intros Ecs (G1 & G2 & G3) (rs & Hrs & Hx & Hy & HB & HD). set (k := length pre) in *.
  assert (In c cs) as Hc by (rewrite Ecs; apply in_elt).
  assert (forall c', In c' pre -> In c' cs) as Hpre by (intros; rewrite Ecs, in_app_iff; auto).
  assert (forall c', In c' post -> In c' cs) as Hpost by (intros; rewrite Ecs, in_app_iff; cbn; auto).
  assert (S k <= K)%nat as HkK by (unfold K; rewrite Ecs, app_length; cbn [length]; fold k; lia).
  pose proof popR as [P1 P2]. pose proof NR as [N1 N2]. pose proof (Ak_range pre) as (A0 & A1 & A2).
  assert (0 < Ak pre) as Apos by (apply Rlt_le_trans with (2 := A0); apply Rinv_0_lt_compat; lra).
  pose proof (cells_ge c Hc) as C1. set (n := cells c) in *.
  (* the exact sums of the factors are the same in all cells of the marginal *)
  set (Sx := totsR rs * totsR (map one post)).
  assert (forall q, index_in (c_sizes c) q -> marginR sizes (c_dims c) q (prodR rs) = Sx) as HS.
  { intros q Hq. assert (Forall2 same (rs ++ one c :: map one post) cs) as HF.
    { rewrite Ecs. apply Forall2_app; auto. constructor; [split; reflexivity|]. apply same_map. split; reflexivity. }
    pose proof (margin_prodR rs (one c) (map one post) sizes q (same_once _ HF) Hq) as E. cbn [one g_at g_dims] in E.
    rewrite Rmult_1_r in E. fold Sx in E. rewrite <- E. unfold marginR. apply sumR_ext. intros i _.
    rewrite prodR_app. change (one c :: map one post) with (map one (c :: post)). rewrite prodR_one. ring. }
  assert (totsR rs * totsR (map one (c :: post)) = Sx * n) as EG.
  { change (totsR (map one (c :: post))) with (totR (one c) * totsR (map one post)). rewrite tot_one. unfold Sx, n. ring. }
  rewrite EG in HD. clear EG.
  assert (dk k <= J)%nat as HdJ by (pose proof (dk_le k); pose proof (k_J k ltac:(lia)); lia).
  assert (n <= INR N) as CN.
  { rewrite <- tots_one_all. rewrite Ecs, map_app, totsR_app. change (totsR (map one (c :: post))) with (totR (one c) * totsR (map one post)).
    rewrite tot_one. fold n. pose proof (tots_one_ge pre Hpre). pose proof (tots_one_ge post Hpost).
    apply Rle_trans with (1 * (n * 1)); [lra|]. apply Rmult_le_compat; try lra. apply Rmult_le_compat; lra. }
  assert (/ 2 <= Sx * n <= IZR 20000000) as [S1 S2].
  { pose proof (EE2 _ HdJ) as H2. pose proof (EE_pow (dk k)). destruct HD as [D1 D2].
    assert (0 <= Sx * n) by nra. assert (IZR 20000000 = IZR 10000000 * 2) as -> by (rewrite <- mult_IZR; reflexivity). split; nra. }
  assert (/ IZR 20000000 <= Sx) as S3.
  { assert (0 < / n) by (apply Rinv_0_lt_compat; lra). replace Sx with (Sx * n * / n) by (field; lra).
    replace (/ IZR 20000000) with (/ 2 * / IZR 10000000) by (rewrite <- Rinv_mult, <- mult_IZR; reflexivity).
    apply Rmult_le_compat; try lra. apply Rinv_le_contravar; lra. }
  assert (Sx <= IZR 20000000) as S4.
  { apply Rle_trans with (2 := S2). assert (0 <= / IZR 20000000) by (apply Rlt_le, Rinv_0_lt_compat, IZR_lt; lia). nra. }
  assert (0 < Sx) as Spos by (apply Rlt_le_trans with (2 := S3); apply Rinv_0_lt_compat, IZR_lt; lia).
  (* the sums in doubles *)
  assert (forall q, index_in (c_sizes c) q -> exists z, fin (marginD sizes (c_dims c) q g) z /\ 0 <= z /\ rel (k + N) z Sx) as HZ.
  { intros q Hq. unfold marginD. set (l := filter (fun i => idx_eqb (proj (c_dims c) i) q) (all_indices sizes)).
    assert (length l <= N)%nat as Hl by apply filter_len.
    assert (forall i, In i l -> index_in sizes i) as Hli by (intros i Hi; apply filter_In in Hi as [Hi _]; now apply in_all_indices).
    assert (rel k (sumR (map (fun i => B2R (g i)) l)) Sx) as Rl.
    { rewrite <- (HS q Hq). unfold marginR. fold l. apply rel_sum. intros i Hi. destruct (Hy i (Hli i Hi)) as (y & [_ Fy] & _ & Ry). now rewrite Fy. }
    assert (forall i, In i l -> fin (g i) (B2R (g i)) /\ 0 <= B2R (g i)) as Hf.
    { intros i Hi. destruct (Hy i (Hli i Hi)) as (y & [F Fy] & Py & _). rewrite Fy. split; auto. split; auto. }
    destruct (sum_ok g (fun i => B2R (g i)) l Hf d_zero 0 0 0 fin_zero (Rle_refl 0) (Rle_refl 0) (rel_refl 0 0 (Rle_refl 0))) as (z & Fz & Pz & Rz).
    - rewrite Rplus_0_l. apply Rle_trans with ((2 * IZR 20000000) * 2).
      + apply Rmult_le_compat; [apply sumR_nonneg; intros; now apply Hf|pose proof (EE_pow (0 + length l)); lra| |].
        * apply (rel_high k _ Sx); auto; [apply EE2; pose proof (k_J k); lia|lra].
        * apply EE2. pose proof J_ge. lia.
      + apply Rle_trans with (p2 27); [|apply bpow_le; lia]. rewrite <- IZR_p2 by lia. rewrite <- !mult_IZR. apply IZR_le. lia.
    - exists z. split; auto. split; auto. rewrite Rplus_0_l in Rz. cbn [Nat.add] in Rz.
      apply (rel_mono (length l + k)); [lia|auto|lra|]. eapply rel_trans; eassumption. }
  set (xa := fun q => RN (IZR (c_at c q) / B2R (marginD sizes (c_dims c) q g))).
  assert (k + N <= J)%nat as HkN by (pose proof (k_J k ltac:(lia)); lia).
  assert (forall q, index_in (c_sizes c) q -> d_eqb (marginD sizes (c_dims c) q g) d_zero = false /\
    fin (d_div (d_ofZ (c_at c q)) (marginD sizes (c_dims c) q g)) (xa q) /\ 0 <= xa q /\ rel (k + N + 1) (xa q) (IZR (c_at c q) / Sx)) as HX.
  { intros q Hq. destruct (HZ q Hq) as (z & Fz & Pz & Rz). pose proof (c_bound c q Hc Hq) as [B1 B2]. pose proof pop_J as [HpJ _].
    assert (fin (d_ofZ (c_at c q)) (IZR (c_at c q))) as Fm by (apply d_ofZ_exact; rewrite Z.abs_eq by lia; apply Z.le_trans with 5000000%Z; lia).
    unfold xa. destruct Fz as [Fz Ez]. rewrite Ez. set (m := IZR (c_at c q)) in *.
    assert (/ IZR 20000000 / 2 <= z) as Z1.
    { destruct (rel_low (k + N) z Sx (/ IZR 20000000) (EE2 _ HkN) Pz Rz (or_intror S3)) as [E|E]; [|exact E].
      exfalso. destruct Rz as [Rz _]. rewrite E, Rmult_0_l in Rz. lra. }
    assert (z <= 2 * IZR 20000000) as Z2 by (apply (rel_high (k + N) _ Sx); auto; [now apply EE2|lra]).
    assert (p2 (-26) <= z) as Z3.
    { apply Rle_trans with (2 := Z1). replace (/ IZR 20000000 / 2) with (/ IZR 40000000) by (change 40000000%Z with (20000000 * 2)%Z; rewrite mult_IZR, Rinv_mult; reflexivity).
      replace (p2 (-26)) with (/ p2 26) by (rewrite <- bpow_opp; reflexivity). apply Rinv_le_contravar; [apply IZR_lt; lia|]. rewrite <- IZR_p2 by lia. apply IZR_le. lia. }
    assert (0 < z) as Zpos by (apply Rlt_le_trans with (2 := Z3); apply bpow_gt_0).
    assert (z <= p2 26) as Z4 by (apply Rle_trans with (1 := Z2); rewrite <- IZR_p2 by lia; rewrite <- mult_IZR; apply IZR_le; lia).
    assert (0 <= m <= IZR 5000000) as [M1 M2] by (split; apply IZR_le; lia).
    assert (0 < / z) as Iz by (now apply Rinv_0_lt_compat).
    assert (0 <= m / z) as Q0 by (unfold Rdiv; nra).
    assert (m / z = 0 \/ p2 (-1022) <= m / z) as Q1.
    { destruct (Z.eq_dec (c_at c q) 0) as [E|E]; [left; unfold m; rewrite E; unfold Rdiv; ring|right].
      assert (1 <= m) by (apply IZR_le; lia). apply Rle_trans with (1 * / p2 26).
      - rewrite Rmult_1_l, <- bpow_opp. apply bpow_le. lia.
      - unfold Rdiv. apply Rmult_le_compat; try lra; [apply Rlt_le, Rinv_0_lt_compat, bpow_gt_0|]. now apply Rinv_le_contravar. }
    assert (m / z <= p2 49) as Q2.
    { replace 49%Z with (23 + 26)%Z by lia. rewrite bpow_plus. unfold Rdiv. apply Rmult_le_compat; try lra.
      - apply Rle_trans with (1 := M2). rewrite <- IZR_p2 by lia. apply IZR_le. lia.
      - replace (p2 26) with (/ p2 (-26)) by (rewrite <- bpow_opp; reflexivity). apply Rinv_le_contravar; auto. apply bpow_gt_0. }
    assert (RN (m / z) <= p2 49) as Q3 by (apply RN_le_repr; auto; apply repr_p2; lia).
    assert (0 <= RN (m / z)) as Q4 by now apply RN_nonneg.
    split.
    { rewrite (d_eqb_R _ _ _ _ (conj Fz Ez) fin_zero). destruct (Req_bool_spec z 0); auto. lra. }
    split.
    { apply d_div_round; [exact Fm|now split|lra|]. rewrite Rabs_pos_eq by auto. apply Rle_lt_trans with (1 := Q3). apply bpow_lt. lia. }
    split; [auto|]. replace (k + N + 1)%nat with (1 + (0 + (k + N)))%nat by lia. apply rel_trans with (m / z); [now apply rel_RN|].
    apply rel_div; auto; now apply rel_refl. }
  set (x := GC (c_dims c) (c_sizes c) xa).
  assert (forall i, prodR (map tf (pre ++ [c])) i = prodR (map tf pre) i * (IZR (c_at c (proj (c_dims c) i)) * n / IZR pop)) as Etf.
  { intros i. rewrite map_app, prodR_app. cbn [map prodR fold_right tf g_at g_dims]. rewrite Rmult_1_r. reflexivity. }
  assert (Ak (pre ++ [c]) = IZR pop / INR N) as EA by (destruct pre; reflexivity).
  assert (forall i, prodR (rs ++ [x]) i = prodR rs i * xa (proj (c_dims c) i)) as Erx.
  { intros i. rewrite prodR_app. cbn [prodR fold_right x g_at g_dims]. rewrite Rmult_1_r. reflexivity. }
  assert (length (pre ++ [c]) = S k) as Elen by (rewrite app_length; cbn [length]; fold k; lia).
  assert (forall i, index_in sizes i -> 0 <= prodR rs i) as Hrs0 by (intros i Hi; now apply (rs_nonneg rs pre)).
  (* the new product against its target *)
  assert (forall i, index_in sizes i -> rel (Bk (S k)) (prodR (rs ++ [x]) i) (Ak (pre ++ [c]) * prodR (map tf (pre ++ [c])) i)) as HB'.
  { intros i Hi. rewrite Erx, EA, Etf, Bk_S. set (q := proj (c_dims c) i). pose proof (proj_ok c i Hc Hi) as Hq. fold q in Hq.
    destruct (HX q Hq) as (_ & _ & X1 & X2). pose proof (c_bound c q Hc Hq) as [B1 _]. apply IZR_le in B1. set (m := IZR (c_at c q)) in *.
    destruct (prod_tf_range pre i Hpre Hi) as [[T1 _] _]. set (p := prodR (map tf pre) i) in *.
    replace (IZR pop / INR N * (p * (m * n / IZR pop))) with (Ak pre * p * (m / (Ak pre * INR N / n))) by (field; lra).
    rewrite <- Nat.add_assoc. assert (0 < Ak pre * INR N / n) as HA by (apply Rdiv_lt_0_compat; lra).
    assert (0 <= m / (Ak pre * INR N / n)) as HA2 by (unfold Rdiv; apply Rmult_le_pos; [exact B1|apply Rlt_le, Rinv_0_lt_compat; exact HA]).
    assert (0 <= Ak pre * p) as HAp by (apply Rmult_le_pos; lra). apply rel_mul; auto; [apply (HB i Hi)|].
    apply rel_trans with (1 := X2). rewrite <- (Nat.add_0_l (dk k)). apply rel_div; auto; [now apply rel_refl|].
    replace Sx with (Sx * n / n) by (field; lra). unfold Rdiv. rewrite <- (Nat.add_0_r (dk k)).
    assert (0 <= / n) by (apply Rlt_le, Rinv_0_lt_compat; lra). apply rel_mul; auto; try lra. now apply rel_refl. }
  exists (rs ++ [x]). split; [apply Forall2_app; auto; constructor; [split; reflexivity|constructor]|].
  split.
  { intros x' q Hx' Hq. apply in_app_iff in Hx' as [Hx'|[<-|[]]]; [now apply Hx|]. apply HX. exact Hq. }
  rewrite Elen. split.
  { intros i Hi. destruct (Hy i Hi) as (y & Fy & Py & Ry). pose proof (proj_ok c i Hc Hi) as Hq. rewrite Erx.
    unfold fit1. rewrite G1. set (q := proj (c_dims c) i) in *. cbv zeta. destruct (HX q Hq) as (X0 & X3 & X1 & X2). rewrite X0, (G3 q Hq).
    specialize (HB' i Hi). rewrite Erx, EA in HB'. fold q in HB'.
    assert (rel (k + Bk (S k)) (y * xa q) (IZR pop / INR N * prodR (map tf (pre ++ [c])) i)) as RR.
    { apply rel_trans with (prodR rs i * xa q); [|exact HB']. rewrite <- (Nat.add_0_r k). apply rel_mul; auto. now apply rel_refl. }
    pose proof (Bk_J (S k) HkK ltac:(lia)) as HJ.
    assert (forall c', In c' (pre ++ [c]) -> In c' cs) as Hin by (intros c' Hc'; apply in_app_iff in Hc' as [Hc'|[<-|[]]]; auto).
    destruct (prod_tf_range (pre ++ [c]) i Hin Hi) as [[T1 T2] T3]. set (p := prodR (map tf (pre ++ [c])) i) in *.
    pose proof (tots_one_ge _ Hin) as U1. set (u := totsR (map one (pre ++ [c]))) in *.
    assert (u <= INR N) as U2.
    { rewrite <- tots_one_all. rewrite Ecs. replace (pre ++ c :: post) with ((pre ++ [c]) ++ post) by (rewrite <- app_assoc; reflexivity).
      rewrite map_app, totsR_app. fold u. pose proof (tots_one_ge post Hpost). nra. }
    assert (0 < / INR N) as IN by (apply Rinv_0_lt_compat; lra).
    assert (0 <= IZR pop / INR N * p) as V0 by (unfold Rdiv; apply Rmult_le_pos; [nra|lra]).
    assert (IZR pop / INR N * p <= IZR 5000000) as V1.
    { apply Rle_trans with (IZR pop); [|lra]. apply Rle_trans with (IZR pop / INR N * INR N); [|right; field; lra].
      apply Rmult_le_compat_l; [unfold Rdiv; nra|lra]. }
    assert (IZR pop / INR N * p = 0 \/ p2 (-600) <= IZR pop / INR N * p) as V2.
    { destruct T3 as [->|T3]; [left; ring|right]. assert (INR N <= p2 24) as N3 by (apply Rle_trans with (1 := N2); rewrite <- IZR_p2 by lia; apply IZR_le; lia).
      assert (p2 (-24) <= / INR N) as I1 by (replace (p2 (-24)) with (/ p2 24) by (rewrite <- bpow_opp; reflexivity); apply Rinv_le_contravar; lra).
      assert (p2 (-576) <= / u ^ 24) as I2.
      { replace (p2 (-576)) with (/ p2 576) by (rewrite <- bpow_opp; reflexivity). apply Rinv_le_contravar; [apply pow_lt; lra|]. apply Rle_trans with (p2 24 ^ 24); [apply pow_incr; lra|].
        right. rewrite <- IZR_p2, pow_IZR, <- IZR_p2 by lia. reflexivity. }
      replace (-600)%Z with (-24 + -576)%Z by lia. rewrite bpow_plus. apply Rmult_le_compat; try apply bpow_ge_0; [|lra]. unfold Rdiv. nra. }
    assert (0 <= y * xa q) as W0 by now apply Rmult_le_pos.
    assert (y * xa q = 0 \/ p2 (-1022) <= y * xa q) as W1.
    { destruct (rel_low _ _ _ (p2 (-600)) (EE2 (k + Bk (S k)) ltac:(lia)) W0 RR V2) as [E|E]; [now left|right]. apply Rle_trans with (2 := E).
      replace (p2 (-600)) with (p2 (-601) * 2) by (rewrite p2_dbl; reflexivity).
      apply Rle_trans with (p2 (-601)); [apply bpow_le; lia|lra]. }
    assert (y * xa q <= p2 25) as W2.
    { apply Rle_trans with (1 := rel_high _ _ _ _ (EE2 (k + Bk (S k)) ltac:(lia)) V0 RR V1). rewrite <- IZR_p2 by lia. rewrite <- mult_IZR. apply IZR_le. lia. }
    exists (RN (y * xa q)). split.
    { apply d_mul_round; auto. rewrite Rabs_pos_eq by now apply RN_nonneg. apply Rle_lt_trans with (p2 25); [|apply bpow_lt; lia].
      apply RN_le_repr; [apply repr_p2; lia|exact W2]. }
    split; [now apply RN_nonneg|]. replace (S k) with (1 + (k + 0))%nat by lia. apply rel_trans with (y * xa q); [now apply rel_RN|].
    apply rel_mul; auto. now apply rel_refl. }
  split; [exact HB'|].
  (* the new total *)
  rewrite EA. replace (IZR pop / INR N * INR N) with (IZR pop) by (field; lra). rewrite totsR_app. cbn [totsR fold_right]. rewrite Rmult_1_r.
  fold (totsR rs). replace (totsR rs * totR x * totsR (map one post)) with (Sx * totR x) by (unfold Sx; ring).
  replace (dk (S k)) with (0 + (k + N + 1))%nat by (cbn [dk]; lia). replace (IZR pop) with (Sx * (IZR pop / Sx)) by (field; lra).
  assert (rel (k + N + 1) (totR x) (IZR pop / Sx)) as HT.
  { unfold totR, totalR, x. cbn [g_sizes g_at]. replace (IZR pop / Sx) with (sumR (map (fun q => IZR (c_at c q) / Sx) (all_indices (c_sizes c)))).
    - apply rel_sum. intros q Hq. apply in_all_indices in Hq. now apply HX.
    - rewrite (sumR_ext _ (fun q => / Sx * IZR (c_at c q))) by (intros; field; lra). rewrite sumR_mul, sum_c, (Htot c Hc). field. lra. }
  apply rel_mul; try lra; auto.
  - unfold totR, totalR, x. cbn [g_sizes g_at]. apply sumR_nonneg. intros q Hq. apply in_all_indices in Hq. now apply HX.
  - apply Rlt_le, Rdiv_lt_0_compat; lra.
  - now apply rel_refl; lra.
Qed.

Lemma steps gpost post : Forall2 holds gpost post -> forall pre g, cs = pre ++ post -> Inv pre post g ->
  Inv cs [] (fold_left (fun g c => fit1 sizes c g) gpost g).
Proof.
  induction 1 as [|gc c gpost post Hgc Hg IH]; intros pre g E HI; cbn [fold_left].
  - rewrite app_nil_r in E. now rewrite E.
  - apply IH with (pre := pre ++ [c]); [rewrite <- app_assoc; exact E|]. now apply step.
Qed.

Lemma start g : (forall i, index_in sizes i -> g i = d_one) -> Inv [] cs g.
Proof.
  intros Hg. exists []. split; [constructor|]. split; [intros x k []|]. cbn [length Ak dk map]. split; [|split].
  - intros i Hi. exists 1. rewrite (Hg i Hi). split; [apply fin_one|]. split; [lra|]. change (prodR [] i) with 1. apply (rel_refl 0 1). lra.
  - intros i Hi. change (prodR [] i) with 1. rewrite Rmult_1_l. cbn. apply rel_refl. lra.
  - rewrite tots_one_all. change (totsR []) with 1. pose proof NR. apply rel_refl. lra.
Qed.

Lemma tf_indep i : IZR pop / INR N * prodR (map tf cs) i = indep cs pop i.
Proof.
  pose proof popR. pose proof NR. unfold indep.
  assert (forall l, prodR (map tf l) i = totsR (map one l) * fold_right (fun c p => IZR (c_at c (proj (c_dims c) i)) / IZR pop * p) 1 l) as G.
  { induction l as [|c l IH]; [cbn; ring|]. change (prodR (map tf (c :: l)) i) with (IZR (c_at c (proj (c_dims c) i)) * cells c / IZR pop * prodR (map tf l) i).
    change (totsR (map one (c :: l))) with (totR (one c) * totsR (map one l)). rewrite tot_one, IH. cbn [fold_right]. field. lra. }
  rewrite G, tots_one_all. field. lra.
Qed.

Lemma tots_tf l : (forall c, In c l -> In c cs) -> totsR (map tf l) = totsR (map one l).
Proof.
  induction l as [|c l IH]; intros H; [reflexivity|]. change (totsR (map tf (c :: l))) with (totR (tf c) * totsR (map tf l)).
  change (totsR (map one (c :: l))) with (totR (one c) * totsR (map one l)).
  rewrite tot_one, tot_tf, IH; auto; [intros; apply H; now right|apply H; now left].
Qed.

Lemma indep_margin c k : In c cs -> index_in (c_sizes c) k -> marginR sizes (c_dims c) k (indep cs pop) = IZR (c_at c k).
Proof.
  intros Hc Hk. destruct (in_split _ _ Hc) as (pre & post & E). pose proof popR. pose proof NR.
  unfold marginR. rewrite (sumR_ext _ (fun i => IZR pop / INR N * prodR (map tf cs) i)) by (intros; symmetry; apply tf_indep).
  rewrite sumR_mul. fold (marginR sizes (c_dims c) k (prodR (map tf cs))).
  assert (Forall2 same (map tf pre ++ tf c :: map tf post) cs) as HF.
  { rewrite E. replace (map tf pre ++ tf c :: map tf post) with (map tf (pre ++ c :: post)) by now rewrite map_app. apply same_map. split; reflexivity. }
  pose proof (margin_prodR (map tf pre) (tf c) (map tf post) sizes k (same_once _ HF) Hk) as M.
  change (g_dims (tf c)) with (c_dims c) in M. change (g_at (tf c) k) with (IZR (c_at c k) * cells c / IZR pop) in M.
  replace (map tf cs) with (map tf pre ++ tf c :: map tf post) by (rewrite E, map_app; reflexivity). rewrite M.
  rewrite !tots_tf by (intros c' Hc'; rewrite E, in_app_iff; cbn; auto).
  pose proof tots_one_all as T. rewrite E, map_app, totsR_app in T. change (totsR (map one (c :: post))) with (totR (one c) * totsR (map one post)) in T.
  rewrite tot_one in T. pose proof (cells_ge c Hc).
  replace (totsR (map one pre) * (IZR (c_at c k) * cells c / IZR pop) * totsR (map one post)) with (IZR (c_at c k) / IZR pop * (totsR (map one pre) * (cells c * totsR (map one post)))) by (field; lra).
  rewrite T. field. lra.
Qed.

Lemma indep_nonneg i : index_in sizes i -> 0 <= indep cs pop i.
Proof.
  intros Hi. rewrite <- tf_indep. destruct (prod_tf_range cs i (fun c H => H) Hi) as [[T _] _]. pose proof popR. pose proof NR.
  apply Rmult_le_pos; auto. apply Rlt_le, Rdiv_lt_0_compat; lra.
Qed.

Lemma result_rel g i : Inv cs [] g -> index_in sizes i -> exists y, fin (g i) y /\ 0 <= y /\ rel (K + Bk K) y (indep cs pop i).
Proof.
  intros (rs & _ & _ & Hy & HB & _) Hi. destruct (Hy i Hi) as (y & Fy & Py & Ry). exists y. split; auto. split; auto.
  apply rel_trans with (1 := Ry). specialize (HB i Hi). fold K in HB. rewrite <- tf_indep.
  replace (Ak cs) with (IZR pop / INR N) in HB; auto. clear - Hlen. destruct cs; [cbn in Hlen; lia|reflexivity].
Qed.

Lemma em8 : fin d_1em8 (IZR 0x15798ee2308c3a * p2 (-79)).
Proof. apply d_lit_exact; [vm_compute; discriminate|lia|lia]. Qed.

Lemma result_fits g gs : Forall2 holds gs cs -> Inv cs [] g -> fits_all sizes gs g.
Proof.
  intros Hgs HI gc q Hgc Hq. assert (exists c, In c cs /\ holds gc c) as (c & Hc & G1 & G2 & G3).
  { clear - Hgs Hgc. induction Hgs as [|y c gs l H Hl IH]; [easy|]. destruct Hgc as [->|Hx]; [exists c; split; auto; now left|].
    destruct (IH Hx) as (c' & ? & ?). exists c'. split; auto. now right. }
  rewrite G2 in Hq. unfold misfit. rewrite G1, (G3 q Hq). pose proof (c_bound c q Hc Hq) as [B1 B2]. pose proof pop_J as [HpJ _].
  assert (fin (d_ofZ (c_at c q)) (IZR (c_at c q))) as Fm by (apply d_ofZ_exact; rewrite Z.abs_eq by lia; apply Z.le_trans with 5000000%Z; lia).
  pose proof (Bk_J K ltac:(lia) Hlen) as HJ.
  set (l := filter (fun i => idx_eqb (proj (c_dims c) i) q) (all_indices sizes)).
  assert (length l <= N)%nat as Hl by apply filter_len.
  assert (forall i, In i l -> index_in sizes i) as Hli by (intros i Hi; apply filter_In in Hi as [Hi _]; now apply in_all_indices).
  assert (rel (K + Bk K) (sumR (map (fun i => B2R (g i)) l)) (IZR (c_at c q))) as Rl.
  { rewrite <- (indep_margin c q Hc Hq). unfold marginR. fold l. apply rel_sum. intros i Hi. destruct (result_rel g i HI (Hli i Hi)) as (y & [_ Fy] & _ & Ry). now rewrite Fy. }
  assert (forall i, In i l -> fin (g i) (B2R (g i)) /\ 0 <= B2R (g i)) as Hf.
  { intros i Hi. destruct (result_rel g i HI (Hli i Hi)) as (y & [F Fy] & Py & _). rewrite Fy. split; auto. split; auto. }
  apply IZR_le in B1. apply IZR_le in B2. set (m := IZR (c_at c q)) in *. pose proof popR as [P1 P2].
  destruct (sum_ok g (fun i => B2R (g i)) l Hf d_zero 0 0 0 fin_zero (Rle_refl 0) (Rle_refl 0) (rel_refl 0 0 (Rle_refl 0))) as (z & Fz & Pz & Rz).
  { rewrite Rplus_0_l. apply Rle_trans with ((2 * IZR 5000000) * 2).
    - apply Rmult_le_compat; [apply sumR_nonneg; intros; now apply Hf|pose proof (EE_pow (0 + length l)); lra| |].
      + apply (rel_high (K + Bk K) _ m); auto; [apply EE2; lia|lra].
      + apply EE2. pose proof J_ge. lia.
    - apply Rle_trans with (p2 27); [|apply bpow_le; lia]. rewrite <- IZR_p2 by lia. rewrite <- !mult_IZR. apply IZR_le. lia. }
  rewrite Rplus_0_l in Rz. cbn [Nat.add] in Rz.
  assert (rel J z m) as RJ by (apply (rel_mono (length l + (K + Bk K))); [lia|auto|lra|]; eapply rel_trans; eassumption).
  pose proof (rel_abs J z m B1 J_small RJ) as E.
  assert (Rabs (z - m) <= IZR 20000000 * p2 (-51)) as E2.
  { apply Rle_trans with (1 := E). rewrite <- Rmult_assoc. apply Rmult_le_compat_r; [apply bpow_ge_0|].
    apply Rle_trans with (IZR pop * INR J); [apply Rmult_le_compat_r; [apply pos_INR|exact B2]|].
    rewrite INR_IZR_INZ, <- mult_IZR. apply IZR_le. exact Hbound. }
  assert (repr (IZR 20000000 * p2 (-51))) as Rp by (apply repr_dyadic; lia).
  assert (Rabs (RN (z - m)) <= IZR 20000000 * p2 (-51)) as E3.
  { apply Rabs_le_inv in E2. apply Rabs_le. split; [|now apply RN_le_repr].
    apply RN_ge_repr; [|lra]. apply generic_format_opp. exact Rp. }
  assert (IZR 20000000 * p2 (-51) < IZR 0x15798ee2308c3a * p2 (-79)) as E4.
  { replace (p2 (-51)) with (IZR (2 ^ 28) * p2 (-79)) by (rewrite IZR_p2, <- bpow_plus by lia; reflexivity). rewrite <- Rmult_assoc, <- mult_IZR.
    apply Rmult_lt_compat_r; [apply bpow_gt_0|]. apply IZR_lt. vm_compute. reflexivity. }
  assert (fin (d_sub (marginD sizes (c_dims c) q g) (d_ofZ (c_at c q))) (RN (z - m))) as Fs.
  { apply d_sub_round; auto. apply Rle_lt_trans with (1 := E3). apply Rlt_trans with (1 := E4).
    apply Rle_lt_trans with (p2 53 * p2 0); [|rewrite <- bpow_plus; apply bpow_lt; lia].
    apply Rmult_le_compat; [apply IZR_le; lia|apply bpow_ge_0| |apply bpow_le; lia]. rewrite <- IZR_p2 by lia. apply IZR_le. vm_compute. discriminate. }
  rewrite (d_leb_R _ _ _ _ em8 (d_abs_R _ _ Fs)). destruct (Rle_bool_spec (IZR 0x15798ee2308c3a * p2 (-79)) (Rabs (RN (z - m)))); auto. lra.
Qed.
End Indep.
