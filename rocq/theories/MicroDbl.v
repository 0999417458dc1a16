(** The constructor of Microsynthesis for marginals of any element type: it returns the implied shape, raises, or
    reaches the conversion of a marginal's sum; and its behaviour on doubles holding integers. *)
From Coq Require Import Reals Lra.
From Flocq Require Import Core.Core IEEE754.BinarySingleNaN.
From Verif Require Import Base Spec SpecFacts NDArray IndexProofs Float64 FloatProofs ArrayOps ArrayProofs Bind BindProofs
  Micro SynthSpec MicroProofs PickProofs SampleProofs SplitProofs QisProofs QisExpect IpfSpec Ipf IpfProofs.
Open Scope Z_scope.

Lemma collect_outline {M} (cs : list (gcon M)) :
  collect_sizes (map g_dims cs) (map gnd cs) = collect_sizes (map c_dims (map outline cs)) (map nd_of (map outline cs)).
Proof.
  unfold collect_sizes. generalize (@nil (Z * Z)) as m. induction cs as [|c cs IH]; intros m; auto.
  cbn [map combine foldM]. change (nd_sizes (gnd c)) with (g_sizes c). change (nd_sizes (nd_of (outline c))) with (g_sizes c).
  cbn [outline c_dims c_sizes].
  destruct (negb (Nat.eqb (length (g_dims c)) (length (g_sizes c)))); auto.
  destruct (foldM add_dim (combine (g_dims c) (g_sizes c)) m); cbn [bind]; try reflexivity. apply IH.
Qed.

(** Ok, an exception, or undefined behaviour for the reason [P] *)
Definition tri {A} (P : string -> Prop) (x : outcome A) : Prop :=
  match x with Ok _ => True | Throw _ => True | UB w => P w | Diverge => False end.

Lemma tri_bind {A B} P (x : outcome A) (f : A -> outcome B) : tri P x -> (forall a, x = Ok a -> tri P (f a)) -> tri P (bind x f).
Proof. destruct x; simpl; auto. Qed.

Lemma tri_foldM {A S} P (f : A -> S -> outcome S) l : (forall a s, In a l -> tri P (f a s)) -> forall s, tri P (foldM f l s).
Proof.
  induction l as [|a l IH]; intros H s; simpl; auto. apply tri_bind; [apply H; now left|]. intros s' _. apply IH. intros. apply H. now right.
Qed.

Lemma tri_mapM {A B} P (f : A -> outcome B) l : (forall a, In a l -> tri P (f a)) -> tri P (mapM f l).
Proof.
  induction l as [|a l IH]; intros H; simpl; auto. apply tri_bind; [apply H; now left|]. intros b _.
  apply tri_bind; [apply IH; intros; apply H; now right|]. intros. exact I.
Qed.

Lemma vec_sum_add {T} (O : NumOps T) (add : T -> T -> T) l : (forall x y, n_add O x y = Ok (add x y)) ->
  vec_sum O l = Ok (fold_left add l (n_zero O)).
Proof.
  intros Hadd. unfold vec_sum. generalize (n_zero O) as acc.
  induction l as [|x l IH]; intros acc; cbn [foldM fold_left]; auto. rewrite Hadd. cbn [bind]. apply IH.
Qed.

Lemma reduce1_mk_any {T} (O : NumOps T) (add : T -> T -> T) sizes f d : (forall x y, n_add O x y = Ok (add x y)) ->
  fits sizes -> 0 <= d < Z.of_nat (length sizes) -> d < 2 ^ 64 ->
  exists v, reduce1 O (mk sizes f) d = Ok v.
Proof.
  intros Hadd Hf Hd H64. eexists. apply reduce1_mk with
    (g := fun k => fold_left add (map f (filter (fun i => nth (Z.to_nat d) i 0 =? k) (all_indices sizes))) (n_zero O)); auto.
  intros k Hk. now apply vec_sum_add.
Qed.

Section Cases.
Context {M : Type} (MO : MargOps M) (add : M -> M -> M).
Hypothesis Hadd : forall x y, n_add (mg_num MO) x y = Ok (add x y).
Hypothesis Hpop : forall x, (exists p, mg_pop MO x = Ok p) \/ (exists w, mg_pop MO x = UB w).

(** the sum of a marginal as computed *)
Definition gsum (c : gcon M) : M := fold_left add (map (g_at c) (all_indices (g_sizes c))) (n_zero (mg_num MO)).

(** the conversion of some marginal's sum is undefined *)
Definition bad_sum (cs : list (gcon M)) (w : string) : Prop := exists c, In c cs /\ mg_pop MO (gsum c) = UB w.

Lemma nd_sum_gnd c : positive (g_sizes c) -> nd_sum (mg_num MO) (gnd c) = Ok (gsum c).
Proof.
  intros Hp. unfold gnd. rewrite nd_sum_mk by auto. now apply vec_sum_add.
Qed.

Definition gsmall (c : gcon M) : Prop := fits (g_sizes c) /\ Z.of_nat (length (g_sizes c)) < 2 ^ 31.

Lemma create_tri cs sizes : implied (map outline cs) sizes -> (2 <= length cs)%nat -> (forall c, In c cs -> gsmall c) ->
  tri (bad_sum cs) (create_mappings MO (length sizes) (map g_dims cs) (map gnd cs)).
Proof.
  intros Hi H2 Hs. unfold create_mappings.
  destruct (dim_lookup_ok (length sizes) (map outline cs)) as (lk & E & Hl & Hlk).
  { intros c Hc. eapply implied_valid_dims; eauto. }
  rewrite map_map in E. cbn [outline c_dims] in E. change (fun x : gcon M => g_dims x) with (@g_dims M) in E. rewrite E. clear E. cbn [bind].
  destruct cs as [|c0 cs]; [simpl in H2; lia|]. cbn [map tl].
  rewrite (vec_get_ok _ 0 (gnd c0)) by (simpl length; lia). cbn [bind Z.to_nat nth].
  assert (forall c, In c (c0 :: cs) -> nd_sum (mg_num MO) (gnd c) = Ok (gsum c)) as Hsum.
  { intros c Hc. apply nd_sum_gnd. destruct (Hs c Hc) as [(_ & Hp & _) _]. auto. }
  assert (forall c, In c (c0 :: cs) -> tri (bad_sum (c0 :: cs)) (mg_pop MO (gsum c))) as Hp.
  { intros c Hc. destruct (Hpop (gsum c)) as [(p & ->)|(w & E)]; simpl; auto. rewrite E. exists c. auto. }
  rewrite Hsum by now left. cbn [bind]. apply tri_bind; [apply Hp; now left|]. intros p _. apply tri_bind.
  { apply tri_foldM. intros a s Ha. apply in_map_iff in Ha as (c & <- & Hc). rewrite Hsum by now right. cbn [bind].
    apply tri_bind; [apply Hp; now right|]. intros p' _. destruct (p' =? p); exact I. }
  intros _ _. apply tri_bind; [|intros; exact I].
  change (gnd c0 :: map gnd cs) with (map gnd (c0 :: cs)).
  assert (forall l e, In l lk -> In e l -> exists c, vec_get (map gnd (c0 :: cs)) (fst e) = Ok (gnd c) /\
     exists v, reduce1 (mg_num MO) (gnd c) (snd e) = Ok v) as He.
  { intros l [k i] Hin He. apply In_nth with (d := []) in Hin as (d & Hd & <-). rewrite Hl in Hd.
    apply Hlk in He as (n & j & c & -> & -> & Hnc & Hj); auto. cbn [fst snd]. rewrite nth_error_map in Hnc.
    destruct (nth_error (c0 :: cs) n) as [g|] eqn:En; [|discriminate]. injection Hnc as <-.
    exists g. split; [apply vec_get_nth_error; now rewrite nth_error_map, En|].
    assert (In g (c0 :: cs)) as Hg by (eapply nth_error_In; eauto). destruct (Hs g Hg) as [Fg Lg].
    assert (length (g_dims g) = length (g_sizes g)) as Hlen.
    { apply (implied_lengths _ _ Hi (outline g)). apply in_map_iff. exists g. split; auto. }
    assert (j < length (g_dims g))%nat by (apply nth_error_Some; cbn [outline c_dims] in Hj; congruence).
    unfold gnd. apply reduce1_mk_any with (add := add); auto; lia. }
  apply tri_foldM. intros l s Hl'. destruct l as [|[k0 i0] [|e1 rest]]; try exact I.
  destruct (He _ (k0, i0) Hl' (or_introl eq_refl)) as (g & Eg & v & Ev). cbn [fst snd] in Eg, Ev.
  rewrite Eg. cbn [bind]. rewrite Ev. cbn [bind]. apply tri_foldM. intros [k i] s' Hin.
  destruct (He _ (k, i) Hl' (or_intror Hin)) as (g' & Eg' & v' & Ev'). cbn [fst snd] in Eg', Ev'.
  rewrite Eg'. cbn [bind]. rewrite Ev'. cbn [bind]. destruct allclose; exact I.
Qed.

(** the check for negative values *)
Definition neg_check (c : gcon M) : bool :=
  n_ltb (mg_num MO) (fold_left (fun mv i => if n_ltb (mg_num MO) (g_at c i) mv then g_at c i else mv) (all_indices (g_sizes c)) (n_max (mg_num MO)))
    (n_zero (mg_num MO)).

Lemma nd_min_gnd c : fits (g_sizes c) -> nd_min (mg_num MO) (gnd c) =
  Ok (fold_left (fun mv i => if n_ltb (mg_num MO) (g_at c i) mv then g_at c i else mv) (all_indices (g_sizes c)) (n_max (mg_num MO))).
Proof.
  intros Fc. unfold nd_min, gnd. rewrite sizes_mk, index_loop_spec by auto.
  assert (forall i, In i (all_indices (g_sizes c)) -> index_in (g_sizes c) i) as H by (intros i; apply in_all_indices).
  revert H. generalize (all_indices (g_sizes c)) as l. generalize (n_max (mg_num MO)) as mv. intros mv l. revert mv.
  induction l as [|i l IH]; intros mv H; simpl; auto. rewrite nd_get_mk by auto using in_eq. cbn [bind]. apply IH. auto using in_cons.
Qed.

Lemma micro_new_tri {T} cs : (forall c, In c cs -> gsmall c) ->
  (forall sizes, implied (map outline cs) sizes -> prodZ sizes < 2 ^ 60) ->
  match micro_new (T := T) MO (map g_dims cs) (map gnd cs) with
  | Ok ms => exists sizes pop, implied (map outline cs) sizes /\ fits sizes /\ (2 <= length sizes)%nat /\ (2 <= length cs)%nat /\
      (forall c, In c cs -> neg_check c = false) /\
      (forall c, In c cs -> mg_pop MO (gsum c) = Ok pop) /\
      ms = MS sizes (map g_dims cs) pop (mkp sizes (fun _ => None))
  | Throw _ => True
  | UB w => bad_sum cs w
  | Diverge => False
  end.
Proof.
  intros Hs Hpr. unfold micro_new. rewrite !map_length, Nat.eqb_refl. cbn [negb orb].
  destruct (Nat.ltb_spec (length cs) 2) as [H2|H2]; [exact I|]. rewrite collect_outline.
  destruct (collect_spec (map outline cs)) as [(m & -> & Hm & Hl)|((e & ->) & Hno)]; cbn [bind]; [|exact I].
  destruct (Nat.ltb_spec (length m) 2) as [Hm2|Hm2]; [exact I|].
  assert (forall l, incl l cs ->
    (exists e, foldM (fun a (_ : unit) =>
          let* v := nd_min (mg_num MO) a in
          if n_ltb (mg_num MO) v (n_zero (mg_num MO)) then Throw (RuntimeError "negative value in marginal")
          else Ok tt) (map gnd l) tt = Throw e) \/
    (foldM (fun a (_ : unit) =>
          let* v := nd_min (mg_num MO) a in
          if n_ltb (mg_num MO) v (n_zero (mg_num MO)) then Throw (RuntimeError "negative value in marginal")
          else Ok tt) (map gnd l) tt = Ok tt /\ forall c, In c l -> neg_check c = false)) as Hneg.
  { induction l as [|c l IH]; intros Hinc; cbn [map foldM]; [right; split; [auto|easy]|].
    rewrite nd_min_gnd by (apply Hs, Hinc; now left). cbn [bind]. fold (neg_check c). destruct (neg_check c) eqn:E; cbn [bind]; [left; eauto|].
    destruct IH as [IH|[IH1 IH2]]; [intros x Hx; apply Hinc; now right|auto|]. right. split; auto. intros x [<-|Hx]; auto. }
  destruct (Hneg cs (incl_refl _)) as [(e & E)|(E & Hn)]; cbn [mg_num] in *; rewrite E; cbn [bind]; [exact I|]. clear Hneg E.
  destruct (mapM_throw_or (fun k => match map_find m k with
                                   | Some n => Ok n
                                   | None => Throw (RuntimeError "dimension size not defined")
                                   end) (zrange (Z.of_nat (length m)))) as [(sizes & E)|(e & E)].
  { intros k _. destruct (map_find m k); eauto. }
  2:{ rewrite E. exact I. }
  rewrite E. cbn [bind]. destruct (sizes_of_map (map outline cs) m sizes Hl Hm E) as [Hi Hlen]. rewrite <- Hlen in *.
  pose proof (create_tri cs sizes Hi H2 Hs) as Ht.
  assert (fits sizes) as Fz.
  { eapply implied_fits; eauto. intros c Hc. apply in_map_iff in Hc as (g & <- & Hg). destruct (Hs g Hg) as [Fg Lg].
    split; [exact Fg|split; [exact Lg|]]. cbn [outline c_sizes c_at]. unfold total. rewrite sumZ_map_const. cbn. lia. }
  destruct (create_mappings MO (length sizes) (map g_dims cs) (map gnd cs)) as [pop| | |] eqn:Ec; cbn [bind tri] in *; auto.
  rewrite nd_new_ok by auto. cbn [bind]. exists sizes, pop. split; auto. split; auto. split; auto. split; auto. split; auto. split; auto.
  (* every sum was converted to the same population *)
  unfold create_mappings in Ec.
  destruct (dim_lookup (length sizes) (map g_dims cs)) as [lk| | |]; cbn [bind] in Ec; try discriminate.
  destruct cs as [|c0 cs]; [simpl in H2; lia|]. cbn [map tl] in Ec.
  rewrite (vec_get_ok _ 0 (gnd c0)) in Ec by (simpl length; lia). cbn [bind Z.to_nat nth] in Ec.
  assert (forall c, In c (c0 :: cs) -> nd_sum (mg_num MO) (gnd c) = Ok (gsum c)) as Hsum.
  { intros c Hc. apply nd_sum_gnd. destruct (Hs c Hc) as [(_ & Hp & _) _]. auto. }
  rewrite Hsum in Ec by now left. cbn [bind] in Ec. destruct (mg_pop MO (gsum c0)) as [p0| | |] eqn:Ep0; cbn [bind] in Ec; try discriminate.
  destruct (foldM (fun a (_ : unit) =>
      let* s := nd_sum (mg_num MO) a in
      let* p := mg_pop MO s in
      if p =? p0 then Ok tt else Throw (RuntimeError "marginal sum mismatch")) (map gnd cs) tt) as [[]| | |] eqn:Ef; cbn [bind] in Ec; try discriminate.
  assert (p0 = pop) as ->.
  { match type of Ec with (let* _ := ?X in _) = _ => destruct X; cbn [bind] in Ec; congruence end. }
  intros c [<-|Hc]; auto. pose proof (foldM_check_inv _ _ Ef (gnd c) (in_map _ _ _ Hc)) as Ec'. cbv beta in Ec'.
  rewrite Hsum in Ec' by now right. cbn [bind] in Ec'. destruct (mg_pop MO (gsum c)) as [p| | |]; cbn [bind] in Ec'; try discriminate.
  destruct (Z.eqb_spec p pop); congruence.
Qed.
End Cases.

(** * Doubles that may be infinite *)

(** the real value of a double, infinities being beyond all finite ones *)
Definition ev (x : double) : R :=
  match x with B754_infinity s => if s then (- p2 1024)%R else p2 1024 | _ => B2R x end.

Lemma ev_finite x : is_finite x = true -> ev x = B2R x.
Proof. destruct x; simpl; auto; discriminate. Qed.

Lemma ev_fin x r : fin x r -> ev x = r.
Proof. intros [H <-]. now apply ev_finite. Qed.

Lemma B2R_lt (x : double) : (- p2 1024 < B2R x < p2 1024)%R.
Proof. pose proof (abs_B2R_lt_emax 53 1024 x) as H. now apply Rabs_lt_inv in H. Qed.

Lemma d_ltb_ev x y : is_nan x = false -> is_nan y = false -> d_ltb x y = Rlt_bool (ev x) (ev y).
Proof.
  intros Hx Hy. pose proof (bpow_gt_0 radix2 1024) as H0. pose proof (B2R_lt x) as Bx. pose proof (B2R_lt y) as By.
  destruct (is_finite x) eqn:Fx, (is_finite y) eqn:Fy.
  - rewrite !ev_finite by auto. apply d_ltb_R; now split.
  - rewrite (ev_finite x) by auto. destruct y as [| [] | |]; try discriminate; cbn [ev].
    + rewrite Rlt_bool_false by lra. destruct x; try discriminate; reflexivity.
    + rewrite Rlt_bool_true by lra. destruct x; try discriminate; reflexivity.
  - rewrite (ev_finite y) by auto. destruct x as [| [] | |]; try discriminate; cbn [ev].
    + rewrite Rlt_bool_true by lra. destruct y; try discriminate; reflexivity.
    + rewrite Rlt_bool_false by lra. destruct y; try discriminate; reflexivity.
  - destruct x as [| [] | |], y as [| [] | |]; try discriminate; cbn [ev];
      (rewrite Rlt_bool_true by lra; reflexivity) || (rewrite Rlt_bool_false by lra; reflexivity).
Qed.

Lemma d_ltb_nan_l x y : is_nan x = true -> d_ltb x y = false.
Proof. destruct x; try discriminate. reflexivity. Qed.
Lemma d_ltb_nan_r x y : is_nan y = true -> d_ltb x y = false.
Proof. destruct y; try discriminate. destruct x; reflexivity. Qed.

Lemma d_ltb_iff x y : d_ltb x y = true <-> is_nan x = false /\ is_nan y = false /\ (ev x < ev y)%R.
Proof.
  destruct (is_nan x) eqn:Nx; [rewrite d_ltb_nan_l by auto; split; [discriminate|intros (? & _); discriminate]|].
  destruct (is_nan y) eqn:Ny; [rewrite d_ltb_nan_r by auto; split; [discriminate|intros (_ & ? & _); discriminate]|].
  rewrite d_ltb_ev by auto. destruct (Rlt_bool_spec (ev x) (ev y)); split; auto; try discriminate. intros (_ & _ & H'). lra.
Qed.

Lemma fin_notnan x r : fin x r -> is_nan x = false.
Proof. intros [H _]. destruct x; auto; discriminate. Qed.

(** the check for negative values on doubles: no entry is less than zero (NaN passes) *)
Lemma neg_check_dbl (c : gcon double) : neg_check DblMarg c = false <->
  forall i, index_in (g_sizes c) i -> d_ltb (g_at c i) d_zero = false.
Proof.
  unfold neg_check. cbn [mg_num DblMarg n_ltb n_max n_zero DblOps].
  assert (forall l mv, is_nan mv = false -> (d_ltb (fold_left (fun mv i => if d_ltb (g_at c i) mv then g_at c i else mv) l mv) d_zero = false <->
    d_ltb mv d_zero = false /\ forall i, In i l -> d_ltb (g_at c i) d_zero = false)) as G.
  { induction l as [|i l IH]; intros mv Hmv; cbn [fold_left]; [split; [intros H; split; [auto|easy]|tauto]|].
    destruct (d_ltb (g_at c i) mv) eqn:E.
    - pose proof (proj1 (d_ltb_iff _ _) E) as (N1 & N2 & L). rewrite IH by auto. split.
      + intros [H1 H2]. split.
        * apply not_true_iff_false. intros Hm. apply d_ltb_iff in Hm as (_ & N3 & L'). apply not_true_iff_false in H1. apply H1.
          apply d_ltb_iff. repeat split; auto. lra.
        * intros j [<-|Hj]; auto.
      + intros [H1 H2]. split; [apply H2; now left|]. intros j Hj. apply H2. now right.
    - rewrite IH by auto. split.
      + intros [H1 H2]. split; auto. intros j [->|Hj]; [|auto]. apply not_true_iff_false. intros Hx.
        apply d_ltb_iff in Hx as (N1 & N2 & L). apply not_true_iff_false in H1. apply H1. apply d_ltb_iff. repeat split; auto.
        apply not_true_iff_false in E. destruct (Rlt_le_dec (ev (g_at c j)) (ev mv)) as [L'|L']; [|lra].
        exfalso. apply E. apply d_ltb_iff. auto.
      + intros [H1 H2]. split; auto. intros j Hj. apply H2. now right. }
  rewrite G by reflexivity. split.
  - intros [_ H] i Hi. apply H. now apply in_all_indices.
  - intros H. split; [reflexivity|]. intros i Hi. apply H. now apply in_all_indices.
Qed.

(** * Doubles holding integers *)

Definition dcon (c : con) : gcon double := GC (c_dims c) (c_sizes c) (fun k => d_ofZ (c_at c k)).

Lemma map_outline_dcon cs : map outline (map dcon cs) = map (fun c => CON (c_dims c) (c_sizes c) (fun _ => 0)) cs.
Proof. now rewrite map_map. Qed.

Definition cexact (c : con) : Prop := csmall c /\ total (c_sizes c) (fun k => Z.abs (c_at c k)) <= 2 ^ 53.

Lemma at_le_total c i : index_in (c_sizes c) i -> Z.abs (c_at c i) <= total (c_sizes c) (fun k => Z.abs (c_at c k)).
Proof.
  intros Hi. unfold total. replace (Z.abs (c_at c i)) with (sumZ (map (fun k => Z.abs (c_at c k)) [i])) by (simpl; lia).
  apply sumZ_incl.
  - constructor; [easy|constructor].
  - intros x [<-|[]]. now apply in_all_indices.
  - intros x _. lia.
Qed.

Lemma neg_dcon c : cexact c -> (neg_check DblMarg (dcon c) = false <-> nonneg c).
Proof.
  intros [Hs Ht]. rewrite neg_check_dbl. cbn [dcon g_sizes g_at]. unfold nonneg.
  split; intros H i Hi; specialize (H i Hi); pose proof (at_le_total c i Hi) as Hb;
    assert (fin (d_ofZ (c_at c i)) (IZR (c_at c i))) as Hfin by (apply d_ofZ_exact; lia).
  - apply (d_ltb_false _ _ _ _ Hfin fin_zero) in H. now apply le_IZR in H.
  - apply (d_ltb_false _ _ _ _ Hfin fin_zero). now apply IZR_le.
Qed.

Lemma sums_fin (c : con) l : (forall i, In i l -> index_in (c_sizes c) i) -> NoDup l -> nonneg c -> cexact c ->
  fin (fold_left d_add (map (fun k => d_ofZ (c_at c k)) l) d_zero) (IZR (sumZ (map (c_at c) l))) /\ 0 <= sumZ (map (c_at c) l) <= 2 ^ 53.
Proof.
  intros Hl Hnd Hn [Hs Ht].
  assert (sumZ (map (c_at c) l) <= 2 ^ 53) as Hle.
  { eapply Z.le_trans; [|exact Ht]. apply Z.le_trans with (sumZ (map (fun k => Z.abs (c_at c k)) l)).
    - apply sumZ_map_le. intros. lia.
    - unfold total. apply sumZ_incl; auto; [intros x Hx; apply in_all_indices; auto|intros; lia]. }
  assert (forall i, In i l -> 0 <= c_at c i) as Hnn by (intros i Hi; apply Hn; auto).
  split; [|split; auto; apply sumZ_nonneg; intros x Hx; apply in_map_iff in Hx as (i & <- & Hi); auto].
  replace (IZR (sumZ (map (c_at c) l))) with (IZR (0 + sumZ (map (c_at c) l))) by (f_equal; lia).
  apply sum_fin; try lia; try apply fin_zero.
  - apply Forall2_map_same. intros i Hi. apply d_ofZ_exact. pose proof (at_le_total c i (Hl i Hi)). lia.
  - intros n Hx. apply in_map_iff in Hx as (i & <- & Hi). auto.
Qed.

Lemma pop_same x s : fin x (IZR s) -> 0 <= s <= 2 ^ 53 -> mg_pop DblMarg x = mg_pop IntMarg s.
Proof.
  intros Hx Hs. cbn [mg_pop DblMarg IntMarg].
  assert (fin (d_ofZ s) (IZR s)) as Hy by (apply d_ofZ_exact; lia).
  assert (Rabs (RN (IZR s + / 2)) < p2 1024)%R as Hb.
  { rewrite Rabs_pos_eq by (apply RN_nonneg; assert (0 <= IZR s)%R by (apply IZR_le; lia); lra).
    apply Rle_lt_trans with (p2 54); [|apply bpow_lt; lia]. apply RN_le_repr; [apply repr_p2; lia|].
    assert (IZR s <= IZR (2 ^ 53))%R by (apply IZR_le; lia). rewrite IZR_p2 in * by lia.
    replace (p2 54) with (2 * p2 53)%R by (change 2%R with (p2 1); rewrite <- bpow_plus; reflexivity).
    assert (1 <= p2 53)%R by (change 1%R with (p2 0); apply bpow_le; lia). lra. }
  pose proof (d_add_round _ _ _ _ Hx fin_half Hb) as H1. pose proof (d_add_round _ _ _ _ Hy fin_half Hb) as H2.
  unfold d_to_i64. rewrite (d_trunc _ _ H1), (d_trunc _ _ H2). destruct H1 as [-> _], H2 as [-> _]. reflexivity.
Qed.

Lemma fin_1em8 : fin d_1em8 (IZR 0x15798ee2308c3a * p2 (-79)).
Proof. apply d_lit_exact; lia. Qed.

Lemma close_same x y a b : fin x (IZR a) -> fin y (IZR b) -> 0 <= a <= 2 ^ 53 -> 0 <= b <= 2 ^ 53 ->
  n_close DblOps x y = (a =? b).
Proof.
  intros Hx Hy Ha Hb. cbn [n_close DblOps].
  assert (fin (d_sub x y) (IZR (a - b))) as Hd.
  { rewrite minus_IZR. apply d_sub_exact; auto; rewrite <- minus_IZR.
    - apply repr_Z. lia.
    - rewrite <- abs_IZR. apply Rle_lt_trans with (p2 53); [rewrite <- IZR_p2 by lia; apply IZR_le; lia|apply bpow_lt; lia]. }
  pose proof (d_abs_R _ _ Hd) as Habs. rewrite <- abs_IZR in Habs.
  assert (IZR 0x15798ee2308c3a * p2 (-79) < 1)%R as Hsmall.
  { replace 1%R with (p2 79 * p2 (-79))%R by (rewrite <- bpow_plus; reflexivity). apply Rmult_lt_compat_r; [apply bpow_gt_0|].
    rewrite <- IZR_p2 by lia. apply IZR_lt. lia. }
  assert (0 < IZR 0x15798ee2308c3a * p2 (-79))%R as Hpos by (apply Rmult_lt_0_compat; [apply IZR_lt; lia|apply bpow_gt_0]).
  destruct (Z.eqb_spec a b) as [->|Ne].
  - apply negb_true_iff. apply (d_ltb_false _ _ _ _ fin_1em8 Habs). rewrite Z.sub_diag. simpl. lra.
  - apply negb_false_iff. apply (d_ltb_true _ _ _ _ fin_1em8 Habs).
    assert (1 <= IZR (Z.abs (a - b)))%R by (apply IZR_le; lia). lra.
Qed.

Lemma allclose_same l l' ns ns' : Forall2 (fun x n => fin x (IZR n) /\ 0 <= n <= 2 ^ 53) l ns -> Forall2 (fun x n => fin x (IZR n) /\ 0 <= n <= 2 ^ 53) l' ns' ->
  allclose DblOps l l' = allclose IntOps ns ns'.
Proof.
  unfold allclose. intros H H'. rewrite (Forall2_len _ _ _ H), (Forall2_len _ _ _ H'). f_equal.
  revert l' ns' H'. induction H as [|x n l ns [Hx Hn] H IH]; intros l' ns' H'; [reflexivity|].
  destruct H' as [|y m l' ns' [Hy Hm] H']; [reflexivity|]. cbn [combine forallb]. rewrite (close_same x y n m) by auto.
  cbn [n_close IntOps]. f_equal. auto.
Qed.

(** reduce1 on a constraint's marginal *)
Lemma reduce1_same c j : nonneg c -> cexact c -> 0 <= j < Z.of_nat (length (c_sizes c)) ->
  exists v, reduce1 DblOps (gnd (dcon c)) j = Ok v /\ Forall2 (fun x n => fin x (IZR n) /\ 0 <= n <= 2 ^ 53) v (red c j).
Proof.
  intros Hn Hc Hj. pose proof Hc as [(Hf & Hl & _) _].
  exists (map (fun k => fold_left d_add (map (fun k => d_ofZ (c_at c k)) (filter (fun i => nth (Z.to_nat j) i 0 =? k) (all_indices (c_sizes c)))) d_zero)
    (zrange (nth (Z.to_nat j) (c_sizes c) 0))). split.
  - unfold gnd. cbn [dcon g_sizes g_at]. apply reduce1_mk; auto; try lia. intros k Hk. now apply (vec_sum_add DblOps d_add).
  - unfold red. apply Forall2_map_same. intros k Hk.
    destruct (sums_fin c (filter (fun i => nth (Z.to_nat j) i 0 =? k) (all_indices (c_sizes c)))) as [H1 H2]; auto.
    + intros i Hi. apply filter_In in Hi. now apply in_all_indices.
    + apply NoDup_filter, NoDup_all_indices.
    + unfold c_partial, margin, sum_where.
      assert (forall i, idx_eqb (proj [j] i) [k] = (nth (Z.to_nat j) i 0 =? k)) as E.
      { intros i. unfold proj. cbn [map]. unfold idx_eqb. destruct (list_eq_dec Z.eq_dec [nth (Z.to_nat j) i 0] [k]) as [E|N].
        - injection E as ->. symmetry. apply Z.eqb_refl.
        - symmetry. apply Z.eqb_neq. congruence. }
      rewrite (filter_ext _ _ E). auto.
Qed.

Lemma foldM_map2 {A B S} (h : A -> B) (f : B -> S -> outcome S) (f' : A -> S -> outcome S) l s :
  (forall a s, In a l -> f (h a) s = f' a s) -> foldM f (map h l) s = foldM f' l s.
Proof. intros H. rewrite foldM_map. apply foldM_ext. auto. Qed.

Lemma create_same cs sizes : implied cs sizes -> (2 <= length cs)%nat -> (forall c, In c cs -> cexact c) -> (forall c, In c cs -> nonneg c) ->
  create_mappings DblMarg (length sizes) (map c_dims cs) (map (fun c => gnd (dcon c)) cs) =
  create_mappings IntMarg (length sizes) (map c_dims cs) (map nd_of cs).
Proof.
  intros Hi H2 Hc Hn. unfold create_mappings.
  destruct (dim_lookup_ok (length sizes) cs) as (lk & -> & Hl & Hlk).
  { intros c Hin. eapply implied_valid_dims; eauto. }
  cbn [bind]. destruct cs as [|c0 cs]; [simpl in H2; lia|]. cbn [map tl].
  rewrite (vec_get_ok _ 0 (gnd (dcon c0))), (vec_get_ok _ 0 (nd_of c0)) by (simpl length; lia). cbn [bind Z.to_nat nth mg_num IntMarg DblMarg].
  assert (forall c, In c (c0 :: cs) -> exists x, nd_sum DblOps (gnd (dcon c)) = Ok x /\ fin x (IZR (c_total c)) /\ 0 <= c_total c <= 2 ^ 53 /\
     nd_sum IntOps (nd_of c) = Ok (c_total c)) as Hsum.
  { intros c Hin. pose proof (Hc c Hin) as [(Hf & _ & Ht) Ht']. destruct (sums_fin c (all_indices (c_sizes c))) as [F B]; auto.
    - intros i. apply in_all_indices.
    - apply NoDup_all_indices.
    - eexists. repeat split; try apply F; try apply B.
      + apply (nd_sum_gnd DblMarg d_add); auto using fits_pos.
      + unfold nd_of. apply nd_sum_int; auto; [apply (Hn c Hin)|]. pose proof (total_le_abs (c_sizes c) (c_at c)). lia. }
  destruct (Hsum c0 (or_introl eq_refl)) as (x0 & -> & F0 & B0 & ->). cbn [bind].
  rewrite (pop_same x0 (c_total c0)) by auto. destruct (mg_pop IntMarg (c_total c0)) as [pop| | |]; cbn [bind]; auto.
  match goal with |- bind ?A _ = bind ?B _ => assert (A = B) as -> end.
  { rewrite !foldM_map. apply foldM_ext. intros c s Hin. destruct (Hsum c (or_intror Hin)) as (x & -> & F & B & ->). cbn [bind].
    now rewrite (pop_same x (c_total c)). }
  match goal with |- bind ?A _ = bind ?B _ => destruct B; cbn [bind]; auto end.
  change (nd_of c0 :: map nd_of cs) with (map nd_of (c0 :: cs)).
  change (gnd (dcon c0) :: map (fun c => gnd (dcon c)) cs) with (map (fun c => gnd (dcon c)) (c0 :: cs)).
  match goal with |- bind ?A _ = bind ?B _ => assert (A = B) as -> end; auto.
  apply foldM_ext. intros l s Hin.
  assert (forall e, In e l -> exists c v, vec_get (map (fun c => gnd (dcon c)) (c0 :: cs)) (fst e) = Ok (gnd (dcon c)) /\
      vec_get (map nd_of (c0 :: cs)) (fst e) = Ok (nd_of c) /\
      reduce1 DblOps (gnd (dcon c)) (snd e) = Ok v /\ reduce1 IntOps (nd_of c) (snd e) = Ok (red c (snd e)) /\
      Forall2 (fun x n => fin x (IZR n) /\ 0 <= n <= 2 ^ 53) v (red c (snd e))) as He.
  { intros [k i] He. apply In_nth with (d := []) in Hin as (d & Hd & <-). rewrite Hl in Hd.
    apply Hlk in He as (n & j & c & -> & -> & Hnc & Hj); auto. cbn [fst snd].
    assert (In c (c0 :: cs)) as Hcin by (eapply nth_error_In; eauto).
    assert (0 <= Z.of_nat j < Z.of_nat (length (c_sizes c))) as Hjr.
    { rewrite <- (implied_lengths _ _ Hi c Hcin). assert (j < length (c_dims c))%nat by (apply nth_error_Some; congruence). lia. }
    destruct (reduce1_same c (Z.of_nat j)) as (v & Ev & Hv); auto.
    exists c, v. repeat split; auto.
    - apply vec_get_nth_error. now rewrite nth_error_map, Hnc.
    - apply vec_get_nth_error. now rewrite nth_error_map, Hnc.
    - apply reduce1_con; auto. now apply Hc. }
  destruct l as [|[k0 i0] [|e1 rest]]; auto.
  destruct (He (k0, i0) (or_introl eq_refl)) as (c & v & Ea & Eb & Ec & Ed & Ee). cbn [fst snd] in *.
  rewrite Ea, Eb. cbn [bind]. rewrite Ec, Ed. cbn [bind]. apply foldM_ext. intros [k i] s' Hin'.
  destruct (He (k, i) (or_intror Hin')) as (c' & v' & Ea' & Eb' & Ec' & Ed' & Ee'). cbn [fst snd] in *.
  rewrite Ea', Eb'. cbn [bind]. rewrite Ec', Ed'. cbn [bind]. now rewrite (allclose_same _ _ _ _ Ee' Ee).
Qed.

(** on doubles holding integers the constructor does what it does on the integers *)
Theorem micro_new_same {T} cs : (forall c, In c cs -> cexact c) ->
  micro_new (T := T) DblMarg (map c_dims cs) (map (fun c => gnd (dcon c)) cs) = micro_new IntMarg (map c_dims cs) (map nd_of cs).
Proof.
  intros Hc. unfold micro_new. rewrite !map_length, Nat.eqb_refl. cbn [negb orb].
  destruct (Nat.ltb_spec (length cs) 2) as [H2|H2]; auto.
  assert (collect_sizes (map c_dims cs) (map (fun c => gnd (dcon c)) cs) = collect_sizes (map c_dims cs) (map nd_of cs)) as ->.
  { clear. unfold collect_sizes. generalize (@nil (Z * Z)) as m. induction cs as [|c cs IH]; intros m; auto.
    cbn [map combine foldM]. change (nd_sizes (gnd (dcon c))) with (c_sizes c). change (nd_sizes (nd_of c)) with (c_sizes c).
    destruct (negb (Nat.eqb (length (c_dims c)) (length (c_sizes c)))); auto.
    destruct (foldM add_dim (combine (c_dims c) (c_sizes c)) m); cbn [bind]; try reflexivity. apply IH. }
  destruct (collect_spec cs) as [(m & -> & Hm & Hl)|((e & ->) & Hno)]; cbn [bind]; auto.
  destruct (Nat.ltb_spec (length m) 2) as [Hm2|Hm2]; auto.
  assert (forall l, incl l cs ->
    foldM (fun a (_ : unit) =>
          let* v := nd_min (mg_num DblMarg) a in
          if n_ltb (mg_num DblMarg) v (n_zero (mg_num DblMarg)) then Throw (RuntimeError "negative value in marginal")
          else Ok tt) (map (fun c => gnd (dcon c)) l) tt =
    foldM (fun a (_ : unit) =>
          let* v := nd_min (mg_num IntMarg) a in
          if n_ltb (mg_num IntMarg) v (n_zero (mg_num IntMarg)) then Throw (RuntimeError "negative value in marginal")
          else Ok tt) (map nd_of l) tt) as Hneg.
  { induction l as [|c l IH]; intros Hinc; auto. cbn [map foldM]. pose proof (Hc c (Hinc c (or_introl eq_refl))) as Hcc.
    pose proof Hcc as [(Fc & _) _]. rewrite (nd_min_gnd DblMarg) by exact Fc. cbn [bind]. fold (neg_check DblMarg (dcon c)).
    destruct (nd_min_mk (c_sizes c) (c_at c) Fc) as (v & Ev & Hv). cbn [mg_num IntMarg]. unfold nd_of at 1. rewrite Ev. cbn [bind n_ltb n_zero IntOps].
    assert (neg_check DblMarg (dcon c) = (v <? 0)) as ->.
    { destruct (Z.ltb_spec v 0) as [Hlt|Hge].
      - apply Hv in Hlt as (i & Hi & Hneg). apply not_false_iff_true. intros E. apply (neg_dcon c Hcc) in E. specialize (E i Hi). lia.
      - apply (neg_dcon c Hcc). intros i Hi. destruct (Z.lt_ge_cases (c_at c i) 0); auto. assert (v < 0) by (apply Hv; eauto). lia. }
    destruct (v <? 0); cbn [bind]; auto. apply IH. intros x Hx. apply Hinc. now right. }
  rewrite (Hneg cs (incl_refl _)). clear Hneg.
  destruct (neg_spec cs) as [(Hn & E)|(Hn & e & E)]; [intros c Hin; apply Hc; auto| |]; cbv zeta in E; cbn [mg_num IntMarg];
    rewrite E; clear E; cbn [bind]; auto.
  destruct (mapM_throw_or (fun k => match map_find m k with
                                   | Some n => Ok n
                                   | None => Throw (RuntimeError "dimension size not defined")
                                   end) (zrange (Z.of_nat (length m)))) as [(sizes & E)|(e & E)].
  { intros k _. destruct (map_find m k); eauto. }
  2:{ rewrite E. reflexivity. }
  rewrite E. cbn [bind]. destruct (sizes_of_map cs m sizes Hl Hm E) as [Hi Hlen]. rewrite <- Hlen.
  rewrite (create_same cs sizes Hi H2 Hc Hn). reflexivity.
Qed.
