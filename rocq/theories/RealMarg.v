(** The constructor of Microsynthesis on arbitrary doubles. *)
From Coq Require Import Reals Lra.
From Flocq Require Import Core.Core IEEE754.BinarySingleNaN.
From Verif Require Import Base Spec SpecFacts NDArray IndexProofs Float64 FloatProofs ArrayOps ArrayProofs Bind BindProofs
  Micro SynthSpec MicroProofs PickProofs SampleProofs SplitProofs QisProofs QisExpect IpfSpec Ipf IpfProofs MicroDbl IpfClaims IpfDbl MsgSpec MsgProofs RealMargSpec.
Open Scope Z_scope.

Lemma foldM_check_ok {A} (f : A -> unit -> outcome unit) l : (forall a, In a l -> f a tt = Ok tt) -> foldM f l tt = Ok tt.
Proof. induction l as [|a l IH]; intros H; [reflexivity|]. cbn [foldM]. rewrite H by now left. cbn [bind]. apply IH. intros. apply H. now right. Qed.

Section Gen.
Context {M : Type} (MO : MargOps M) (add : M -> M -> M).
Hypothesis Hadd : forall x y, n_add (mg_num MO) x y = Ok (add x y).

Definition along (c : gcon M) (j : nat) (v : Z) : M :=
  fold_left add (map (g_at c) (filter (fun i => idx_eqb (proj [Z.of_nat j] i) [v]) (all_indices (g_sizes c)))) (n_zero (mg_num MO)).
Definition alongs (c : gcon M) (j : nat) : list M := map (along c j) (zrange (nth j (g_sizes c) 0)).

Lemma reduce1_along c j : gsmall c -> (j < length (g_sizes c))%nat -> reduce1 (mg_num MO) (gnd c) (Z.of_nat j) = Ok (alongs c j).
Proof.
  intros [Hf Hl] Hj. unfold gnd, alongs. replace j with (Z.to_nat (Z.of_nat j)) at 3 by apply Nat2Z.id. apply reduce1_mk; auto; try lia.
  intros k Hk. rewrite (vec_sum_add _ add) by auto. unfold along. f_equal. f_equal. f_equal. apply filter_ext. intros i.
  unfold proj. cbn [map]. unfold idx_eqb. destruct (list_eq_dec Z.eq_dec [nth (Z.to_nat (Z.of_nat j)) i 0] [k]) as [E|N].
  - injection E as ->. apply Z.eqb_refl.
  - apply Z.eqb_neq. congruence.
Qed.

Lemma create_iff cs sizes pop : implied (map outline cs) sizes -> (2 <= length cs)%nat -> (forall c, In c cs -> gsmall c) ->
  (create_mappings MO (length sizes) (map g_dims cs) (map gnd cs) = Ok pop <->
   (forall c, In c cs -> mg_pop MO (gsum MO add c) = Ok pop) /\
   (forall d k0 j0 more k j c0 c, axes (map outline cs) d = (k0, j0) :: more -> In (k, j) more -> nth_error cs k0 = Some c0 -> nth_error cs k = Some c ->
      allclose (mg_num MO) (alongs c j) (alongs c0 j0) = true)).
Proof.
  intros Hi H2 Hs. unfold create_mappings.
  destruct (dim_lookup_axes (length sizes) (map outline cs)) as (lk & E & Hl & Hlk).
  { intros c Hc. eapply implied_valid_dims; eauto. }
  rewrite map_map in E. cbn [outline c_dims] in E. change (fun x : gcon M => g_dims x) with (@g_dims M) in E. rewrite E. clear E. cbn [bind].
  destruct cs as [|c0 cs']; [simpl in H2; lia|]. set (cs := c0 :: cs') in *.
  change (map gnd cs) with (gnd c0 :: map gnd cs').
  rewrite (vec_get_ok _ 0 (gnd c0)) by (simpl length; lia). cbn [bind Z.to_nat nth tl].
  assert (forall c, In c cs -> nd_sum (mg_num MO) (gnd c) = Ok (gsum MO add c)) as Hsum.
  { intros c Hc. apply nd_sum_gnd; auto. destruct (Hs c Hc) as [(_ & Hp & _) _]. auto. }
  rewrite (Hsum c0) by now left. cbn [bind].
  assert (forall d k j, In (k, j) (axes (map outline cs) d) -> exists c, nth_error cs k = Some c /\
     vec_get (gnd c0 :: map gnd cs') (Z.of_nat k) = Ok (gnd c) /\ reduce1 (mg_num MO) (gnd c) (Z.of_nat j) = Ok (alongs c j)) as Hred.
  { intros d k j Hin. apply axes_in in Hin as (c & Hk & Hj). rewrite nth_error_map in Hk. destruct (nth_error cs k) as [g|] eqn:Eg; [|discriminate].
    injection Hk as <-. exists g. split; auto. assert (In g cs) as Hc by (eapply nth_error_In; eauto).
    assert (j < length (g_dims g))%nat by (apply nth_error_Some; cbn [outline c_dims] in Hj; congruence).
    assert (length (g_dims g) = length (g_sizes g)) as Hlen.
    { apply (implied_lengths _ _ Hi (outline g)). apply in_map_iff. exists g. split; auto. }
    split.
    - change (gnd c0 :: map gnd cs') with (map gnd cs). apply vec_get_nth_error. now rewrite nth_error_map, Eg.
    - apply reduce1_along; [now apply Hs|lia]. }
  assert (forall d x, 0 <= d -> In x (axes (map outline cs) d) -> d < Z.of_nat (length sizes)) as Hdr.
  { intros d [k j] H0 Hin. apply axes_in in Hin as (c & Hk & Hj). apply nth_error_In in Hk, Hj. destruct Hi as [Hi _]. apply Hi. eauto. }
  assert (forall d x, In x (axes (map outline cs) d) -> 0 <= d) as Hd0.
  { intros d [k j] Hin. apply axes_in in Hin as (c & Hk & Hj). apply nth_error_In in Hk, Hj. destruct Hi as [Hi _]. apply (proj1 (Hi d)). eauto. }
  (* the check of one dimension *)
  set (chk := fun mi (_ : unit) => match mi with
      | (k0, i0) :: ((_ :: _) as rest) =>
          let* a0 := vec_get (gnd c0 :: map gnd cs') k0 in
          let* ms0 := reduce1 (mg_num MO) a0 i0 in
          foldM (fun '(k, i) (_ : unit) =>
                   let* a := vec_get (gnd c0 :: map gnd cs') k in
                   let* msi := reduce1 (mg_num MO) a i in
                   if allclose (mg_num MO) msi ms0 then Ok tt
                   else Throw (RuntimeError "marginal partial sum mismatch")) rest tt
      | _ => Ok tt
      end).
  assert (forall d, (d < length sizes)%nat -> (chk (nth d lk []) tt = Ok tt <->
     forall k0 j0 more k j c0 c, axes (map outline cs) (Z.of_nat d) = (k0, j0) :: more -> In (k, j) more -> nth_error cs k0 = Some c0 -> nth_error cs k = Some c ->
      allclose (mg_num MO) (alongs c j) (alongs c0 j0) = true)) as Hchk.
  { intros d Hd. rewrite Hlk by auto. pose proof (Hred (Z.of_nat d)) as Hr. destruct (axes (map outline cs) (Z.of_nat d)) as [|[k0 j0] [|[k1 j1] rest]].
    - split; [discriminate|reflexivity].
    - split; [intros _ ? ? ? ? ? ? ? [= <- <- <-] []|reflexivity].
    - destruct (Hr k0 j0 (or_introl eq_refl)) as (a0 & Hk0 & G0 & R0). cbn [map fst snd].
      change ((Z.of_nat k1, Z.of_nat j1) :: map (fun p => (Z.of_nat (fst p), Z.of_nat (snd p))) rest) with
        (map (fun p => (Z.of_nat (fst p), Z.of_nat (snd p))) ((k1, j1) :: rest)).
      cbn [chk map fst snd]. rewrite G0. cbn [bind]. rewrite R0. cbn [bind].
      change ((Z.of_nat k1, Z.of_nat j1) :: map (fun p => (Z.of_nat (fst p), Z.of_nat (snd p))) rest) with
        (map (fun p => (Z.of_nat (fst p), Z.of_nat (snd p))) ((k1, j1) :: rest)).
      split.
      + intros H. intros k0' j0' more k j b0 c [= <- <- <-] Hin Hb Hc. assert (b0 = a0) as -> by congruence.
        assert (In (Z.of_nat k, Z.of_nat j) (map (fun p => (Z.of_nat (fst p), Z.of_nat (snd p))) ((k1, j1) :: rest))) as Hin'.
        { apply in_map_iff. exists (k, j). auto. }
        pose proof (foldM_check_inv _ _ H _ Hin') as Hx. cbn beta iota in Hx.
        destruct (Hr k j (or_intror Hin)) as (c' & Hk' & G' & R'). rewrite G' in Hx. cbn [bind] in Hx. rewrite R' in Hx. cbn [bind] in Hx.
        assert (c' = c) as -> by congruence. destruct (allclose _ _ _); auto. discriminate Hx.
      + intros H. apply foldM_check_ok. intros [k' j'] Hin. apply in_map_iff in Hin as ([k j] & [= <- <-] & Hin).
        destruct (Hr k j (or_intror Hin)) as (c' & Hk' & G' & R'). rewrite G'. cbn [bind]. rewrite R'. cbn [bind].
        now rewrite (H k0 j0 _ k j a0 c' eq_refl Hin Hk0 Hk'). }
  split.
  - intros Ec. destruct (mg_pop MO (gsum MO add c0)) as [p0| | |] eqn:Ep0; cbn [bind] in Ec; try discriminate.
    destruct (foldM (fun a (_ : unit) =>
      let* s := nd_sum (mg_num MO) a in
      let* p := mg_pop MO s in
      if p =? p0 then Ok tt else Throw (RuntimeError "marginal sum mismatch")) (map gnd cs') tt) as [[]| | |] eqn:Ef; cbn [bind] in Ec; try discriminate.
    fold chk in Ec. destruct (foldM chk lk tt) as [[]| | |] eqn:Eg; cbn [bind] in Ec; try discriminate. injection Ec as ->. split.
    + intros c [<-|Hc]; auto. pose proof (foldM_check_inv _ _ Ef (gnd c) (in_map _ _ _ Hc)) as Ec'. cbv beta in Ec'.
      rewrite Hsum in Ec' by now right. cbn [bind] in Ec'. destruct (mg_pop MO (gsum MO add c)) as [p| | |]; cbn [bind] in Ec'; try discriminate.
      destruct (Z.eqb_spec p pop); congruence.
    + intros d k0 j0 more k j a0 c Ea Hin H0 H1. assert (In (k0, j0) (axes (map outline cs) d)) as Hx by (rewrite Ea; now left).
      pose proof (Hd0 _ _ Hx) as Hd. pose proof (Hdr _ _ Hd Hx) as Hd'.
      assert (chk (nth (Z.to_nat d) lk []) tt = Ok tt) as Hc by (apply (foldM_check_inv _ _ Eg); apply nth_In; lia).
      pose proof (proj1 (Hchk (Z.to_nat d) ltac:(lia)) Hc) as Hc'. rewrite Z2Nat.id in Hc' by auto. eapply Hc'; eauto.
  - intros [Hp Hpa]. rewrite (Hp c0) by now left. cbn [bind].
    rewrite foldM_check_ok. 2:{ intros a Ha. apply in_map_iff in Ha as (c & <- & Hc). rewrite Hsum by now right. cbn [bind]. rewrite Hp by now right. cbn [bind]. now rewrite Z.eqb_refl. }
    cbn [bind]. fold chk. rewrite foldM_check_ok; [reflexivity|]. intros mi Hmi. apply In_nth with (d := []) in Hmi as (d & Hd & <-).
    apply Hchk; [lia|]. intros k0 j0 more k j a0 c Ea Hin H0 H1. eapply Hpa; eauto.
Qed.

Lemma micro_new_iff {T} cs : (forall c, In c cs -> gsmall c) -> (forall sizes, implied (map outline cs) sizes -> prodZ sizes < 2 ^ 60) ->
  ((exists ms, micro_new (T := T) MO (map g_dims cs) (map gnd cs) = Ok ms) <->
   (2 <= length cs)%nat /\ (exists sizes, implied (map outline cs) sizes /\ (2 <= length sizes)%nat) /\
   (forall c, In c cs -> neg_check MO c = false) /\
   (exists pop, forall c, In c cs -> mg_pop MO (gsum MO add c) = Ok pop) /\
   (forall d k0 j0 more k j c0 c, axes (map outline cs) d = (k0, j0) :: more -> In (k, j) more -> nth_error cs k0 = Some c0 -> nth_error cs k = Some c ->
      allclose (mg_num MO) (alongs c j) (alongs c0 j0) = true)).
Proof.
  intros Hs Hpr. unfold micro_new. rewrite !map_length, Nat.eqb_refl. cbn [negb orb].
  destruct (Nat.ltb_spec (length cs) 2) as [H2|H2].
  { split; [intros (ms & H); discriminate|intros (H & _); lia]. }
  rewrite collect_outline.
  destruct (collect_spec (map outline cs)) as [(m & -> & Hm & Hl)|((e & ->) & Hno)]; cbn [bind].
  2:{ split; [intros (ms & H); discriminate|]. intros (_ & (sizes & Hi & _) & _). exfalso. apply Hno. split; [eapply implied_lengths|eapply implied_functional]; eauto. }
  destruct (Nat.ltb_spec (length m) 2) as [Hm2|Hm2].
  { split; [intros (ms & H); discriminate|]. intros (_ & (sizes & Hi & Hs2) & _). destruct (map_of_sizes _ m sizes Hi Hm). lia. }
  set (neg := fun a (_ : unit) =>
          let* v := nd_min (mg_num MO) a in
          if n_ltb (mg_num MO) v (n_zero (mg_num MO)) then Throw (RuntimeError "negative value in marginal")
          else Ok tt).
  assert (forall c, In c cs -> neg (gnd c) tt = if neg_check MO c then Throw (RuntimeError "negative value in marginal") else Ok tt) as Hneg.
  { intros c Hc. unfold neg. rewrite nd_min_gnd by (now apply Hs). reflexivity. }
  destruct (foldM neg (map gnd cs) tt) as [[]|e|w|] eqn:E.
  2,3,4: (cbn [bind]; split; [intros (ms & H); discriminate|]; intros (_ & _ & Hn & _); exfalso;
      rewrite foldM_check_ok in E; [discriminate|]; intros a Ha; apply in_map_iff in Ha as (c & <- & Hc); rewrite Hneg by auto; now rewrite Hn).
  assert (forall c, In c cs -> neg_check MO c = false) as Hn.
  { intros c Hc. pose proof (foldM_check_inv _ _ E (gnd c) (in_map _ _ _ Hc)) as H. rewrite Hneg in H by auto. destruct (neg_check MO c); congruence. }
  cbn [bind]. clear E.
  destruct (mapM_throw_or (fun k => match map_find m k with
                                   | Some n => Ok n
                                   | None => Throw (RuntimeError "dimension size not defined")
                                   end) (zrange (Z.of_nat (length m)))) as [(sizes & E)|(e & E)].
  { intros k _. destruct (map_find m k); eauto. }
  2:{ rewrite E. cbn [bind]. split; [intros (ms & H); discriminate|]. intros (_ & (sizes & Hi & _) & _).
      destruct (map_of_sizes _ m sizes Hi Hm) as [_ E']. congruence. }
  rewrite E. cbn [bind]. destruct (sizes_of_map _ m sizes Hl Hm E) as [Hi Hlen]. rewrite <- Hlen in *.
  assert (fits sizes) as Fz.
  { eapply implied_fits; eauto. intros c Hc. apply in_map_iff in Hc as (g & <- & Hg). destruct (Hs g Hg) as [Fg Lg].
    split; [exact Fg|split; [exact Lg|]]. cbn [outline c_sizes c_at]. unfold total. rewrite sumZ_map_const. cbn. lia. }
  pose proof (create_iff cs sizes) as Hci. split.
  - intros (ms & H). destruct (create_mappings MO (length sizes) (map g_dims cs) (map gnd cs)) as [pop|e|w|] eqn:Ec; try discriminate.
    destruct (proj1 (Hci pop Hi H2 Hs) eq_refl) as [Hp Hpa]. split; [auto|]. split; [exists sizes; auto|]. split; [auto|]. split; [now exists pop|exact Hpa].
  - intros (_ & _ & _ & (pop & Hp) & Hpa). rewrite (proj2 (Hci pop Hi H2 Hs) (conj Hp Hpa)). cbn [bind]. rewrite nd_new_ok by auto. cbn [bind]. eauto.
Qed.
End Gen.

(** * Doubles *)


(** * Doubles *)
From Verif Require Import FloatExt RealSpec IntegeriseDbl IntegeriseProofs ExpectRound Raking IpfRound.
Open Scope Z_scope.

Lemma filter_true {A} (l : list A) (q : A -> bool) : (forall x, In x l -> q x = true) -> filter q l = l.
Proof. induction l as [|a l IH]; intros H; [reflexivity|]. cbn. rewrite H by now left. f_equal. apply IH. intros. apply H. now right. Qed.
Lemma sumD_gsum c : sumD c = gsum DblMarg d_add c.
Proof. unfold sumD, gsum, marginD. rewrite filter_true; [reflexivity|]. intros i _. reflexivity. Qed.
Lemma alongD_along c j v : alongD c j v = along DblMarg d_add c j v.
Proof. reflexivity. Qed.

Lemma nonneg_B2R x : is_finite x = true -> d_ltb x d_zero = false -> (0 <= B2R x)%R.
Proof.
  intros Fx H. rewrite (d_ltb_R x d_zero (B2R x) 0%R) in H; [|now split|now split]. destruct (Rlt_bool_spec (B2R x) 0); [discriminate|auto].
Qed.

Lemma fold_nonneg l : forall a, is_finite (fold_left d_add l a) = true -> (0 <= B2R a)%R -> (forall x, In x l -> d_ltb x d_zero = false) ->
  (0 <= B2R (fold_left d_add l a))%R.
Proof.
  induction l as [|x l IH]; intros a Hf Ha Hl; cbn [fold_left] in *; [auto|].
  destruct (fold_add_finite l _ Hf) as [F1 _]. destruct (FloatExt.d_add_finite _ _ F1) as [Fa Fx].
  destruct (d_add_fin a x _ _ (fin_B2R _ Fa) (fin_B2R _ Fx) F1) as [_ V].
  apply IH; auto; [|intros; apply Hl; now right]. rewrite V. apply RN_nonneg. pose proof (nonneg_B2R x Fx (Hl x (or_introl eq_refl))). lra.
Qed.

Lemma sumD_nonneg c : is_finite (sumD c) = true -> (forall i, index_in (g_sizes c) i -> d_ltb (g_at c i) d_zero = false) -> (0 <= B2R (sumD c))%R.
Proof.
  intros Hf Hn. unfold sumD, marginD in *. apply fold_nonneg; auto; [cbn; lra|]. intros x Hx. apply in_map_iff in Hx as (i & <- & Hi).
  apply filter_In in Hi as [Hi _]. apply Hn. now apply in_all_indices.
Qed.

(** the conversion of a total *)
Lemma p2_62 : p2 62 = (2 * p2 61)%R.
Proof. change 62 with (1 + 61). rewrite bpow_plus. reflexivity. Qed.
Lemma p2_63 : p2 63 = (4 * p2 61)%R.
Proof. change 63 with (2 + 61). rewrite bpow_plus. reflexivity. Qed.

Lemma half_fin s : is_finite s = true -> (Rabs (B2R s) <= p2 62)%R -> fin (d_add s d_half) (RN (B2R s + / 2)) /\ (Rabs (RN (B2R s + / 2)) < p2 63)%R.
Proof.
  intros Fs H. pose proof p2_62. pose proof p2_63. assert (1 <= p2 61)%R as H61 by (apply (bpow_le radix2 0 61); lia). apply Rabs_le_inv in H.
  assert (RN (B2R s + / 2) <= IZR 3 * p2 61)%R as Hle by (apply RN_le_repr; [apply repr_dyadic; lia|lra]).
  assert (IZR (- 3) * p2 61 <= RN (B2R s + / 2))%R as Hge by (apply RN_ge_repr; [apply repr_dyadic; lia|lra]).
  assert (Rabs (RN (B2R s + / 2)) < p2 63)%R as Hb by (apply Rabs_lt; lra). split; auto.
  apply d_add_round; [now apply fin_B2R|apply fin_half|]. apply Rlt_trans with (1 := Hb). apply bpow_lt. lia.
Qed.

Lemma pop_ok s : is_finite s = true -> (Rabs (B2R s) <= p2 62)%R -> mg_pop DblMarg s = Ok (Ztrunc (B2R (d_add s d_half))).
Proof.
  intros Fs H. destruct (half_fin s Fs H) as [[Fr Er] Hb]. rewrite <- Er in Hb. cbn [mg_pop DblMarg]. apply d_to_i64_ok; [now apply fin_B2R|].
  assert (Z.abs (Ztrunc (B2R (d_add s d_half))) < 2 ^ 63); [|lia]. apply lt_IZR. rewrite abs_IZR.
  apply Rle_lt_trans with (Rabs (B2R (d_add s d_half))).
  - rewrite <- abs_IZR, <- Ztrunc_abs. rewrite Ztrunc_floor by apply Rabs_pos. apply Zfloor_lb.
  - change (2 ^ 63) with (Zpower radix2 63). rewrite (IZR_Zpower radix2 63) by lia. exact Hb.
Qed.

Lemma pop_iff s p : is_finite s = true -> (Rabs (B2R s) <= p2 62)%R -> (0 <= B2R s)%R ->
  (mg_pop DblMarg s = Ok p <-> (IZR p <= B2R (d_add s d_half) < IZR p + 1)%R).
Proof.
  intros Fs H H0. rewrite pop_ok by auto. destruct (half_fin s Fs H) as [[Fr Er] _].
  assert (0 <= B2R (d_add s d_half))%R by (rewrite Er; apply RN_nonneg; lra). rewrite Ztrunc_floor by auto. set (r := B2R (d_add s d_half)) in *. split.
  - intros [= <-]. pose proof (Zfloor_lb r). pose proof (Zfloor_ub r). lra.
  - intros [H2 H3]. f_equal. apply Zfloor_imp. rewrite plus_IZR. auto.
Qed.

Lemma neg_check_all (cs : list (gcon double)) : (forall c, In c cs -> neg_check DblMarg c = false) <->
  (forall c i, In c cs -> index_in (g_sizes c) i -> d_ltb (g_at c i) d_zero = false).
Proof.
  split.
  - intros H c i Hc. now apply neg_check_dbl, H.
  - intros H c Hc. apply neg_check_dbl. intros i. now apply H.
Qed.

Lemma combine_map_same {A B C} (f : A -> B) (g : A -> C) l : combine (map f l) (map g l) = map (fun x => (f x, g x)) l.
Proof. induction l as [|a l IH]; cbn; congruence. Qed.

Lemma allclose_v c c0 j j0 : nth j (g_sizes c) 0 = nth j0 (g_sizes c0) 0 ->
  (allclose DblOps (alongs DblMarg d_add c j) (alongs DblMarg d_add c0 j0) = true <->
   forall v, 0 <= v < nth j (g_sizes c) 0 -> d_ltb d_1em8 (d_abs (d_sub (alongD c j v) (alongD c0 j0 v))) = false).
Proof.
  intros E. unfold alongs, allclose. rewrite <- E, !map_length, Nat.eqb_refl, combine_map_same. cbn [andb].
  rewrite forallb_forall. split.
  - intros H v Hv. specialize (H (alongD c j v, alongD c0 j0 v)). cbn [n_close DblOps] in H. apply negb_true_iff. apply H.
    apply in_map_iff. exists v. split; [reflexivity|]. now apply in_zrange.
  - intros H [x y] Hin. apply in_map_iff in Hin as (v & [= <- <-] & Hv). apply in_zrange in Hv. cbn [n_close DblOps].
    apply negb_true_iff. now apply H.
Qed.

Lemma shared_length (cs : list (gcon double)) sizes d k j c : implied (map outline cs) sizes -> In (k, j) (axes (map outline cs) d) -> nth_error cs k = Some c ->
  nth_error (g_dims c) j = Some d /\ nth j (g_sizes c) 0 = nth (Z.to_nat d) sizes 0.
Proof.
  intros [_ Hi] Hin Hk. apply axes_in in Hin as (c' & Hk' & Hj). rewrite nth_error_map, Hk in Hk'. injection Hk' as <-. cbn [outline c_dims] in Hj.
  split; auto. destruct (Hi (outline c)) as [Hl E]; [apply in_map; eapply nth_error_In; eauto|]. cbn [outline c_dims c_sizes] in *.
  apply (f_equal (fun l => nth j l 0)) in E. rewrite <- E. unfold proj.
  rewrite (nth_indep _ 0 (nth (Z.to_nat 0) sizes 0)) by (rewrite map_length; apply nth_error_Some; congruence).
  rewrite (map_nth (fun d => nth (Z.to_nat d) sizes 0) (g_dims c) 0). now rewrite (nth_error_nth _ _ 0 Hj).
Qed.

Lemma micro_consistent {T} cs : (forall c, In c cs -> gsmall c) -> (forall sizes, implied (map outline cs) sizes -> prodZ sizes < 2 ^ 60) ->
  totals_ok cs -> ((exists ms, micro_new (T := T) DblMarg (map g_dims cs) (map gnd cs) = Ok ms) <-> consistent cs).
Proof.
  intros Hs Hpr Ht. rewrite (micro_new_iff DblMarg d_add (fun _ _ => eq_refl) cs Hs Hpr). rewrite neg_check_all. unfold consistent.
  split; intros (H1 & H2 & H3 & (p & Hp) & Hpa); (split; [exact H1|split; [exact H2|split; [exact H3|split]]]).
  - exists p. intros c Hc. destruct (Ht c Hc) as [F B]. assert (0 <= B2R (sumD c))%R as H0 by (apply sumD_nonneg; auto; intros i; now apply H3).
    pose proof (pop_iff (sumD c) p F B H0) as Hiff.
    apply Hiff. rewrite sumD_gsum. now apply Hp.
  - intros d k0 j0 more k j c0 c v Ea Hin E0 E1. destruct H2 as (sizes & Hi & _).
    apply allclose_v; [|eapply Hpa; eauto].
    destruct (shared_length cs sizes d k j c Hi) as [_ ->]; auto; [rewrite Ea; now right|].
    destruct (shared_length cs sizes d k0 j0 c0 Hi) as [_ ->]; auto. rewrite Ea; now left.
  - exists p. intros c Hc. destruct (Ht c Hc) as [F B]. assert (0 <= B2R (sumD c))%R as H0 by (apply sumD_nonneg; auto; intros i; now apply H3).
    pose proof (pop_iff (sumD c) p F B H0) as Hiff.
    rewrite <- sumD_gsum. apply Hiff. now apply Hp.
  - intros d k0 j0 more k j c0 c Ea Hin E0 E1. destruct H2 as (sizes & Hi & _). apply allclose_v.
    + destruct (shared_length cs sizes d k j c Hi) as [_ ->]; auto; [rewrite Ea; now right|].
      destruct (shared_length cs sizes d k0 j0 c0 Hi) as [_ ->]; auto. rewrite Ea; now left.
    + intros v. eapply Hpa; eauto.
Qed.

(** ** the call *)
Section Call.
Context (fuel : nat) (seed : ndarray double) (ilist : list (ndarray Z)) (mlist : list (ndarray double)).
Hypothesis Hr : d_range ilist mlist.
Hypothesis Hpr : all_proper d_zero ilist mlist.
Hypothesis Hws : wf_array seed.
Hypothesis Hs : prodZ (shape seed) < 2 ^ 60.
Hypothesis Hfu : prodZ (shape seed) < Z.of_nat fuel.
Let cs := dcons_of ilist mlist.

Lemma validation_claim : totals_ok cs ->
  ((exists res, py_ipf fuel seed ilist mlist = Ok res) <-> g_vectors ilist mlist /\ consistent cs /\ implied (map outline cs) (shape seed)) /\
  ((exists e, py_ipf fuel seed ilist mlist = Throw e) <-> ~ (g_vectors ilist mlist /\ consistent cs /\ implied (map outline cs) (shape seed))).
Proof.
  intros Ht.
  assert ((exists res, py_ipf fuel seed ilist mlist = Ok res) <-> g_vectors ilist mlist /\ consistent cs /\ implied (map outline cs) (shape seed)) as Hiff.
  { split.
    - intros (res & E). destruct (ipf_ok fuel seed ilist mlist Hr Hpr Hws Hs Hfu res E) as (f' & pop & Ha & _). fold cs in Ha.
      pose proof Ha as (Hv & _ & _ & Hi & _). split; [exact Hv|]. split; [|exact Hi].
      unfold py_ipf, py_ipf_gen in E. destruct (py_lists_gen d_zero ilist mlist Hr) as [[_ Hl]|[_ (e & Hl)]]; rewrite Hl in E; cbn [bind] in E; [|discriminate].
      fold (dcons_of ilist mlist) in E. fold cs in E. apply (micro_consistent (T := double) cs (range_gsmall d_zero _ _ Hr) (proj2 Hr) Ht).
      destruct (micro_new DblMarg (map g_dims cs) (map gnd cs)) as [ms| | |]; [eauto|discriminate|discriminate|discriminate].
    - intros (Hv & Hc & Hi). apply (micro_consistent (T := double) cs (range_gsmall d_zero _ _ Hr) (proj2 Hr) Ht) in Hc as (ms & Em).
      destruct (py_lists_gen d_zero ilist mlist Hr) as [[_ Hl]|[Hn _]]; [|contradiction]. fold (dcons_of ilist mlist) in Hl. fold cs in Hl.
      pose proof (micro_new_tri DblMarg d_add (fun _ _ => eq_refl) dpop_cases (T := double) cs (range_gsmall d_zero _ _ Hr) (proj2 Hr)) as Htri.
      rewrite Em in Htri. destruct Htri as (sizes & pop & Hi' & Hf & _ & _ & _ & _ & ->).
      assert (sizes = shape seed) as -> by (apply (implied_unique (map outline cs)); auto).
      assert (forall c, In c cs -> well_indexed (shape seed) c) as Hwi.
      { intros c Hc. apply (well_indexed_of cs); auto. now apply (range_gsmall d_zero _ _ Hr). }
      unfold py_ipf, py_ipf_gen. rewrite Hl. cbn [bind]. rewrite Em. cbn [bind]. rewrite (as_nd_ok d_zero) by auto. cbn [bind].
      rewrite (ipf_solve_ok DS DblErr d_add) by auto.
      destruct (sweeps DS DblErr d_add (shape seed) cs (Z.to_nat 1000) (entry d_zero seed) 0) as [f' n']. cbn [bind is_arr is_conv is_iters is_max].
      rewrite from_nd_mk by now apply fits_pos. eexists. reflexivity. }
  split; [exact Hiff|]. rewrite <- Hiff. split.
  - intros (e & E) (res & E'). congruence.
  - intros Hn. destruct (ipf_terminates_claim fuel seed ilist mlist Hr Hpr Hws Hs Hfu) as [H|[H|(w & E & c & Hc & Eb)]]; [contradiction|exact H|exfalso].
    fold cs in Hc. destruct (Ht c Hc) as [F B]. rewrite <- sumD_gsum in Eb. pose proof (pop_ok _ F B) as Ep. cbn [mg_pop DblMarg] in Ep. congruence.
Qed.
End Call.

(** ** exact agreement suffices, away from half-integers and up to a size *)
Lemma sum_finite l : forall a j t, is_finite a = true -> (0 <= B2R a)%R -> (forall x, In x l -> is_finite x = true /\ (0 <= B2R x)%R) -> (0 <= t)%R ->
  rel j (B2R a) t -> (t + sumR (map B2R l) <= p2 100)%R -> (INR (j + length l) * p2 (-52) <= / 2)%R -> is_finite (fold_left d_add l a) = true.
Proof.
  induction l as [|x l IH]; intros a j t Fa Ha Hl Ht Hr Hb Hk; cbn [fold_left]; [exact Fa|].
  destruct (Hl x (or_introl eq_refl)) as [Fx Px]. cbn [map sumR fold_right] in Hb. change (fold_right Rplus 0%R (map B2R l)) with (sumR (map B2R l)) in Hb.
  assert (0 <= sumR (map B2R l))%R as Hs.
  { apply sumR_nonneg, Forall_forall. intros y Hy. apply in_map_iff in Hy as (z & <- & Hz). apply Hl. now right. }
  assert (repr (B2R a)) as Ra by (apply (fin_repr a); now apply fin_B2R).
  assert (repr (B2R x)) as Rx by (apply (fin_repr x); now apply fin_B2R).
  assert (B2R a <= 2 * t)%R as Ha2.
  { destruct Hr as [_ Hr]. pose proof (bpow_gt_0 radix2 (-52)) as Hp. assert (INR j * p2 (-52) <= / 2)%R as Hj.
    { apply Rle_trans with (2 := Hk). apply Rmult_le_compat_r; [lra|]. apply le_INR. lia. }
    pose proof (EE_bound j Hj). apply Rle_trans with (1 := Hr). rewrite Rmult_comm. apply Rmult_le_compat_r; lra. }
  assert (fin (d_add a x) (RN (B2R a + B2R x))) as [F V].
  { apply d_add_round; [now apply fin_B2R|now apply fin_B2R|]. rewrite Rabs_pos_eq by (apply RN_nonneg; lra).
    apply Rle_lt_trans with (p2 101); [|apply bpow_lt; lia]. apply RN_le_repr; [apply repr_p2; lia|].
    change 101 with (1 + 100). rewrite bpow_plus. change (bpow radix2 1) with 2%R. lra. }
  apply (IH _ (1 + j)%nat (t + B2R x)%R); auto.
  - rewrite V. apply RN_nonneg. lra.
  - intros y Hy. apply Hl. now right.
  - lra.
  - rewrite V. eapply rel_trans; [now apply rel_plus|]. apply rel_add; [exact Hr|now apply rel_refl].
  - lra.
  - replace (1 + j + length l)%nat with (j + length (x :: l))%nat by (cbn; lia). exact Hk.
Qed.

Lemma sum_close l : (forall x, In x l -> is_finite x = true /\ (0 <= B2R x)%R) -> (sumR (map B2R l) <= p2 100)%R -> (INR (length l) * p2 (-52) <= / 2)%R ->
  is_finite (fold_left d_add l d_zero) = true /\ (0 <= B2R (fold_left d_add l d_zero))%R /\
  (Rabs (B2R (fold_left d_add l d_zero) - sumR (map B2R l)) <= sumR (map B2R l) * (INR (length l) * p2 (-51)))%R.
Proof.
  intros Hl Hb Hk.
  assert (is_finite (fold_left d_add l d_zero) = true) as Hf.
  { apply (sum_finite l d_zero 0 0%R); [reflexivity|cbn; lra|exact Hl|lra|apply rel_refl; cbn; lra|lra|exact Hk]. }
  split; [exact Hf|].
  assert (0 <= sumR (map B2R l))%R as Hs.
  { apply sumR_nonneg, Forall_forall. intros y Hy. apply in_map_iff in Hy as (z & <- & Hz). now apply Hl. }
  pose proof (sum_rel l d_zero 0%R 0%nat Hf (fun x Hx => proj2 (Hl x Hx)) ltac:(cbn; lra) ltac:(lra) ltac:(apply rel_refl; cbn; lra)) as Hr.
  rewrite Rplus_0_l in Hr. cbn [Nat.add] in Hr. split; [|now apply rel_abs].
  destruct Hr as [Hr _]. match type of Hr with (_ <= _ * EE ^ ?k)%R => pose proof (EE_pow k) as He; set (e := (EE ^ k)%R) in * end.
  set (s := B2R (fold_left d_add l d_zero)) in *.
  destruct (Rle_or_lt 0 s) as [H|H]; [exact H|]. assert (s * e < 0)%R by (rewrite <- (Rmult_0_l e); apply Rmult_lt_compat_r; lra). lra.
Qed.

Section Enough.
Context (cs : list (gcon double)) (t : R) (n : Z).
Hypothesis Ha : agree cs t.
Hypothesis Hn : forall c, In c cs -> 1 <= prodZ (g_sizes c) <= n.
Hypothesis Hf : forall c, In c cs -> fits (g_sizes c).
Hypothesis H51 : n <= 2 ^ 51.
Hypothesis Htn : (t * IZR n <= p2 23)%R.

Lemma t_nonneg : (0 <= t)%R.
Proof.
  destruct Ha as (H2 & _ & Hp & Ht & _). destruct cs as [|c cs']; [cbn in H2; lia|]. rewrite <- (Ht c) by now left.
  apply sumR_nonneg, Forall_forall. intros y Hy. apply in_map_iff in Hy as (i & <- & Hi). apply Hp; [now left|]. now apply in_all_indices.
Qed.
Lemma t_le : (t <= p2 23)%R.
Proof.
  pose proof t_nonneg. destruct Ha as (H2 & _). destruct cs as [|c cs']; [cbn in H2; lia|]. pose proof (Hn c (or_introl eq_refl)) as H1.
  assert (1 <= IZR n)%R by (apply IZR_le; lia). nra.
Qed.

Lemma part_close c (q : list Z -> bool) : In c cs ->
  let l := filter q (all_indices (g_sizes c)) in
  is_finite (fold_left d_add (map (g_at c) l) d_zero) = true /\ (0 <= B2R (fold_left d_add (map (g_at c) l) d_zero))%R /\
  (Rabs (B2R (fold_left d_add (map (g_at c) l) d_zero) - fold_right Rplus 0 (map (fun i => B2R (g_at c i)) l)) <= p2 (-28))%R.
Proof.
  intros Hc l. pose proof Ha as (_ & _ & Hp & Ht & _). pose proof t_nonneg as T0. pose proof t_le as T1.
  assert (sumR (map B2R (map (g_at c) l)) <= t)%R as Hs.
  { rewrite <- (Ht c Hc). unfold sum_exact. rewrite map_map. apply (sumR_filter_le (fun i => B2R (g_at c i))).
    intros i Hi. apply Hp; auto. now apply in_all_indices. }
  assert (INR (length (map (g_at c) l)) <= IZR n)%R as Hlen.
  { rewrite map_length. apply Rle_trans with (INR (length (all_indices (g_sizes c)))).
    - apply le_INR. unfold l. clear. induction (all_indices (g_sizes c)) as [|i r IH]; cbn; [lia|]. destruct (q i); cbn; lia.
    - rewrite INR_IZR_INZ. apply IZR_le. rewrite length_all_indices; [now apply Hn|now apply positive_nonneg, fits_pos, Hf]. }
  assert (IZR n <= p2 51)%R as Hn51 by (rewrite <- IZR_Zpower by lia; apply IZR_le; exact H51).
  pose proof (pos_INR (length (map (g_at c) l))) as L0. pose proof (bpow_gt_0 radix2 (-52)) as P52. pose proof (bpow_gt_0 radix2 (-51)) as P51.
  destruct (sum_close (map (g_at c) l)) as (F & N & E).
  - intros x Hx. apply in_map_iff in Hx as (i & <- & Hi). apply filter_In in Hi as [Hi _]. apply Hp; auto. now apply in_all_indices.
  - apply Rle_trans with (1 := Hs). apply Rle_trans with (1 := T1). apply bpow_le. lia.
  - apply Rle_trans with (p2 51 * p2 (-52))%R; [apply Rmult_le_compat_r; [lra|eapply Rle_trans; [exact Hlen|exact Hn51]]|]. rewrite <- bpow_plus. apply Rle_refl.
  - split; [exact F|]. split; [exact N|]. unfold sumR in E at 1. rewrite map_map in E. apply Rle_trans with (1 := E).
    apply Rle_trans with (t * (IZR n * p2 (-51)))%R.
    + rewrite map_map in Hs. apply Rmult_le_compat; [| |exact Hs|].
      * apply sumR_nonneg, Forall_forall. intros y Hy. apply in_map_iff in Hy as (i & <- & Hi).
        apply filter_In in Hi as [Hi _]. apply Hp; auto. now apply in_all_indices.
      * apply Rmult_le_pos; [exact L0|lra].
      * apply Rmult_le_compat_r; [lra|exact Hlen].
    + rewrite <- Rmult_assoc. apply Rle_trans with (p2 23 * p2 (-51))%R; [apply Rmult_le_compat_r; lra|]. rewrite <- bpow_plus. cbn [Z.add]. apply Rle_refl.
Qed.

Lemma total_close c : In c cs -> is_finite (sumD c) = true /\ (0 <= B2R (sumD c))%R /\ (Rabs (B2R (sumD c) - t) <= p2 (-28))%R.
Proof.
  intros Hc. destruct (part_close c (fun i => idx_eqb (proj [] i) []) Hc) as (F & N & E). split; [exact F|]. split; [exact N|].
  pose proof Ha as (_ & _ & _ & Ht & _). rewrite <- (Ht c Hc). unfold sum_exact.
  rewrite <- (filter_true (all_indices (g_sizes c)) (fun i => idx_eqb (proj [] i) [])) by reflexivity. exact E.
Qed.

Lemma along_close c j v : In c cs -> is_finite (alongD c j v) = true /\ (Rabs (B2R (alongD c j v) - along_exact c j v) <= p2 (-28))%R.
Proof. intros Hc. destruct (part_close c (fun i => idx_eqb (proj [Z.of_nat j] i) [v]) Hc) as (F & N & E). split; [exact F|exact E]. Qed.

Lemma enough_totals : totals_ok cs.
Proof.
  intros c Hc. destruct (total_close c Hc) as (F & N & E). split; [exact F|]. rewrite Rabs_pos_eq by exact N. apply Rabs_le_inv in E. pose proof t_le.
  pose proof (bpow_le radix2 (-28) 23 ltac:(lia)). pose proof (bpow_le radix2 24 62 ltac:(lia)) as Hb. change 24 with (1 + 23) in Hb. rewrite bpow_plus in Hb.
  change (bpow radix2 1) with 2%R in Hb. lra.
Qed.

Lemma enough_pop p c : (IZR p - / 2 + p2 (-27) <= t <= IZR p + / 2 - p2 (-27))%R -> In c cs -> (IZR p <= B2R (d_add (sumD c) d_half) < IZR p + 1)%R.
Proof.
  intros Hp Hc. pose proof t_nonneg as T0. pose proof t_le as T1.
  assert (p2 (-27) = 2 * p2 (-28))%R as E27 by (change (-27) with (1 + -28); rewrite bpow_plus; reflexivity).
  pose proof (bpow_gt_0 radix2 (-28)) as P28.
  destruct (total_close c Hc) as (F & N & E). apply Rabs_le_inv in E.
  destruct (enough_totals c Hc) as [_ B]. destruct (half_fin _ F B) as [[_ ->] _].
  assert (p2 23 = IZR (2 ^ 23)) as E23 by (rewrite <- IZR_Zpower by lia; reflexivity).
  assert (0 <= p <= 2 ^ 23 + 1) as Hpz.
  { assert (p2 (-27) < / 2)%R by (change (/ 2)%R with (p2 (-1)); apply bpow_lt; lia). split.
    - assert (IZR (-1) < IZR p)%R as Hp1 by lra. apply lt_IZR in Hp1. lia.
    - apply le_IZR. rewrite plus_IZR. lra. }
  split.
  + apply RN_ge_repr; [apply repr_Z; lia|lra].
  + apply Rle_lt_trans with (IZR ((p + 1) * 2 ^ 28 - 1) * p2 (-28))%R.
    * apply RN_le_repr; [apply repr_dyadic; lia|]. rewrite minus_IZR, mult_IZR, plus_IZR.
      assert (IZR (2 ^ 28) * p2 (-28) = 1)%R as E1 by (change (2 ^ 28) with (Zpower radix2 28); rewrite (IZR_Zpower radix2 28) by lia; rewrite <- bpow_plus; reflexivity).
      replace (((IZR p + 1) * IZR (2 ^ 28) - 1) * p2 (-28))%R with ((IZR p + 1) * (IZR (2 ^ 28) * p2 (-28)) - p2 (-28))%R by ring. rewrite E1. lra.
    * rewrite minus_IZR, mult_IZR, plus_IZR.
      assert (IZR (2 ^ 28) * p2 (-28) = 1)%R as E1 by (change (2 ^ 28) with (Zpower radix2 28); rewrite (IZR_Zpower radix2 28) by lia; rewrite <- bpow_plus; reflexivity).
      replace (((IZR p + 1) * IZR (2 ^ 28) - 1) * p2 (-28))%R with ((IZR p + 1) * (IZR (2 ^ 28) * p2 (-28)) - p2 (-28))%R by ring. rewrite E1. lra.
Qed.

Lemma enough_consistent p : (IZR p - / 2 + p2 (-27) <= t <= IZR p + / 2 - p2 (-27))%R -> consistent cs.
Proof.
  intros Hp. pose proof Ha as (H1 & H2 & H3 & Ht & Hpa). pose proof t_nonneg as T0. pose proof t_le as T1.
  assert (p2 (-27) = 2 * p2 (-28))%R as E27 by (change (-27) with (1 + -28); rewrite bpow_plus; reflexivity).
  pose proof (bpow_gt_0 radix2 (-28)) as P28.
  split; [exact H1|]. split; [exact H2|]. split; [|split].
  - intros c i Hc Hi. destruct (H3 c i Hc Hi) as [F N]. rewrite (d_ltb_R _ _ (B2R (g_at c i)) 0%R); [|now split|apply fin_zero].
    now apply Rlt_bool_false.
  - exists p. intros c Hc. now apply enough_pop.
  - intros d k0 j0 more k j c0 c v Ea Hin E0 E1 Hv. destruct H2 as (sizes & Hi & _).
    destruct (shared_length cs sizes d k j c Hi) as [D1 _]; auto; [rewrite Ea; now right|].
    destruct (shared_length cs sizes d k0 j0 c0 Hi) as [D0 _]; auto; [rewrite Ea; now left|].
    apply nth_error_In in E0, E1. pose proof (Hpa d c j c0 j0 v E1 E0 D1 D0) as Ex.
    destruct (along_close c j v E1) as (F1 & C1). destruct (along_close c0 j0 v E0) as (F0 & C0).
    rewrite Ex in C1. apply Rabs_le_inv in C1, C0.
    assert (Rabs (RN (B2R (alongD c j v) - B2R (alongD c0 j0 v))) <= p2 (-27))%R as Hd.
    { apply Rabs_le. split; [apply RN_ge_repr; [apply generic_format_opp, repr_p2; lia|lra]|apply RN_le_repr; [apply repr_p2; lia|lra]]. }
    assert (fin (d_sub (alongD c j v) (alongD c0 j0 v)) (RN (B2R (alongD c j v) - B2R (alongD c0 j0 v)))) as Hfin.
    { apply d_sub_round; [now apply fin_B2R|now apply fin_B2R|]. apply Rle_lt_trans with (1 := Hd). apply bpow_lt. lia. }
    rewrite (d_ltb_R _ _ _ _ fin_1em8 (d_abs_R _ _ Hfin)). apply Rlt_bool_false. apply Rle_trans with (1 := Hd).
    change (-27) with (52 + -79). rewrite bpow_plus. apply Rmult_le_compat_r; [apply bpow_ge_0|].
    rewrite <- IZR_Zpower by lia. apply IZR_le. vm_compute. discriminate.
Qed.
End Enough.

Section Enough_call.
Context (fuel : nat) (seed : ndarray double) (ilist : list (ndarray Z)) (mlist : list (ndarray double)).
Hypothesis Hr : d_range ilist mlist.
Hypothesis Hpr : all_proper d_zero ilist mlist.
Hypothesis Hws : wf_array seed.
Hypothesis Hs : prodZ (shape seed) < 2 ^ 60.
Hypothesis Hfu : prodZ (shape seed) < Z.of_nat fuel.
Let cs := dcons_of ilist mlist.

Lemma enough_claim t n p : g_vectors ilist mlist -> implied (map outline cs) (shape seed) -> agree cs t ->
  (forall m, In m mlist -> prodZ (shape m) <= n) -> n <= 2 ^ 51 -> (t * IZR n <= 2 ^ 23)%R ->
  (IZR p - / 2 + / 2 ^ 27 <= t <= IZR p + / 2 - / 2 ^ 27)%R ->
  exists res, py_ipf fuel seed ilist mlist = Ok res /\ ir_pop res = p.
Proof.
  intros Hv Hi Ha Hn H51 Htn Hp.
  assert (2 ^ 23 = p2 23)%R as E23 by (rewrite <- IZR_Zpower by lia; change (Zpower radix2 23) with (2 ^ 23)%Z; rewrite pow_IZR; reflexivity).
  assert (/ 2 ^ 27 = p2 (-27))%R as E27.
  { change (-27) with (- (27)). rewrite bpow_opp. f_equal. rewrite <- IZR_Zpower by lia. change (Zpower radix2 27) with (2 ^ 27)%Z. rewrite pow_IZR. reflexivity. }
  rewrite E23 in Htn. rewrite E27 in Hp. clear E23 E27.
  assert (forall c, In c cs -> fits (g_sizes c)) as Hf by (intros c Hc; now apply (range_gsmall d_zero _ _ Hr)).
  assert (forall c, In c cs -> 1 <= prodZ (g_sizes c) <= n) as Hn'.
  { intros c Hc. split; [pose proof (prodZ_pos (g_sizes c) (fits_pos _ (Hf c Hc))); lia|].
    unfold cs, dcons_of, gcons_of in Hc. apply in_map_iff in Hc as ([i m] & <- & Hin). apply Hn. eapply in_combine_r; eauto. }
  pose proof (enough_totals cs t n Ha Hn' Hf H51 Htn) as Ht.
  pose proof (enough_consistent cs t n Ha Hn' Hf H51 Htn p Hp) as Hc.
  destruct (validation_claim fuel seed ilist mlist Hr Hpr Hws Hs Hfu Ht) as [[_ Hok] _]. destruct Hok as (res & E); [auto|]. exists res. split; [exact E|].
  destruct (ipf_ok fuel seed ilist mlist Hr Hpr Hws Hs Hfu res E) as (f' & pop & Hacc & _ & _ & _ & _ & _ & _ & Ep). rewrite Ep.
  destruct Hacc as (_ & H2 & _ & _ & _ & Hpop). fold (dcons_of ilist mlist) in Hpop, H2. fold cs in Hpop, H2.
  destruct cs as [|c cs'] eqn:Ecs; [cbn in H2; lia|]. pose proof (Hpop c (or_introl eq_refl)) as Hpc. rewrite <- sumD_gsum in Hpc.
  destruct (Ht c (or_introl eq_refl)) as [F B]. destruct (total_close (c :: cs') t n Ha Hn' Hf H51 Htn c (or_introl eq_refl)) as (_ & N & _).
  pose proof (proj2 (pop_iff (sumD c) p F B N) (enough_pop (c :: cs') t n Ha Hn' Hf H51 Htn p c Hp (or_introl eq_refl))) as Hpc'. congruence.
Qed.
End Enough_call.

From Verif Require Import QisExamples IpfExamples.

(** * Witnesses *)

(** totals 10.25 and 9.5 *)
Definition exT_i : list (ndarray Z) := [NDA [1] [0]; NDA [1] [1]].
Definition exT_m : list (ndarray double) := [NDA [2] [d_lit 21 (-2); d_lit 5 0]; NDA [2] [d_lit 9 (-1); d_lit 5 0]].
Definition exT_s : ndarray double := NDA [2; 2] (dz [1; 1; 1; 1]).

(** totals 2.5 and 2.5, the second added up to less *)
Definition exH_m : list (ndarray double) :=
  [NDA [2] [d_lit 5 (-2); d_lit 5 (-2)]; NDA [4] [d_lit 2 0; d_lit 1 (-52); d_lit 1 (-52); d_lit 1125899906842623 (-51)]].
Definition exH_s : ndarray double := NDA [2; 4] (dz [1; 1; 1; 1; 1; 1; 1; 1]).

(** two marginals of 134217731 people with the same sums on the shared dimension *)
Definition exP_i : list (ndarray Z) := [NDA [2] [0; 1]; NDA [2] [0; 2]].
Definition exP_m : list (ndarray double) :=
  [NDA [2; 3] [d_lit 1 27; d_lit 1 (-26); d_lit 1 (-26); d_lit 1 0; d_lit 1 0; d_lit 1 0];
   NDA [2; 2] [d_lit 1 26; d_lit 2251799813685249 (-25); d_lit 3 (-1); d_lit 3 (-1)]].
Definition exP_s : ndarray double := NDA [2; 3; 2] (dz [1; 1; 1; 1; 1; 1; 1; 1; 1; 1; 1; 1]).

Lemma lit_R m e : Z.abs m <= 2 ^ 53 -> -1074 <= e <= 900 -> is_finite (d_lit m e) = true /\ B2R (d_lit m e) = (IZR m * p2 e)%R.
Proof. intros Hm He. apply d_lit_exact; lia. Qed.

Ltac lits := repeat match goal with |- context [B2R (d_lit ?m ?e)] => rewrite (proj2 (lit_R m e ltac:(lia) ltac:(lia))) end.
Lemma p2_twice e : (p2 e + p2 e = p2 (1 + e))%R.
Proof. rewrite bpow_plus. change (bpow radix2 1) with 2%R. lra. Qed.
Lemma p2_less n e : 0 <= n -> (IZR (2 ^ n - 1) * p2 e = p2 (n + e) - p2 e)%R.
Proof. intros Hn. rewrite minus_IZR. change (2 ^ n) with (Zpower radix2 n). rewrite IZR_Zpower by auto. rewrite bpow_plus. ring. Qed.
Lemma p2_more n e : 0 <= n -> (IZR (2 ^ n + 1) * p2 e = p2 (n + e) + p2 e)%R.
Proof. intros Hn. rewrite plus_IZR. change (2 ^ n) with (Zpower radix2 n). rewrite IZR_Zpower by auto. rewrite bpow_plus. ring. Qed.

Lemma p2_m1 : p2 (-1) = (/ 2)%R. Proof. reflexivity. Qed.
Lemma p2_m2 : p2 (-2) = (/ 4)%R. Proof. reflexivity. Qed.
Lemma p2_p0 : p2 0 = 1%R. Proof. reflexivity. Qed.

Lemma filter_none {A} (q : A -> bool) l : (forall x, In x l -> q x = false) -> filter q l = [].
Proof. induction l as [|a l IH]; intros H; [reflexivity|]. cbn. rewrite H by now left. apply IH. intros. apply H. now right. Qed.
Lemma entry_all (P : double -> Prop) m i : P d_zero -> Forall P (flat m) -> P (entry d_zero m i).
Proof. intros H0 H. unfold entry. rewrite Forall_forall in H. destruct (nth_in_or_default (Z.to_nat (rowmajor (shape m) i)) (flat m) d_zero) as [Hi| ->]; auto. Qed.

Lemma exH_total c : In c (dcons_of exT_i exH_m) -> sum_exact c = (5 / 2)%R.
Proof.
  intros [<-|[<-|[]]]; cbv -[d_lit B2R Rplus Rdiv IZR d_zero]; lits.
  - rewrite p2_m2. lra.
  - change 1125899906842623 with (2 ^ 50 - 1). rewrite p2_less, p2_p0 by lia. pose proof (p2_twice (-52)) as H. change (1 + -52) with (-51) in H. change (50 + -51) with (-1). rewrite p2_m1. lra.
Qed.

Lemma lit_nonneg m e : 0 <= m <= 2 ^ 53 -> -1074 <= e <= 900 -> is_finite (d_lit m e) = true /\ (0 <= B2R (d_lit m e))%R.
Proof.
  intros Hm He. destruct (lit_R m e) as [F V]; [lia|lia|]. split; [exact F|]. rewrite V. apply Rmult_le_pos; [apply IZR_le; lia|apply bpow_ge_0].
Qed.

Lemma exH_agree : agree (dcons_of exT_i exH_m) (5 / 2).
Proof.
  split; [cbn; lia|]. split; [exists [2; 4]; split; [apply implied_by; vm_compute; reflexivity|cbn; lia]|]. split; [|split].
  - intros c i Hc _. destruct Hc as [<-|[<-|[]]]; (apply (entry_all (fun x => is_finite x = true /\ (0 <= B2R x)%R)); [split; [reflexivity|apply Rle_refl]|]);
      cbn [flat snd]; repeat (apply Forall_cons; [apply lit_nonneg; lia|]); apply Forall_nil.
  - exact exH_total.
  - intros d c j c' j' v Hc Hc' Hj Hj'. destruct Hc as [<-|[<-|[]]], Hc' as [<-|[<-|[]]]; destruct j as [|[|j]], j' as [|[|j']]; cbn in Hj, Hj'; congruence.
Qed.

Lemma exP_agree : agree (dcons_of exP_i exP_m) (p2 27 + p2 (-25) + 3).
Proof.
  assert (forall c, In c (dcons_of exP_i exP_m) -> sum_exact c = p2 27 + p2 (-25) + 3)%R as Ht.
  { intros c [<-|[<-|[]]]; cbv -[d_lit B2R Rplus Rdiv IZR bpow radix2 d_zero]; lits.
    - pose proof (p2_twice (-26)) as H. change (1 + -26) with (-25) in H. rewrite p2_p0. lra.
    - change 2251799813685249 with (2 ^ 51 + 1). rewrite p2_more by lia. pose proof (p2_twice 26) as H. change (1 + 26) with 27 in H. change (51 + -25) with 26. rewrite p2_m1. lra. }
  split; [cbn; lia|]. split; [exists [2; 3; 2]; split; [apply implied_by; vm_compute; reflexivity|cbn; lia]|]. split; [|split].
  - intros c i Hc _. destruct Hc as [<-|[<-|[]]]; (apply (entry_all (fun x => is_finite x = true /\ (0 <= B2R x)%R)); [split; [reflexivity|apply Rle_refl]|]);
      cbn [flat snd]; repeat (apply Forall_cons; [apply lit_nonneg; lia|]); apply Forall_nil.
  - exact Ht.
  - assert (forall c c' v, c = nth 0 (dcons_of exP_i exP_m) (GC [] [] (fun _ => d_zero)) -> c' = nth 1 (dcons_of exP_i exP_m) (GC [] [] (fun _ => d_zero)) ->
      along_exact c 0 v = along_exact c' 0 v) as G.
    { intros c c' v -> ->. destruct (Z.eq_dec v 0) as [->|N0]; [|destruct (Z.eq_dec v 1) as [->|N1]].
      - cbv -[d_lit B2R Rplus Rdiv IZR bpow radix2 d_zero]; lits. change 2251799813685249 with (2 ^ 51 + 1). rewrite p2_more by lia. pose proof (p2_twice 26) as H. change (1 + 26) with 27 in H.
        pose proof (p2_twice (-26)) as H'. change (1 + -26) with (-25) in H'. change (51 + -25) with 26. lra.
      - cbv -[d_lit B2R Rplus Rdiv IZR bpow radix2 d_zero]; lits. rewrite p2_p0, p2_m1. lra.
      - unfold along_exact. rewrite !(filter_none _ (all_indices _)); [reflexivity| |].
        + intros i Hi. destruct (idx_eqb (proj [Z.of_nat 0] i) [v]) eqn:E; [|reflexivity]. exfalso. unfold idx_eqb in E; destruct (list_eq_dec Z.eq_dec _ _) as [E'|]; [clear E; rename E' into E|discriminate E]. vm_compute in Hi.
          repeat (destruct Hi as [<-|Hi]; [cbn in E; injection E as E; congruence|]); destruct Hi.
        + intros i Hi. destruct (idx_eqb (proj [Z.of_nat 0] i) [v]) eqn:E; [|reflexivity]. exfalso. unfold idx_eqb in E; destruct (list_eq_dec Z.eq_dec _ _) as [E'|]; [clear E; rename E' into E|discriminate E]. vm_compute in Hi.
          repeat (destruct Hi as [<-|Hi]; [cbn in E; injection E as E; congruence|]); destruct Hi. }
    intros d c j c' j' v Hc Hc' Hj Hj'. destruct Hc as [<-|[<-|[]]], Hc' as [<-|[<-|[]]]; destruct j as [|[|j]], j' as [|[|j']];
      cbn in Hj, Hj'; try congruence; try (rewrite nth_error_nil in Hj; discriminate); try (rewrite nth_error_nil in Hj'; discriminate);
      try (destruct j; discriminate Hj); try (destruct j'; discriminate Hj').
    + now apply G.
    + symmetry. now apply G.
Qed.

Lemma totals_claim : exists fuel seed ilist mlist res, d_range ilist mlist /\ all_proper d_zero ilist mlist /\ wf_array seed /\ prodZ (shape seed) < Z.of_nat fuel /\
  py_ipf fuel seed ilist mlist = Ok res /\ map sum_exact (dcons_of ilist mlist) = [41 / 4; 19 / 2]%R /\
  ir_pop res = 10 /\ ir_conv res = false /\ ir_iters res = 1000.
Proof.
  exists 5%nat, exT_s, exT_i, exT_m.
  assert ((match py_ipf 5 exT_s exT_i exT_m with Ok r => (ir_pop r =? 10) && negb (ir_conv r) && (ir_iters r =? 1000) | _ => false end) = true) as H
    by (vm_compute; reflexivity).
  destruct (py_ipf 5 exT_s exT_i exT_m) as [r| | |]; try discriminate H. exists r. apply Bool.andb_true_iff in H as [H H2]. apply Bool.andb_true_iff in H as [H0 H1].
  split; [apply (g_range_by _ _ _ [2; 2]); vm_compute; reflexivity|]. split; [apply (all_proper_by _ _ _ [2; 2]); vm_compute; reflexivity|].
  split; [apply shape_by; vm_compute; reflexivity|]. split; [reflexivity|]. split; [reflexivity|]. split.
  - cbv -[d_lit B2R Rplus Rdiv IZR d_zero]; lits. rewrite p2_m2, p2_m1, p2_p0. apply (f_equal2 cons); [lra|]. apply (f_equal2 cons); [lra|reflexivity].
  - split; [lia|]. split; [now destruct (ir_conv r)|lia].
Qed.

Definition threw {A} (x : outcome A) (s : string) : bool := match x with Throw (RuntimeError s') => String.eqb s s' | _ => false end.
Lemma threw_eq {A} (x : outcome A) s : threw x s = true -> x = Throw (RuntimeError s).
Proof. destruct x as [|[] | |]; try discriminate. cbn. intros H. apply String.eqb_eq in H. now subst. Qed.

Lemma rounding_claim : exists fuel seed ilist mlist, d_range ilist mlist /\ all_proper d_zero ilist mlist /\ wf_array seed /\ prodZ (shape seed) < Z.of_nat fuel /\
  g_vectors ilist mlist /\ implied (map outline (dcons_of ilist mlist)) (shape seed) /\ agree (dcons_of ilist mlist) (5 / 2) /\
  py_ipf fuel seed ilist mlist = Throw (RuntimeError "marginal sum mismatch").
Proof.
  exists 9%nat, exH_s, exT_i, exH_m.
  split; [apply (g_range_by _ _ _ [2; 4]); vm_compute; reflexivity|]. split; [apply (all_proper_by _ _ _ [2; 4]); vm_compute; reflexivity|].
  split; [apply shape_by; vm_compute; reflexivity|]. split; [reflexivity|]. split; [split; [reflexivity|repeat constructor]|].
  split; [apply implied_by; vm_compute; reflexivity|]. split; [exact exH_agree|]. apply threw_eq. vm_compute. reflexivity.
Qed.

Lemma partial_claim : exists fuel seed ilist mlist t, d_range ilist mlist /\ all_proper d_zero ilist mlist /\ wf_array seed /\ prodZ (shape seed) < Z.of_nat fuel /\
  g_vectors ilist mlist /\ implied (map outline (dcons_of ilist mlist)) (shape seed) /\ agree (dcons_of ilist mlist) t /\
  (134217731 < t < 134217732)%R /\
  py_ipf fuel seed ilist mlist = Throw (RuntimeError "marginal partial sum mismatch").
Proof.
  exists 13%nat, exP_s, exP_i, exP_m, (p2 27 + p2 (-25) + 3)%R.
  split; [apply (g_range_by _ _ _ [2; 3; 2]); vm_compute; reflexivity|]. split; [apply (all_proper_by _ _ _ [2; 3; 2]); vm_compute; reflexivity|].
  split; [apply shape_by; vm_compute; reflexivity|]. split; [reflexivity|]. split; [split; [reflexivity|repeat constructor]|].
  split; [apply implied_by; vm_compute; reflexivity|]. split; [exact exP_agree|]. split; [|apply threw_eq; vm_compute; reflexivity].
  assert (p2 27 = 134217728)%R as -> by reflexivity. pose proof (bpow_gt_0 radix2 (-25)). assert (p2 (-25) < 1)%R by (apply (bpow_lt radix2 (-25) 0); lia). lra.
Qed.

(** 10.25 people *)
Definition exA_m : list (ndarray double) := [NDA [2] [d_lit 5 (-1); d_lit 31 (-2)]; NDA [2] [d_lit 13 (-2); d_lit 7 0]].
Lemma exA_agree : agree (dcons_of exT_i exA_m) (41 / 4).
Proof.
  split; [cbn; lia|]. split; [exists [2; 2]; split; [apply implied_by; vm_compute; reflexivity|cbn; lia]|]. split; [|split].
  - intros c i Hc _. destruct Hc as [<-|[<-|[]]]; (apply (entry_all (fun x => is_finite x = true /\ (0 <= B2R x)%R)); [split; [reflexivity|apply Rle_refl]|]);
      cbn [flat snd]; repeat (apply Forall_cons; [apply lit_nonneg; lia|]); apply Forall_nil.
  - intros c [<-|[<-|[]]]; cbv -[d_lit B2R Rplus Rdiv IZR d_zero]; lits; rewrite ?p2_m2, ?p2_m1, ?p2_p0; lra.
  - intros d c j c' j' v Hc Hc' Hj Hj'. destruct Hc as [<-|[<-|[]]], Hc' as [<-|[<-|[]]]; destruct j as [|[|j]], j' as [|[|j']]; cbn in Hj, Hj'; congruence.
Qed.
Lemma exA_claim : d_range exT_i exA_m /\ all_proper d_zero exT_i exA_m /\ wf_array exT_s /\ g_vectors exT_i exA_m /\
  implied (map outline (dcons_of exT_i exA_m)) (shape exT_s) /\ agree (dcons_of exT_i exA_m) (41 / 4) /\
  (forall m, In m exA_m -> prodZ (shape m) <= 2) /\ (41 / 4 * 2 <= 2 ^ 23)%R /\ (IZR 10 - / 2 + / 2 ^ 27 <= 41 / 4 <= IZR 10 + / 2 - / 2 ^ 27)%R /\
  totals_ok (dcons_of exT_i exA_m).
Proof.
  assert (d_range exT_i exA_m) as Hr by (apply (g_range_by _ _ _ [2; 2]); vm_compute; reflexivity).
  split; [exact Hr|]. split; [apply (all_proper_by _ _ _ [2; 2]); vm_compute; reflexivity|].
  split; [apply shape_by; vm_compute; reflexivity|]. split; [split; [reflexivity|repeat constructor]|].
  split; [apply implied_by; vm_compute; reflexivity|]. split; [exact exA_agree|].
  split; [intros m [<-|[<-|[]]]; cbn; lia|]. split; [lra|]. split; [lra|].
  apply (enough_totals _ (41 / 4)%R 2 exA_agree).
  - intros c [<-|[<-|[]]]; cbn; lia.
  - intros c Hc. now apply (range_gsmall d_zero _ _ Hr).
  - lia.
  - apply Rle_trans with (p2 5); [|apply bpow_le; lia]. assert (p2 5 = 32)%R as -> by reflexivity. lra.
Qed.
