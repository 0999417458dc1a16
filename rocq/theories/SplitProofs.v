(** Proofs about split_dims and sample of src/QIS.cpp. *)
From Verif Require Import Base Spec SpecFacts NDArray IndexProofs Float64 FloatProofs ArrayOps ArrayProofs Bind BindProofs
  SobolSpec Sobol Micro Stat Qis SynthSpec MicroProofs PickProofs SampleProofs.
Open Scope Z_scope.

Lemma sumZ_incl {A} (h : A -> Z) : forall l l', NoDup l -> incl l l' -> (forall x, In x l' -> 0 <= h x) ->
  sumZ (map h l) <= sumZ (map h l').
Proof.
  induction l as [|x l IH]; intros l' Hn Hi Hh; simpl.
  - apply sumZ_nonneg. intros y Hy. apply in_map_iff in Hy as (z & <- & ?). auto.
  - inversion Hn; subst. destruct (in_split x l') as (l1 & l2 & ->); [apply Hi; now left|].
    rewrite map_app, sumZ_app. simpl. specialize (IH (l1 ++ l2) H2).
    rewrite map_app, sumZ_app in IH. enough (sumZ (map h l) <= sumZ (map h l1) + sumZ (map h l2)) by lia.
    apply IH.
    + intros y Hy. specialize (Hi y (or_intror Hy)). apply in_app_iff in Hi as [Hi|[->|Hi]]; [apply in_app_iff; auto|easy|apply in_app_iff; auto].
    + intros y Hy. apply Hh. apply in_app_iff in Hy as [|]; apply in_app_iff; simpl; auto.
Qed.

(** if every cell of the small array is a cell of the big one, injectively, the total is no larger *)
Lemma total_inj s s' (q : list Z -> list Z) (R : list Z -> Prop) g h : (forall i, index_in s' i -> 0 <= h i) ->
  (forall c, index_in s c -> exists i, index_in s' i /\ R i /\ q i = c) ->
  (forall i, index_in s' i -> R i -> g (q i) = h i) -> total s g <= total s' h.
Proof.
  intros Hn Hl Hg. unfold total.
  assert (forall l, NoDup l -> (forall c, In c l -> index_in s c) ->
    exists l', map g l = map h l' /\ NoDup l' /\ (forall i, In i l' -> index_in s' i) /\ map q l' = l) as G.
  { induction 1 as [|c l Hc _ IH]; intros Hin.
    - exists []. repeat split; auto; [constructor|easy].
    - destruct IH as (l' & E1 & E2 & E3 & E4); [intros; apply Hin; now right|]. destruct (Hl c (Hin c (or_introl eq_refl))) as (i & Hi & HR & Ei).
      exists (i :: l'). simpl. rewrite E1, E4, Ei. repeat split.
      + f_equal. rewrite <- Ei. auto.
      + constructor; auto. intros Hi'. apply Hc. rewrite <- Ei, <- E4. now apply in_map.
      + intros j [<-|Hj]; auto. }
  destruct (G (all_indices s) (NoDup_all_indices _)) as (l' & E1 & E2 & E3 & _).
  { intros c. apply in_all_indices. }
  rewrite E1. apply sumZ_incl; auto.
  - intros i Hi. apply in_all_indices. auto.
  - intros i Hi. apply Hn. now apply in_all_indices.
Qed.

Lemma le_total s h x : (forall c, index_in s c -> 0 <= h c) -> index_in s x -> h x <= total s h.
Proof.
  intros Hh Hx. unfold total. replace (h x) with (sumZ (map h [x])) by (simpl; lia). apply sumZ_incl.
  - constructor; [easy|constructor].
  - intros y [<-|[]]. now apply in_all_indices.
  - intros y Hy. apply Hh. now apply in_all_indices.
Qed.

(** * sample *)

Section Split.
Context (sizes ix : list Z) (seq : list N) (main : list Z).
Notation dim_of p := (nth (Z.to_nat p) ix 0).
Notation at_of p := (nth (Z.to_nat (dim_of p)) main 0).
Context (Hix : valid_dims (length sizes) ix) (Hm : length main = length sizes) (Hs : length seq = length sizes).

Definition set_p (p : Z) : bool := -1 <? at_of p.
Definition us_of (p : Z) : N := nth (Z.to_nat (dim_of p)) seq 0%N.
Definition U : list Z := filter (fun p => negb (set_p p)) (zrange (Z.of_nat (length ix))).
Definition SL : list (Z * Z) := map (fun p => (p, at_of p)) (filter set_p (zrange (Z.of_nat (length ix)))).

Lemma split_spec : split_dims ix seq main =
  Ok (SL, todo_of us_of U, rev (map (fun e => (snd e, fst e)) (numbered 0 U))).
Proof.
  unfold split_dims.
  assert (forall l k sl sa sm, (forall e, In e l -> 0 <= fst e < Z.of_nat (length ix) /\ snd e = dim_of (fst e)) ->
    foldM (fun '(d, dim) '(sl, sa, sm, k) =>
             let* v := mi_get ix main d in
             if -1 <? v then Ok (sl ++ [(d, v)], sa, sm, k)
             else let* u := vec_get seq dim in Ok (sl, (d, u) :: sa, (d, k) :: sm, k + 1)) l (sl, sa, sm, k) =
    let P := filter (fun p => negb (set_p p)) (map fst l) in
    Ok (sl ++ map (fun p => (p, at_of p)) (filter set_p (map fst l)),
        rev (map (fun p => (p, us_of p)) P) ++ sa,
        rev (map (fun e => (snd e, fst e)) (numbered k P)) ++ sm, k + Z.of_nat (length P))) as G.
  { induction l as [|[d dim] l IH]; intros k sl sa sm Hl.
    - simpl. now rewrite app_nil_r, Z.add_0_r.
    - destruct (Hl (d, dim) (or_introl eq_refl)) as [Hd Edim]. simpl in Hd, Edim. subst dim. cbn [foldM].
      pose proof (dim_of_valid sizes ix Hix d Hd) as Hdd.
      assert (mi_get ix main d = Ok (at_of d)) as ->.
      { unfold mi_get. rewrite (vec_get_ok ix d 0) by auto. cbn [bind]. apply vec_get_ok. lia. }
      cbn [bind map fst filter]. fold (set_p d). destruct (set_p d) eqn:E.
      + cbn [bind negb map]. rewrite IH by (intros; apply Hl; now right). cbv zeta. now rewrite <- app_assoc.
      + rewrite (vec_get_ok seq _ 0%N) by lia. cbn [bind negb]. rewrite IH by (intros; apply Hl; now right).
        cbv zeta. cbn [numbered map rev length]. rewrite <- !app_assoc. cbn [app]. replace (k + Z.of_nat (S (length (filter (fun p : Z => negb (set_p p)) (map fst l))))) with (k + 1 + Z.of_nat (length (filter (fun p : Z => negb (set_p p)) (map fst l)))) by lia. reflexivity. }
  rewrite G.
  - cbv zeta. assert (map fst (numbered 0 ix) = zrange (Z.of_nat (length ix))) as ->.
    { rewrite numbered_zrange. rewrite <- (map_map (fun x => x) fst).
      assert (forall (l : list Z) (l' : list Z), length l = length l' -> map fst (combine l l') = l) as F.
      { induction l as [|x l IH]; intros [|y l']; simpl; intros; try discriminate; auto. f_equal. apply IH. lia. }
      rewrite map_id. apply F. rewrite length_zrange. lia. }
    cbn [bind]. rewrite !app_nil_r. reflexivity.
  - intros [p d] Hin. apply in_numbered in Hin as (n & -> & Hn). simpl fst. simpl snd.
    assert (n < length ix)%nat by (apply nth_error_Some; congruence). split; [lia|].
    replace (Z.to_nat (0 + Z.of_nat n)) with n by lia. symmetry. now apply nth_error_nth.
Qed.

Lemma U_in p : In p U <-> 0 <= p < Z.of_nat (length ix) /\ at_of p <= -1.
Proof.
  unfold U. rewrite filter_In, in_zrange, negb_true_iff. unfold set_p. rewrite Z.ltb_ge. tauto.
Qed.
Lemma U_NoDup : NoDup U. Proof. apply NoDup_filter, NoDup_zrange. Qed.

Lemma U_ranks : ranks (rev (map (fun e => (snd e, fst e)) (numbered 0 U))) U.
Proof.
  intros k Hk. apply map_find_some.
  - rewrite map_rev, map_map. simpl. apply NoDup_rev.
    assert (forall (l : list Z) k, map (fun x : Z * Z => snd x) (numbered k l) = l) as -> by (induction l; simpl; intros; congruence).
    apply U_NoDup.
  - rewrite <- in_rev. apply in_map_iff. exists (Z.of_nat k, nth k U 0). split; auto.
    apply in_numbered. exists k. split; [lia|]. now apply nth_error_nth'.
Qed.

Lemma SL_fst : map fst SL = filter set_p (zrange (Z.of_nat (length ix))).
Proof. unfold SL. rewrite map_map. apply map_id. Qed.

Lemma free_SL n : n = length ix -> free_dims (Z.of_nat n) SL = U.
Proof.
  intros ->. unfold free_dims, U. apply filter_ext_in. intros p Hp. f_equal. rewrite SL_fst.
  destruct (set_p p) eqn:E.
  - apply existsb_exists. exists p. split; [now apply filter_In|apply Z.eqb_refl].
  - apply not_true_is_false. intros H. apply existsb_exists in H as (q & Hq & Eq). apply Z.eqb_eq in Eq. subst q.
    apply filter_In in Hq as [_ Hq]. congruence.
Qed.
End Split.

(** partially assigned index: -1 marks a dimension not yet assigned *)
Definition partial_index (sizes main : list Z) : Prop :=
  length main = length sizes /\ forall d, (d < length sizes)%nat -> -1 <= nth d main 0 < nth d sizes 0.

Definition assigned (main : list Z) (d : nat) : Prop := 0 <= nth d main 0.

Lemma nth_proj dims l k : (k < length dims)%nat -> nth k (proj dims l) 0 = nth (Z.to_nat (nth k dims 0)) l 0.
Proof. intros Hk. unfold proj. rewrite (nth_indep _ 0 (nth (Z.to_nat 0) l 0)) by now rewrite map_length.
  apply (map_nth (fun d => nth (Z.to_nat d) l 0)). Qed.

Lemma msz_proj sizes ix P : Forall (fun p => 0 <= p < Z.of_nat (length ix)) P -> msz sizes ix P = proj P (proj ix sizes).
Proof.
  intros H. unfold msz, proj at 1. apply map_ext_in. intros p Hp. rewrite Forall_forall in H. specialize (H p Hp).
  rewrite nth_proj by lia. reflexivity.
Qed.

Lemma proj_proj P ix l : Forall (fun p => 0 <= p < Z.of_nat (length ix)) P -> proj P (proj ix l) = proj (dims_of ix P) l.
Proof.
  intros H. unfold dims_of. unfold proj at 1 3. rewrite map_map. apply map_ext_in. intros p Hp. rewrite Forall_forall in H. specialize (H p Hp).
  rewrite nth_proj by lia. reflexivity.
Qed.

Lemma slice_nil sizes f : fits sizes -> slice (T := Z) (mk sizes f) [] = Ok (mk sizes f).
Proof.
  intros Hf. unfold slice. simpl. rewrite nd_new_ok by auto. simpl. rewrite nd_values_mk by auto. simpl.
  rewrite !map_length, Z.leb_refl. rewrite skipn_all2 by (rewrite !map_length; lia).
  rewrite app_nil_r, map_map. reflexivity.
Qed.

Lemma sample_spec sizes ix seq f main : valid_dims (length sizes) ix -> Z.of_nat (length ix) < 2 ^ 31 ->
  partial_index sizes main -> length seq = length sizes -> fits (proj ix sizes) -> tabs (proj ix sizes) f < 2 ^ 63 ->
  let o := sample ix seq (mk (proj ix sizes) f) main in
  ((exists e, o = Throw e) \/
   (exists main', o = Ok main' /\ partial_index sizes main' /\
      (forall d, assigned main d \/ ~ In (Z.of_nat d) ix -> nth d main' 0 = nth d main 0) /\
      (forall d, In (Z.of_nat d) ix -> assigned main' d))) /\
  (NoDup ix -> (forall c, index_in (proj ix sizes) c -> 0 <= f c) -> total (proj ix sizes) f <= 2 ^ 53 ->
   Forall (fun u => u < 2 ^ 32)%N seq ->
   (exists c, index_in (proj ix sizes) c /\ 0 < f c /\
      forall j, (j < length ix)%nat -> 0 <= nth (Z.to_nat (nth j ix 0)) main 0 -> nth j c 0 = nth (Z.to_nat (nth j ix 0)) main 0) ->
   exists main', o = Ok main' /\ 0 < f (proj ix main')).
Proof.
  intros Hix Hl31 [Lm Hpm] Ls Hf Hb. unfold sample. rewrite (split_spec sizes) by auto. cbn [bind].
  set (UU := U ix main) in *. set (us := us_of ix seq).
  assert (Forall (fun p => 0 <= p < Z.of_nat (length ix)) UU) as HU.
  { apply Forall_forall. intros p Hp. apply U_in in Hp. tauto. }
  assert (forall d, In (Z.of_nat d) (dims_of ix UU) <-> In (Z.of_nat d) ix /\ nth d main 0 <= -1) as HD.
  { intros d. unfold dims_of. rewrite in_map_iff. split.
    - intros (p & E & Hp). apply U_in in Hp as [Hp Hv]. split; [rewrite <- E; apply nth_In; lia|].
      rewrite E, Nat2Z.id in Hv. auto.
    - intros [Hin Hv]. apply In_nth with (d := 0) in Hin as (k & Hk & E). exists (Z.of_nat k). rewrite Nat2Z.id. split; auto.
      apply U_in. rewrite !Nat2Z.id, E, Nat2Z.id. split; [lia|auto]. }
  destruct (todo_of us UU) as [|t0 ts] eqn:Et.
  - (* nothing to sample *)
    assert (UU = []) as EU.
    { destruct UU as [|u0 UU']; auto. unfold todo_of in Et. apply (f_equal (@length _)) in Et. rewrite rev_length, map_length in Et. discriminate. }
    assert (forall d, In (Z.of_nat d) ix -> 0 <= nth d main 0) as Hall.
    { intros d Hin. destruct (Z.le_gt_cases 0 (nth d main 0)); auto.
      assert (In (Z.of_nat d) (dims_of ix UU)) as Hc by (apply HD; split; auto; lia). rewrite EU in Hc. easy. }
    cbv zeta. split.
    + right. exists main. split; auto. split; [split; auto|]. split; auto.
    + intros Hnd Hn Ht Hu (c & Hc & Hp & Ha). exists main. split; auto.
      assert (proj ix main = c) as ->; auto.
      apply nth_ext with (d := 0) (d' := 0); [rewrite (index_in_length _ _ Hc), !proj_length; auto|].
      intros j Hj. rewrite proj_length in Hj. rewrite nth_proj by auto. symmetry. apply Ha; auto.
      unfold valid_dims in Hix. rewrite Forall_forall in Hix. pose proof (Hix _ (nth_In ix 0 Hj)).
      apply Hall. rewrite Z2Nat.id by lia. now apply nth_In.
  - assert (UU <> []) as HUne by (intros E; rewrite E in Et; discriminate).
    rewrite <- Et. clear t0 ts Et.
    assert (fixed_ok (proj ix sizes) (SL ix main)) as Hfix.
    { split.
      - rewrite SL_fst. apply NoDup_filter, NoDup_zrange.
      - apply Forall_forall. intros [p v] Hin. unfold SL in Hin. apply in_map_iff in Hin as (q & [= -> <-] & Hq).
        apply filter_In in Hq as [Hq Hs]. apply in_zrange in Hq. unfold set_p in Hs. apply Z.ltb_lt in Hs.
        rewrite proj_length. split; auto. rewrite nth_proj by lia.
        pose proof (dim_of_valid sizes ix Hix p Hq). specialize (Hpm (Z.to_nat (nth (Z.to_nat p) ix 0)) ltac:(lia)). lia. }
    assert (Z.of_nat (length UU) <= Z.of_nat (length ix)) as LU.
    { pose proof (NoDup_incl_length (l := UU) (l' := zrange (Z.of_nat (length ix))) (U_NoDup ix main)) as I.
      rewrite length_zrange, Nat2Z.id in I. enough (length UU <= length ix)%nat by lia. apply I.
      intros p Hp. apply in_zrange. rewrite Forall_forall in HU. auto. }
    assert (fits (msz sizes ix UU)) as HfU.
    { rewrite msz_proj by auto. apply fits_proj; auto; [apply U_NoDup|]. rewrite proj_length. exact HU. }
    assert (exists g, slice (mk (proj ix sizes) f) (SL ix main) = Ok (mk (msz sizes ix UU) g) /\
       forall i, index_in (proj ix sizes) i -> (forall d v, In (d, v) (SL ix main) -> nth (Z.to_nat d) i 0 = v) ->
         g (proj UU i) = f i) as (g & Eg & Hg).
    { destruct (list_eq_dec (fun a b : Z * Z => ltac:(decide equality; apply Z.eq_dec)) (SL ix main) []) as [ES|ES].
      - rewrite ES, slice_nil by auto.
        assert (UU = zrange (Z.of_nat (length ix))) as EU.
        { unfold UU. rewrite <- (free_SL ix main (length ix)) by auto. rewrite ES. unfold free_dims. simpl.
          generalize (zrange (Z.of_nat (length ix))). induction l; simpl; congruence. }
        exists f. split.
        + rewrite msz_proj by auto. rewrite EU. f_equal.
          replace (Z.of_nat (length ix)) with (Z.of_nat (length (proj ix sizes))) by now rewrite proj_length.
          now rewrite proj_zrange.
        + intros i Hi _. rewrite EU. replace (Z.of_nat (length ix)) with (Z.of_nat (length i)).
          * now rewrite proj_zrange.
          * rewrite (index_in_length _ _ Hi), proj_length. reflexivity.
      - destruct (slice_mk (proj ix sizes) f (SL ix main)) as (g & Eg & Hg); auto.
        + pose proof (free_dims_length _ _ Hfix) as FL. rewrite proj_length, free_SL in FL by auto. fold UU in FL. rewrite proj_length.
          destruct UU; [easy|]. simpl in FL. lia.
        + rewrite proj_length. lia.
        + rewrite proj_length, free_SL by auto. fold UU. rewrite <- msz_proj by auto. auto.
        + rewrite proj_length, free_SL in Eg, Hg by auto. fold UU in Eg, Hg. exists g. split; auto. rewrite Eg, msz_proj; auto. }
    rewrite Eg. cbn [bind].
    (* cells of the slice come from cells of the marginal *)
    assert (forall c, index_in (msz sizes ix UU) c -> exists i, index_in (proj ix sizes) i /\
       (forall d v, In (d, v) (SL ix main) -> nth (Z.to_nat d) i 0 = v) /\ proj UU i = c) as Hlift.
    { intros c Hc. set (base := map (fun d => if -1 <? nth (Z.to_nat d) main 0 then nth (Z.to_nat d) main 0 else 0) ix).
      assert (index_in (proj ix sizes) base) as Hbase.
      { unfold base, proj. clear - Hix Hpm Lm Hf. unfold valid_dims in Hix. rewrite Forall_forall in Hix.
        pose proof (fits_pos _ Hf) as Hpos. unfold positive, proj in Hpos. rewrite Forall_forall in Hpos.
        assert (forall l, (forall d, In d l -> In d ix) -> Forall2 (fun n i : Z => 0 <= i < n) (map (fun d => nth (Z.to_nat d) sizes 0) l)
          (map (fun d => if -1 <? nth (Z.to_nat d) main 0 then nth (Z.to_nat d) main 0 else 0) l)) as G.
        { induction l as [|d l IH]; simpl; intros Hd; constructor; auto. specialize (Hd d (or_introl eq_refl)).
          specialize (Hpm (Z.to_nat d)). pose proof (Hix d Hd). specialize (Hpm ltac:(lia)).
          destruct (Z.ltb_spec (-1) (nth (Z.to_nat d) main 0)); [lia|].
          specialize (Hpos (nth (Z.to_nat d) sizes 0)). split; [lia|]. apply Hpos. apply in_map_iff. eauto. }
        apply G. auto. }
      exists (writes UU c base). rewrite msz_proj in Hc by auto.
      assert (valid_dims (length (proj ix sizes)) UU) as HvU by (unfold valid_dims; now rewrite proj_length).
      assert (length base = length ix) as Lb by (unfold base; now rewrite map_length).
      split; [|split].
      - apply writes_index_in; auto. apply U_NoDup.
      - intros d v Hin. unfold SL in Hin. apply in_map_iff in Hin as (q & [= -> <-] & Hq). apply filter_In in Hq as [Hq Hs].
        apply in_zrange in Hq. rewrite nth_writes_other.
        + unfold base. erewrite nth_error_nth; [reflexivity|]. rewrite nth_error_map, (nth_error_nth' ix 0) by lia. simpl.
          unfold set_p in Hs. now rewrite Hs.
        + intros Hin. rewrite Z2Nat.id in Hin by lia. apply U_in in Hin as [Hq1 Hq2].
          unfold set_p in Hs. apply Z.ltb_lt in Hs. lia.
        + revert HU. apply Forall_impl. intros a Ha. apply Ha.
      - apply proj_writes; auto; [apply U_NoDup| |].
        + unfold valid_dims. now rewrite Lb.
        + rewrite (index_in_length _ _ Hc), proj_length. reflexivity. }
    assert (tabs (msz sizes ix UU) g < 2 ^ 63) as Hbg.
    { eapply Z.le_lt_trans; [|exact Hb].
      unfold tabs. apply (total_inj _ _ (proj UU) (fun i => forall d v, In (d, v) (SL ix main) -> nth (Z.to_nat d) i 0 = v)); auto.
      - intros. lia.
      - intros i Hi Hag. now rewrite Hg. }
    destruct (rec_sample sizes ix us Hix UU _ g main HUne HU (U_ranks sizes ix seq main Lm Ls) HfU ltac:(lia) Lm Hbg) as [Hsafe Hpos].
    cbv zeta in *. fold UU in Hsafe, Hpos. split.
    + destruct Hsafe as [(e & E)|(main' & E & Hw1 & Hw2 & Hw3)]; [left; eauto|]. right. exists main'. split; auto.
      split; [|split].
      * split; [congruence|]. intros d Hd. destruct (in_dec Z.eq_dec (Z.of_nat d) (dims_of ix UU)) as [Hi|Hi].
        { specialize (Hw3 d Hi). lia. } { rewrite Hw2 by auto. auto. }
      * intros d Hd. apply Hw2. rewrite HD. unfold assigned in Hd. intros [H1 H2]. destruct Hd; [lia|tauto].
      * intros d Hd. unfold assigned. destruct (in_dec Z.eq_dec (Z.of_nat d) (dims_of ix UU)) as [Hi|Hi].
        { specialize (Hw3 d Hi). lia. } { rewrite Hw2 by auto. rewrite HD in Hi. destruct (Z.le_gt_cases 0 (nth d main 0)); auto. exfalso. apply Hi. split; auto; lia. }
    + intros Hnd Hn Ht Hu (c & Hc & Hp & Ha).
      assert (forall d v, In (d, v) (SL ix main) -> nth (Z.to_nat d) c 0 = v) as Hag.
      { intros d v Hin. unfold SL in Hin. apply in_map_iff in Hin as (q & [= -> <-] & Hq). apply filter_In in Hq as [Hq Hs].
        apply in_zrange in Hq. unfold set_p in Hs. apply Z.ltb_lt in Hs. apply Ha; lia. }
      assert (forall c, index_in (msz sizes ix UU) c -> 0 <= g c) as Hgn.
      { intros c' Hc'. destruct (Hlift c' Hc') as (i & Hi & Hagi & <-). rewrite Hg; auto. }
      assert (index_in (msz sizes ix UU) (proj UU c)) as HcU.
      { rewrite msz_proj by auto. apply index_in_proj; auto. rewrite proj_length. exact HU. }
      assert (0 < total (msz sizes ix UU) g <= 2 ^ 53) as Htg.
      { pose proof (le_total _ _ _ Hgn HcU) as H1. rewrite Hg in H1 by auto. split; [lia|]. apply Z.le_trans with (2 := Ht).
        apply (total_inj _ _ (proj UU) (fun i => forall d v, In (d, v) (SL ix main) -> nth (Z.to_nat d) i 0 = v)); auto. }
      assert (NoDup (dims_of ix UU)) as HndU.
      { unfold dims_of. assert (forall l, NoDup l -> (forall p, In p l -> 0 <= p < Z.of_nat (length ix)) -> NoDup (map (fun p => nth (Z.to_nat p) ix 0) l)) as G.
        { clear - Hnd. induction 1 as [|p l Hp Hl IH]; simpl; intros Hin; constructor; auto.
          intros Hi. apply in_map_iff in Hi as (q & Eq & Hq). apply Hp.
          assert (Z.to_nat q = Z.to_nat p) as E.
          { pose proof (Hin q (or_intror Hq)). pose proof (Hin p (or_introl eq_refl)). pose proof (proj1 (NoDup_nth ix 0) Hnd) as N. apply N; auto; lia. }
          pose proof (Hin q (or_intror Hq)). pose proof (Hin p (or_introl eq_refl)). replace p with q by lia. auto. }
        apply G; [apply U_NoDup|]. rewrite Forall_forall in HU. auto. }
      destruct (Hpos HndU Hgn Htg) as (main' & E & Hgm).
      { intros p Hp0. unfold us, us_of. rewrite Forall_forall in Hu. apply Hu. apply nth_In. rewrite Ls.
        rewrite Forall_forall in HU. pose proof (dim_of_valid sizes ix Hix p (HU p Hp0)). lia. }
      exists main'. split; auto.
      destruct Hsafe as [(e & Es)|(main'' & Es & Hw1 & Hw2 & Hw3)]; [congruence|]. assert (main'' = main') as -> by congruence.
      rewrite <- proj_proj in Hgm by auto. rewrite Hg in Hgm; auto.
      * apply index_in_nth. rewrite !proj_length. split; auto. intros k Hk.
        rewrite !nth_proj by auto. set (d := Z.to_nat (nth k ix 0)).
        pose proof (nth_In ix 0 Hk) as Hin. unfold valid_dims in Hix. rewrite Forall_forall in Hix. pose proof (Hix _ Hin).
        replace (nth k ix 0) with (Z.of_nat d) in Hin by (unfold d; lia).
        destruct (in_dec Z.eq_dec (Z.of_nat d) (dims_of ix UU)) as [Hi|Hi]; [apply Hw3; auto|].
        rewrite Hw2 by auto. rewrite HD in Hi. specialize (Hpm d ltac:(lia)). destruct (Z.le_gt_cases 0 (nth d main 0)); [lia|]. exfalso. apply Hi. split; auto; lia.
      * intros d v Hin. unfold SL in Hin. apply in_map_iff in Hin as (q & [= -> <-] & Hq). apply filter_In in Hq as [Hq Hs].
        apply in_zrange in Hq. unfold set_p in Hs. apply Z.ltb_lt in Hs. rewrite nth_proj by lia. apply Hw2. rewrite HD. lia.
Qed.
