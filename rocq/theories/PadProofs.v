(** Proofs for C87: marginals without a new dimension, and orientation of marginals, in qis. *)
From Coq Require Import Permutation.
From Verif Require Import Base Spec SpecFacts NDArray IndexProofs Float64 ArrayOps ArrayProofs Bind BindProofs
  SobolTable SobolSpec Sobol SobolTableProofs SobolProofs SobolClaims Micro Stat Qis SynthSpec MicroProofs PickProofs SampleProofs
  SplitProofs QisProofs QisClaims QisExamples QuantSpec QuantProofs PadSpec.
Open Scope Z_scope.

(** * Sampling from one marginal with at most one dimension missing *)
Section One.
Context (sizes : list Z) (c : con) (f : list Z -> Z) (p : list N).
Notation ix := (c_dims c).
Notation dim_of q := (nth (Z.to_nat q) ix 0).
Context (Hix : valid_dims (length sizes) ix) (Hlen : Z.of_nat (length ix) < 2 ^ 31)
  (Hsz : proj ix sizes = c_sizes c) (Hfit : fits (c_sizes c)) (Hlp : length p = length sizes).

Lemma sample_idle main : partial_index sizes main -> U ix main = [] -> sample ix p (mk (c_sizes c) f) main = Ok main.
Proof.
  intros Hpm EU. pose proof Hpm as [Lm _]. unfold sample. rewrite (split_spec sizes) by auto. cbn [bind]. rewrite EU. reflexivity.
Qed.

Lemma sample_single main q : NoDup ix -> partial_index sizes main -> U ix main = [q] ->
  let d := Z.to_nat (dim_of q) in
  sample ix p (mk (c_sizes c) f) main =
  let* i := pick (map (fun v => f (proj ix (upd main d v))) (zrange (nth d sizes 0))) (unit_of (nth d p 0%N)) in Ok (upd main d i).
Proof.
  intros Hnd Hpm EU d. pose proof Hpm as [Lm Hpm2]. unfold sample. rewrite (split_spec sizes) by auto. cbn [bind].
  pose proof (U_pos ix main) as HU. rewrite EU in *.
  assert (Hq : In q (U ix main)) by (rewrite EU; now left).
  pose proof (proj1 (U_in ix main q) Hq) as [Hqr Hqm]. pose proof (dim_of_valid sizes ix Hix q Hqr) as Hd.
  assert (fixed_ok (proj ix sizes) (SL ix main)) as Hfix.
  { split.
    - rewrite SL_fst. apply NoDup_filter, NoDup_zrange.
    - apply Forall_forall. intros [q' v] Hin. unfold SL in Hin. apply in_map_iff in Hin as (q2 & [= -> <-] & Hq2).
      apply filter_In in Hq2 as [Hq2 Hs]. apply in_zrange in Hq2. unfold set_p in Hs. apply Z.ltb_lt in Hs.
      rewrite proj_length. split; auto. rewrite nth_proj by lia.
      pose proof (dim_of_valid sizes ix Hix q' Hq2). specialize (Hpm2 (Z.to_nat (nth (Z.to_nat q') ix 0)) ltac:(lia)). lia. }
  assert (fits (proj ix sizes)) as Hf by now rewrite Hsz.
  assert (fits (msz sizes ix [q])) as HfU.
  { rewrite msz_proj by auto. apply fits_proj; auto; [discriminate|repeat constructor; intros []|]. rewrite proj_length. exact HU. }
  assert (exists g, slice (mk (proj ix sizes) f) (SL ix main) = Ok (mk (msz sizes ix [q]) g) /\
     forall i, index_in (proj ix sizes) i -> (forall d v, In (d, v) (SL ix main) -> nth (Z.to_nat d) i 0 = v) ->
       g (proj [q] i) = f i) as (g & Eg & Hg).
  { destruct (list_eq_dec (fun a b : Z * Z => ltac:(decide equality; apply Z.eq_dec)) (SL ix main) []) as [ES|ES].
    - rewrite ES, slice_nil by auto.
      assert ([q] = zrange (Z.of_nat (length ix))) as EU'.
      { rewrite <- EU, <- (free_SL ix main (length ix)) by auto. rewrite ES. unfold free_dims. simpl.
        generalize (zrange (Z.of_nat (length ix))). induction l; simpl; congruence. }
      exists f. split.
      + rewrite msz_proj by auto. rewrite EU'. f_equal.
        replace (Z.of_nat (length ix)) with (Z.of_nat (length (proj ix sizes))) by now rewrite proj_length.
        now rewrite proj_zrange.
      + intros i Hi _. rewrite EU'. replace (Z.of_nat (length ix)) with (Z.of_nat (length i)).
        * now rewrite proj_zrange.
        * rewrite (index_in_length _ _ Hi), proj_length. reflexivity.
    - destruct (slice_mk (proj ix sizes) f (SL ix main)) as (g & Eg & Hg); auto.
      + pose proof (free_dims_length _ _ Hfix) as FL. rewrite proj_length, free_SL in FL by auto. rewrite EU in FL. rewrite proj_length.
        simpl in FL. lia.
      + rewrite proj_length. lia.
      + rewrite proj_length, free_SL by auto. rewrite EU. rewrite <- msz_proj by auto. auto.
      + rewrite proj_length, free_SL in Eg, Hg by auto. rewrite EU in Eg, Hg. exists g. split; auto. rewrite Eg, msz_proj; auto. }
  rewrite <- Hsz, Eg. cbn [todo_of map rev app bind recursive_sample]. rewrite nd_values_mk by auto. cbn [bind msz map]. rewrite all_indices_1, map_map.
  fold d. set (n := nth d sizes 0).
  replace (map (fun x => g [x]) (zrange n)) with (map (fun v => f (proj ix (upd main d v))) (zrange n)).
  - fold (us_of ix p q). unfold us_of at 1. fold d. destruct (pick _ _) as [k| | |]; cbn [bind]; auto. now rewrite (mi_set_ok sizes) by auto.
  - apply map_ext_in. intros v Hv. apply in_zrange in Hv.
    assert (forall j, (j < length ix)%nat -> nth j (proj ix (upd main d v)) 0 = if Nat.eqb j (Z.to_nat q) then v else nth (Z.to_nat (nth j ix 0)) main 0) as Hj.
    { intros j Hj. rewrite nth_proj by auto. destruct (Nat.eqb_spec j (Z.to_nat q)) as [->|Hne].
      - fold d. rewrite nth_upd, Nat.eqb_refl; auto. unfold d. lia.
      - rewrite nth_upd_other; auto. unfold d. intros E. apply Hne.
        assert (0 <= nth j ix 0) by (unfold valid_dims in Hix; rewrite Forall_forall in Hix; apply Hix, nth_In; lia).
        apply (proj1 (NoDup_nth ix 0) Hnd); auto; lia. }
    assert (Hset : forall j, (j < length ix)%nat -> j <> Z.to_nat q -> 0 <= nth (Z.to_nat (nth j ix 0)) main 0).
    { intros j Hjl Hne. destruct (Z.le_gt_cases 0 (nth (Z.to_nat (nth j ix 0)) main 0)) as [|Hlt]; auto. exfalso. apply Hne.
      assert (In (Z.of_nat j) (U ix main)) as Hin by (apply U_in; rewrite Nat2Z.id; split; lia).
      rewrite EU in Hin. destruct Hin as [E|[]]. lia. }
    rewrite <- Hg.
    + cbn [proj map]. f_equal. f_equal. rewrite Hj by lia. now rewrite Nat.eqb_refl.
    + apply index_in_nth. rewrite !proj_length. split; auto. intros j Hjl. rewrite (nth_proj ix sizes) by auto. rewrite Hj by auto.
      destruct (Nat.eqb_spec j (Z.to_nat q)) as [->|Hne]; [fold d n; lia|].
      assert (0 <= nth j ix 0 < Z.of_nat (length sizes)) by (unfold valid_dims in Hix; rewrite Forall_forall in Hix; apply Hix, nth_In; lia).
      split; [now apply Hset|]. apply Hpm2. lia.
    + intros d' v' Hin. unfold SL in Hin. apply in_map_iff in Hin as (q2 & [= -> <-] & Hq2). apply filter_In in Hq2 as [Hq2 Hs].
      apply in_zrange in Hq2. rewrite Hj by lia. destruct (Nat.eqb_spec (Z.to_nat d') (Z.to_nat q)) as [E|Hne]; [|reflexivity].
      exfalso. assert (d' = q) by lia. subst d'. unfold set_p in Hs. apply Z.ltb_lt in Hs. lia.
Qed.
End One.

(** * The orientation of a marginal *)
Lemma proj_eq_iff dims (i j : list Z) : proj dims i = proj dims j <-> forall d, In d dims -> nth (Z.to_nat d) i 0 = nth (Z.to_nat d) j 0.
Proof.
  unfold proj. split.
  - induction dims as [|d dims IH]; [easy|]. cbn [map]. intros [= H1 H2] d' [<-|H]; auto.
  - intros H. apply map_ext_in. exact H.
Qed.
Lemma proj_eq_perm dims dims' (i j : list Z) : Permutation dims dims' -> (proj dims i = proj dims j <-> proj dims' i = proj dims' j).
Proof.
  intros H. rewrite !proj_eq_iff. split; intros E d Hd; apply E; [apply (Permutation_in d (Permutation_sym H))|apply (Permutation_in d H)]; exact Hd.
Qed.
Lemma margin_turned sizes dims dims' i r : Permutation dims dims' -> margin sizes dims (proj dims i) r = margin sizes dims' (proj dims' i) r.
Proof.
  intros H. unfold margin, sum_where. f_equal. f_equal. apply filter_ext. intros j.
  pose proof (proj_eq_perm dims dims' j i H) as E.
  destruct (idx_eqb (proj dims j) (proj dims i)) eqn:E1, (idx_eqb (proj dims' j) (proj dims' i)) eqn:E2; auto; exfalso.
  - apply idx_eqb_true in E1. apply E in E1. apply idx_eqb_true in E1. congruence.
  - apply idx_eqb_true in E2. apply E in E2. apply idx_eqb_true in E2. congruence.
Qed.

Lemma U_small ix main : NoDup ix -> (forall d d', In d ix -> In d' ix -> nth (Z.to_nat d) main 0 <= -1 -> nth (Z.to_nat d') main 0 <= -1 -> d = d') ->
  U ix main = [] \/ exists q, U ix main = [q].
Proof.
  intros Hnd H. pose proof (U_NoDup ix main) as Hu. destruct (U ix main) as [|q [|q' l]] eqn:E; [now left|right; eauto|]. exfalso.
  assert (In q (U ix main)) as H1 by (rewrite E; now left). assert (In q' (U ix main)) as H2 by (rewrite E; right; now left).
  apply U_in in H1 as [R1 M1]. apply U_in in H2 as [R2 M2].
  assert (nth (Z.to_nat q) ix 0 = nth (Z.to_nat q') ix 0) as Ed by (apply H; auto; apply nth_In; lia).
  apply (proj1 (NoDup_nth ix 0) Hnd) in Ed; try lia. inversion Hu as [|? ? Hn _]; subst. apply Hn. left. lia.
Qed.

Lemma U_nil_iff ix main : U ix main = [] <-> forall d, In d ix -> 0 <= nth (Z.to_nat d) main 0.
Proof.
  split.
  - intros E d Hd. destruct (Z.le_gt_cases 0 (nth (Z.to_nat d) main 0)) as [|Hlt]; auto. exfalso.
    apply (In_nth _ _ 0) in Hd as (j & Hj & Ej).
    assert (In (Z.of_nat j) (U ix main)) as Hin by (apply U_in; rewrite Nat2Z.id, Ej; split; lia). rewrite E in Hin. destruct Hin.
  - intros H. destruct (U ix main) as [|q l] eqn:E; auto. exfalso.
    assert (In q (U ix main)) as H1 by (rewrite E; now left). apply U_in in H1 as [R1 M1].
    specialize (H (nth (Z.to_nat q) ix 0) ltac:(apply nth_In; lia)). lia.
Qed.

Section Turned.
Context (sizes : list Z) (c c' : con) (p : list N) (r : list Z -> Z).
Context (Hix : valid_dims (length sizes) (c_dims c)) (Hlen : Z.of_nat (length (c_dims c)) < 2 ^ 31)
  (Hsz : proj (c_dims c) sizes = c_sizes c) (Hfit : fits (c_sizes c)) (Hlp : length p = length sizes).
Context (Hix' : valid_dims (length sizes) (c_dims c')) (Hlen' : Z.of_nat (length (c_dims c')) < 2 ^ 31)
  (Hsz' : proj (c_dims c') sizes = c_sizes c') (Hfit' : fits (c_sizes c')).
Context (Hsame : same_counts sizes c c') (Hnd : NoDup (c_dims c)) (Hfs : fits sizes).

Lemma rem_turned i : index_in sizes i -> rem sizes c r (proj (c_dims c) i) = rem sizes c' r (proj (c_dims c') i).
Proof.
  intros Hi. destruct Hsame as [Hp Hc]. unfold rem. rewrite (Hc i Hi). f_equal. now apply margin_turned.
Qed.

Lemma sample_turned main : partial_index sizes main ->
  (forall d d', In d (c_dims c) -> In d' (c_dims c) -> nth (Z.to_nat d) main 0 <= -1 -> nth (Z.to_nat d') main 0 <= -1 -> d = d') ->
  sample (c_dims c) p (mk (c_sizes c) (rem sizes c r)) main = sample (c_dims c') p (mk (c_sizes c') (rem sizes c' r)) main.
Proof.
  intros Hpm Hone. pose proof Hsame as [Hp _]. assert (Hnd' : NoDup (c_dims c')) by (eapply Permutation_NoDup; eauto).
  assert (Hin : forall d, In d (c_dims c) <-> In d (c_dims c')) by (intros d; split; apply Permutation_in; auto; now apply Permutation_sym).
  destruct (U_small (c_dims c) main Hnd Hone) as [E|(q & E)].
  - assert (E' : U (c_dims c') main = []) by (apply U_nil_iff; intros d Hd; apply (proj1 (U_nil_iff _ _) E), Hin, Hd).
    rewrite (sample_idle sizes c _ p) by auto. now rewrite (sample_idle sizes c' _ p) by auto.
  - destruct (U_small (c_dims c') main Hnd') as [E'|(q' & E')]; [intros d d' H1 H2; apply Hone; now apply Hin| |].
    { exfalso. assert (U (c_dims c) main = []) as E0 by (apply U_nil_iff; intros d Hd; apply (proj1 (U_nil_iff _ _) E'), Hin, Hd). congruence. }
    rewrite (sample_single sizes c _ p Hix Hlen Hsz Hfit Hlp main q Hnd Hpm E). rewrite (sample_single sizes c' _ p Hix' Hlen' Hsz' Hfit' Hlp main q' Hnd' Hpm E').
    assert (H1 : In q (U (c_dims c) main)) by (rewrite E; now left). assert (H2 : In q' (U (c_dims c') main)) by (rewrite E'; now left).
    apply U_in in H1 as [R1 M1]. apply U_in in H2 as [R2 M2].
    assert (Ed : nth (Z.to_nat q) (c_dims c) 0 = nth (Z.to_nat q') (c_dims c') 0) by (apply Hone; auto; [apply nth_In|apply Hin, nth_In]; lia).
    rewrite <- Ed. set (d := Z.to_nat (nth (Z.to_nat q) (c_dims c) 0)).
    assert (0 <= nth (Z.to_nat q) (c_dims c) 0 < Z.of_nat (length sizes)) as Hd by (apply (dim_of_valid sizes (c_dims c) Hix q R1)).
    assert (Hdl : (d < length sizes)%nat) by (unfold d; lia). pose proof Hpm as [Lm Hpm2].
    replace (map (fun v => rem sizes c' r (proj (c_dims c') (upd main d v))) (zrange (nth d sizes 0)))
      with (map (fun v => rem sizes c r (proj (c_dims c) (upd main d v))) (zrange (nth d sizes 0))); [reflexivity|].
    apply map_ext_in. intros v Hv. apply in_zrange in Hv.
    set (i := map (Z.max 0) (upd main d v)).
    assert (Li : length i = length sizes) by (unfold i; rewrite map_length, length_upd; auto).
    assert (Hni : forall k, (k < length sizes)%nat -> nth k i 0 = Z.max 0 (if Nat.eqb k d then v else nth k main 0)).
    { intros k Hk. unfold i. rewrite (nth_indep _ 0 (Z.max 0 0)) by (rewrite map_length, length_upd; lia). rewrite map_nth, nth_upd by lia. reflexivity. }
    assert (Hii : index_in sizes i).
    { apply index_in_nth. split; auto. intros k Hk. rewrite Hni by auto. destruct (Nat.eqb_spec k d) as [->|Hne]; [lia|].
      specialize (Hpm2 k Hk). pose proof (fits_pos _ Hfs) as Hpos. unfold positive in Hpos. rewrite Forall_forall in Hpos.
      specialize (Hpos (nth k sizes 0) (nth_In _ _ Hk)). lia. }
    assert (Hpr : forall c0, valid_dims (length sizes) (c_dims c0) -> (forall d, In d (c_dims c0) -> In d (c_dims c)) -> proj (c_dims c0) (upd main d v) = proj (c_dims c0) i).
    { intros c0 Hv0 H0. apply proj_eq_iff. intros k Hk. unfold valid_dims in Hv0. rewrite Forall_forall in Hv0. specialize (Hv0 k Hk).
      rewrite Hni, nth_upd by lia. destruct (Nat.eqb_spec (Z.to_nat k) d) as [|Hne]; [lia|].
      destruct (Z.le_gt_cases 0 (nth (Z.to_nat k) main 0)); [lia|]. exfalso. apply Hne. unfold d. f_equal.
      apply Hone; [now apply H0|apply nth_In; lia|lia|exact M1]. }
    rewrite (Hpr c) by auto. rewrite (Hpr c') by (auto; intros k; apply Hin). now apply rem_turned.
Qed.
End Turned.

(** * Two lists of constraints *)
Section Two.
Context (cs cs' : list con) (sizes : list Z).
Context (Hsm : forall c, In c cs -> csmall c) (Himp : implied cs sizes) (Hnn : forall c, In c cs -> nonneg c).
Context (Hsm' : forall c, In c cs' -> csmall c) (Himp' : implied cs' sizes) (Hnn' : forall c, In c cs' -> nonneg c).
Context (Hfit : fits sizes).

Lemma draws_same r t seq : counts sizes t r -> t < 2 ^ 62 -> length seq = length sizes ->
  forall seen post post', adds_to sizes seen post post' ->
  forall pre pre' main, cs = pre ++ post -> cs' = pre' ++ post' -> trail sizes pre main -> trail sizes pre' main ->
  (forall d, In d seen -> 0 <= nth (Z.to_nat d) main 0) ->
  foldM (fun '(k, ix) main => let* a := vec_get (rems cs sizes r) k in sample ix seq a main)
             (numbered (Z.of_nat (length pre)) (map c_dims post)) main =
  foldM (fun '(k, ix) main => let* a := vec_get (rems cs' sizes r) k in sample ix seq a main)
             (numbered (Z.of_nat (length pre')) (map c_dims post')) main.
Proof.
  intros Hc Hb Hl seen post post' Hadd. induction Hadd as [seen|seen c post post' Hadd IH|seen c c' post post' Hs Hnd Hone Hadd IH|seen c' post post' Hidle Hadd IH];
    intros pre pre' main E E' Ht Ht' Hseen.
  - reflexivity.
  - cbn [map numbered foldM]. rewrite (vec_get_rems cs sizes r pre c post E), (vec_get_rems cs' sizes r pre' c post' E'). cbn [bind].
    destruct (sample_one cs sizes Hsm Himp r t seq c pre post main E Hc Hb Hl Ht) as [S _].
    destruct (sample_one cs' sizes Hsm' Himp' r t seq c pre' post' main E' Hc Hb Hl Ht') as [S' _]. cbv zeta in S, S'.
    destruct S as [(e & Es)|(m1 & Es & Ht1 & Hk)]; rewrite Es in *; cbn [bind]; [reflexivity|].
    destruct S' as [(e & Es')|(m1' & Es' & Ht1' & _)]; [discriminate|]. injection Es' as <-.
    replace (Z.of_nat (length pre) + 1) with (Z.of_nat (length (pre ++ [c]))) by (rewrite app_length; simpl; lia).
    replace (Z.of_nat (length pre') + 1) with (Z.of_nat (length (pre' ++ [c]))) by (rewrite app_length; simpl; lia).
    apply IH; auto; try now rewrite <- app_assoc.
    intros d Hd. apply in_app_iff in Hd as [Hd|Hd].
    + assert (In c cs) as Hin by (rewrite E; apply in_app_iff; right; now left).
      pose proof (cdims cs sizes Himp c Hin) as Hvd. unfold valid_dims in Hvd. rewrite Forall_forall in Hvd. specialize (Hvd d Hd).
      apply (proj2 Ht1); [lia|]. exists c. split; [apply in_app_iff; right; now left|]. now rewrite Z2Nat.id by lia.
    + specialize (Hseen d Hd). rewrite (Hk (Z.to_nat d)); auto.
  - cbn [map numbered foldM]. rewrite (vec_get_rems cs sizes r pre c post E), (vec_get_rems cs' sizes r pre' c' post' E'). cbn [bind].
    assert (In c cs) as Hin by (rewrite E; apply in_app_iff; right; now left).
    assert (In c' cs') as Hin' by (rewrite E'; apply in_app_iff; right; now left).
    destruct (Hsm c Hin) as (Hfc & Hl31 & _). destruct (Hsm' c' Hin') as (Hfc' & Hl31' & _).
    assert (sample (c_dims c') seq (mk (c_sizes c') (rem sizes c' r)) main = sample (c_dims c) seq (mk (c_sizes c) (rem sizes c r)) main) as Eq.
    { symmetry. apply sample_turned; auto.
      - now apply (cdims cs).
      - rewrite (clen cs sizes) by auto. auto.
      - now apply (csizes cs).
      - now apply (cdims cs').
      - rewrite (clen cs' sizes) by auto. auto.
      - now apply (csizes cs').
      - apply Ht.
      - intros d d' Hd Hd' H1 H2. apply Hone; auto; intros Hs0; specialize (Hseen _ Hs0); lia. }
    rewrite Eq.
    destruct (sample_one cs sizes Hsm Himp r t seq c pre post main E Hc Hb Hl Ht) as [S _].
    destruct (sample_one cs' sizes Hsm' Himp' r t seq c' pre' post' main E' Hc Hb Hl Ht') as [S' _]. cbv zeta in S, S'. rewrite Eq in S'.
    destruct S as [(e & Es)|(m1 & Es & Ht1 & Hk)]; rewrite Es in *; cbn [bind]; [reflexivity|].
    destruct S' as [(e & Es')|(m1' & Es' & Ht1' & _)]; [discriminate|]. injection Es' as <-.
    replace (Z.of_nat (length pre) + 1) with (Z.of_nat (length (pre ++ [c]))) by (rewrite app_length; simpl; lia).
    replace (Z.of_nat (length pre') + 1) with (Z.of_nat (length (pre' ++ [c']))) by (rewrite app_length; simpl; lia).
    apply IH; auto; try now rewrite <- app_assoc.
    intros d Hd. apply in_app_iff in Hd as [Hd|Hd].
    + pose proof (cdims cs sizes Himp c Hin) as Hvd. unfold valid_dims in Hvd. rewrite Forall_forall in Hvd. specialize (Hvd d Hd).
      apply (proj2 Ht1); [lia|]. exists c. split; [apply in_app_iff; right; now left|]. now rewrite Z2Nat.id by lia.
    + specialize (Hseen d Hd). rewrite (Hk (Z.to_nat d)); auto.
  - cbn [map numbered foldM]. rewrite (vec_get_rems cs' sizes r pre' c' post' E'). cbn [bind].
    assert (In c' cs') as Hin' by (rewrite E'; apply in_app_iff; right; now left).
    destruct (Hsm' c' Hin') as (Hfc' & Hl31' & _).
    assert (U (c_dims c') main = []) as EU by (apply U_nil_iff; intros d Hd; apply Hseen, Hidle, Hd).
    assert (sample (c_dims c') seq (mk (c_sizes c') (rem sizes c' r)) main = Ok main) as Es0.
    { apply (sample_idle sizes); auto; [now apply (cdims cs')|apply Ht]. }
    rewrite Es0. cbn [bind].
    destruct (sample_one cs' sizes Hsm' Himp' r t seq c' pre' post' main E' Hc Hb Hl Ht') as [S' _]. cbv zeta in S'. rewrite Es0 in S'.
    destruct S' as [(e & Es')|(m1' & Es' & Ht1' & _)]; [discriminate|]. injection Es' as <-.
    replace (Z.of_nat (length pre') + 1) with (Z.of_nat (length (pre' ++ [c']))) by (rewrite app_length; simpl; lia).
    apply IH; auto. now rewrite <- app_assoc.
Qed.

Context (cols : list (list N)) (Hcols : length cols = length sizes) (Hdir : Forall valid_directions cols).
Context (Hadd : adds_to sizes [] cs cs').

(** the two states after the same individuals *)
Definition tied (t : Z) (s s' : qstate) : Prop :=
  exists r v v', view_of cols v (q_sobol s) /\ view_of cols v' (q_sobol s') /\ v_n v = v_n v' /\ (Z.to_N t <= v_n v)%N /\
    counts sizes t r /\ q_margs s = rems cs sizes r /\ q_margs s' = rems cs' sizes r /\ q_arr s = mk sizes r /\ q_arr s' = mk sizes r.

Lemma tied_step t s s' s1 : 0 <= t -> tied t s s' -> qis_step (length sizes) (map c_dims cs) s = Ok s1 ->
  exists s1', qis_step (length sizes) (map c_dims cs') s' = Ok s1' /\ tied (t + 1) s1 s1'.
Proof.
  intros Ht0 (r & v & v' & Hv & Hv' & Hn & Htv & Hc & Em & Em' & Ea & Ea') E. unfold qis_step in *.
  pose proof (view_n_le _ _ _ Hv) as Hle.
  destruct (N.eq_dec (v_n v) limit) as [El|Nl].
  { rewrite (sobol_buf_end cols v _ Hv El) in E. cbn [bind] in E. discriminate. }
  assert (Hb : 0 <= t < 2 ^ 32) by (unfold limit in *; lia).
  destruct (sobol_buf_ok cols v _ Hdir Hv) as (sb & Eb & Hvb); [lia|]. rewrite Eb in E. cbn [bind] in E.
  destruct (sobol_buf_ok cols v' _ Hdir Hv') as (sb' & Eb' & Hvb'); [lia|]. rewrite Eb'. cbn [bind]. rewrite <- Hn.
  set (p := point_of cols (v_n v + 1)) in *.
  assert (length p = length sizes) as Lp by (unfold p, point_of; now rewrite map_length).
  rewrite Em in E. rewrite Em'.
  pose proof (draws_same r t p Hc ltac:(lia) Lp [] cs cs' Hadd [] [] (repeat (-1) (length sizes)) eq_refl eq_refl (trail_nil sizes Hfit) (trail_nil sizes Hfit) ltac:(intros d [])) as Es.
  cbn [length Z.of_nat] in Es. change (Z.of_nat 0) with 0 in Es. rewrite <- Es. clear Es.
  fold (draw cs sizes r p (repeat (-1) (length sizes))) in E |- *.
  destruct (draw_safe cs sizes Hsm Himp Hfit r t p Hc ltac:(lia) Lp) as [(e & Ed)|(main & Ed & Hm)]; rewrite Ed in *; cbn [bind] in *; [discriminate|].
  rewrite (all_set sizes) in * by auto.
  destruct (decrement_ok cs sizes Hsm Himp Hnn r t main (q_conv s) Hc ltac:(lia) Hm) as (conv & Edec & _). rewrite Edec in E. cbn [bind] in E.
  destruct (decrement_ok cs' sizes Hsm' Himp' Hnn' r t main (q_conv s') Hc ltac:(lia) Hm) as (conv' & Edec' & _). rewrite Edec'. cbn [bind].
  rewrite Ea in E. rewrite Ea'. rewrite (increment_ok sizes Hfit r t main) in * by (auto; lia). cbn [bind] in *. injection E as <-.
  eexists. split; [reflexivity|]. exists (inc r main), (SV (v_n v + 1) (v_n v + 1) (v_pos v)), (SV (v_n v' + 1) (v_n v' + 1) (v_pos v')).
  cbn [q_sobol q_margs q_arr v_n]. split; [exact Hvb|]. split; [exact Hvb'|]. split; [lia|].
  split; [rewrite Z2N.inj_add by lia; lia|]. split; [now apply counts_inc|]. repeat split.
Qed.

Lemma tied_loop n : forall t s s' s1, 0 <= t -> tied t s s' ->
  foldM (fun (_ : unit) s => qis_step (length sizes) (map c_dims cs) s) (repeat tt n) s = Ok s1 ->
  exists s1', foldM (fun (_ : unit) s => qis_step (length sizes) (map c_dims cs') s) (repeat tt n) s' = Ok s1' /\ q_arr s1' = q_arr s1.
Proof.
  induction n as [|n IH]; intros t s s' s1 Ht Htied E.
  - simpl in *. injection E as <-. exists s'. split; auto. destruct Htied as (r & v & v' & _ & _ & _ & _ & _ & _ & _ & Ea & Ea'). congruence.
  - simpl repeat in *. cbn [foldM] in *. destruct (qis_step _ _ s) as [s2| | |] eqn:Es; cbn [bind] in E; try discriminate.
    destruct (tied_step t s s' s2 Ht Htied Es) as (s2' & Es' & Ht2). rewrite Es'. cbn [bind]. eapply IH; [|exact Ht2|exact E]. lia.
Qed.

Lemma tied_start sb sb' v v' : view_of cols v sb -> view_of cols v' sb' -> v_n v = v_n v' ->
  tied 0 (QS sb (map nd_of cs) (mk sizes (fun _ => 0)) true) (QS sb' (map nd_of cs') (mk sizes (fun _ => 0)) true).
Proof.
  intros Hv Hv' Hn. exists (fun _ => 0), v, v'. cbn [q_sobol q_margs q_arr]. do 3 (split; [auto|]). split; [simpl; lia|].
  split; [split; [lia|]; unfold total; rewrite sumZ_map_const; lia|].
  assert (forall c k, rem sizes c (fun _ => 0) k = c_at c k) as Hr.
  { intros c k. unfold rem, margin, sum_where. rewrite sumZ_map_const. lia. }
  split; [|split; [|split; reflexivity]]; unfold rems; apply map_ext; intros c; unfold nd_of; apply mk_ext; intros k _; auto.
Qed.
End Two.

(** every marginal of [cs] appears in [cs'], perhaps in another orientation *)
Lemma adds_to_in sizes seen cs cs' : adds_to sizes seen cs cs' -> forall c, In c cs -> exists c', In c' cs' /\
  (c' = c \/ (same_counts sizes c c' /\ NoDup (c_dims c))).
Proof.
  induction 1 as [seen|seen c0 cs cs' H IH|seen c0 c0' cs cs' Hs Hnd Hone H IH|seen c0' cs cs' Hi H IH]; intros c Hc.
  - easy.
  - destruct Hc as [<-|Hc]; [exists c0; split; [now left|auto]|]. destruct (IH c Hc) as (c' & Hc' & E). exists c'. split; [now right|auto].
  - destruct Hc as [<-|Hc]; [exists c0'; split; [now left|auto]|]. destruct (IH c Hc) as (c' & Hc' & E). exists c'. split; [now right|auto].
  - destruct (IH c Hc) as (c' & Hc' & E). exists c'. split; [now right|auto].
Qed.

Lemma pad_claim L fuel ilist mlist ilist' mlist' skips res : let cs' := cons_of ilist' mlist' in
  in_range ilist mlist -> in_range ilist' mlist' -> vectors ilist' mlist' -> py_qis L fuel ilist mlist skips = Ok res ->
  let sizes := shape (qr_pop_array res) in
  valid cs' -> implied cs' sizes -> (forall c, In c cs' -> c_total c = qr_pop res) ->
  adds_to sizes [] (cons_of ilist mlist) cs' -> (32 <= fuel)%nat ->
  exists res', py_qis L fuel ilist' mlist' skips = Ok res' /\ qr_pop_array res' = qr_pop_array res /\ qr_pop res' = qr_pop res /\
    (qr_conv res' = true <-> forall c, In c cs' -> meets sizes (entry 0 (qr_pop_array res)) c) /\
    (qr_conv res' = true -> qr_conv res = true).
Proof.
  intros cs' Hr Hr' Hvec' E sizes0 Hval' Himp0 Htot' Hadd Hfuel. subst sizes0.
  assert (forall c, In c (cons_of ilist mlist) -> csmall c) as Hsm by (intros c; now apply range_small).
  assert (forall c, In c cs' -> csmall c) as Hsm' by (intros c; now apply range_small).
  destruct (qis_cases L fuel ilist mlist skips Hr) as [[(e & E') _]|(Hv & sizes & Hvc & Hf & H)]; [congruence|].
  cbv zeta in H. destruct H as [(_ & e & E')|[(E' & _)|(Hu & Hd & cols & sb & v & Hlc & Hdir & Htab & Hvw & Hvn & H)]]; try congruence.
  destruct H as [(e & _ & E')|(s & r & El & Ea & Hc & Hcv & Hp & Ht & E')]; [congruence|].
  set (cs := cons_of ilist mlist) in *. set (pop := pop_of (c_total (hd con0 cs))) in *.
  rewrite E in E'. injection E' as Eres.
  assert (shape (qr_pop_array res) = sizes /\ qr_pop res = pop /\ qr_conv res = q_conv s /\ qr_pop_array res = NDA sizes (map r (all_indices sizes))) as (Esh & Epop & Ecv & Earr)
    by (rewrite Eres; auto). clear Eres. rewrite Esh in *. rewrite Epop in *. rewrite Ecv, Earr.
  pose proof Hvc as (Hl2 & Himp & Hd2 & Hnn & _).
  destruct (qis_cases L fuel ilist' mlist' skips Hr') as [[_ Hno]|(_ & sizes' & Hvc' & Hf' & H)].
  { exfalso. eapply Hno; auto. eapply valid_code_of_valid; eauto. }
  fold cs' in Hvc', H. pose proof Hvc' as (Hl2' & Himp' & _ & Hnn' & _).
  assert (sizes' = sizes) as -> by (eapply implied_unique; eauto).
  cbv zeta in H. destruct H as [(Hd' & _)|[(_ & [Hf''|Hs'])|(_ & _ & cols' & sb' & v' & Hlc' & Hdir' & Htab' & Hvw' & Hvn' & H)]]; try lia.
  assert (cols' = cols) as -> by (eapply table_unique; eauto).
  assert (0 <= pop) as Hp0.
  { destruct Hc as [H1 H2]. fold cs pop in H2. rewrite <- H2. now apply total_nonneg. }
  assert (pop_of (c_total (hd con0 cs')) = pop) as Ep'.
  { rewrite Htot' by (destruct cs'; [simpl in Hl2'; lia|now left]). apply pop_of_small. lia. }
  rewrite Ep' in H.
  pose proof (tied_start cs cs' sizes cols Hlc sb sb' v v' Hvw Hvw' ltac:(congruence)) as Hst.
  unfold repeatM in El.
  destruct (tied_loop cs cs' sizes Hsm Himp Hnn Hsm' Himp' Hnn' Hf cols Hlc Hdir Hadd (Z.to_nat pop) 0 _ _ s ltac:(lia) Hst El) as (s' & El' & Ea').
  unfold repeatM in H. destruct H as [(e & El'' & _)|(s2 & r' & El'' & Ea2 & Hc' & Hcv' & _ & _ & E'')]; [congruence|].
  assert (s2 = s') as -> by congruence. clear El''.
  assert (forall i, index_in sizes i -> r' i = r i) as Hrr.
  { intros i Hi. rewrite Ea' in Ea2. rewrite Ea in Ea2. symmetry. apply (mk_inj sizes _ _ Hf Ea2 i Hi). }
  eexists. split; [exact E''|]. cbn [qr_pop_array qr_pop qr_conv]. split.
  { f_equal. apply map_ext_in. intros i Hi. apply Hrr. now apply in_all_indices. }
  split; [reflexivity|].
  assert (q_conv s' = true <-> (forall c, In c cs' -> meets sizes r c)) as Hm'.
  { rewrite Hcv', (left_ok_meets cs' sizes Himp' r' pop) by auto. split; intros H c Hin k Hk; specialize (H c Hin k Hk); rewrite <- H.
    - symmetry. apply margin_ext. auto.
    - apply margin_ext. auto. }
  split.
  { rewrite Hm'. split; intros H c Hin k Hk; specialize (H c Hin k Hk); [now rewrite margin_NDA|now rewrite margin_NDA in H]. }
  intros Hcv2. apply Hcv. apply (left_ok_meets cs sizes Himp r pop); auto. pose proof (proj1 Hm' Hcv2) as Hmt.
  intros c Hin k Hk. destruct (adds_to_in _ _ _ _ Hadd c Hin) as (c' & Hin' & [->|[[Hperm Hat] Hnd]]).
  { now apply Hmt. }
  destruct (proj2 Himp c Hin) as [Hlen Hpr]. pose proof (cdims cs sizes Himp c Hin) as Hvd.
  rewrite <- Hpr in Hk. set (i := writes (c_dims c) k (repeat 0 (length sizes))).
  assert (index_in sizes i) as Hi by (apply writes_index_in; auto; apply index_in_zeros; now apply fits_pos).
  assert (proj (c_dims c) i = k) as Ek.
  { apply proj_writes; auto; [now rewrite repeat_length|]. rewrite (index_in_length _ _ Hk). apply proj_length. }
  rewrite <- Ek. rewrite (margin_turned sizes (c_dims c) (c_dims c') i r Hperm). rewrite <- (Hat i Hi). apply Hmt; auto.
  now apply (proj_in cs' sizes).
Qed.

(** * The expectation does not depend on the orientation *)
Lemma state_value_turned sizes cs cs' i : index_in sizes i -> Forall2 (same_counts sizes) cs cs' -> state_value cs' i = state_value cs i.
Proof.
  intros Hi H. unfold state_value. generalize d_one. induction H as [|c c' cs cs' [_ Hc] H IH]; intros x; cbn [map fold_left]; auto.
  rewrite (Hc i Hi). apply IH.
Qed.

Lemma orient_claim L fuel ilist mlist ilist' mlist' skips res res' :
  in_range ilist mlist -> in_range ilist' mlist' -> py_qis L fuel ilist mlist skips = Ok res -> py_qis L fuel ilist' mlist' skips = Ok res' ->
  shape (qr_pop_array res') = shape (qr_pop_array res) -> qr_pop res' = qr_pop res ->
  Forall2 (same_counts (shape (qr_pop_array res))) (cons_of ilist mlist) (cons_of ilist' mlist') ->
  qr_expectation res' = qr_expectation res.
Proof.
  intros Hr Hr' E E' Es Ep H. destruct (qis_ok_inv L fuel ilist mlist skips res Hr E) as (sizes & r & _ & _ & _ & _ & _ & Ea & Ex & _).
  destruct (qis_ok_inv L fuel ilist' mlist' skips res' Hr' E') as (sizes' & r' & _ & _ & _ & _ & _ & Ea' & Ex' & _).
  rewrite Ea, Ea' in Es. cbn [shape] in Es. subst sizes'. rewrite Ea in H. cbn [shape] in H. rewrite Ex, Ex', Ep. f_equal.
  apply map_ext_in. intros i Hi. apply in_all_indices in Hi. unfold expectation. rewrite (state_value_turned sizes _ _ i Hi H). f_equal. f_equal.
  unfold sv_total. f_equal. apply map_ext_in. intros j Hj. apply in_all_indices in Hj. now apply (state_value_turned sizes).
Qed.

(** * Examples *)
Definition same_counts_b (sizes : list Z) (c c' : con) : bool :=
  forallb (fun i => c_at c' (proj (c_dims c') i) =? c_at c (proj (c_dims c) i)) (all_indices sizes).
Lemma same_counts_by sizes c c' : Permutation (c_dims c) (c_dims c') -> same_counts_b sizes c c' = true -> same_counts sizes c c'.
Proof.
  intros Hp H. split; auto. unfold same_counts_b in H. rewrite forallb_forall in H. intros i Hi. apply Z.eqb_eq, H. now apply in_all_indices.
Qed.

(** what is compared of a result: no doubles *)
Definition outline (o : outcome qis_result) : option (bool * list Z * list Z * Z) :=
  match o with Ok r => Some (qr_conv r, shape (qr_pop_array r), flat (qr_pop_array r), qr_pop r) | _ => None end.

(** a chain of two marginals; the same with the second one transposed and the marginal over dimensions 0 and 2 appended *)
Definition exChain_i : list (ndarray Z) := [ind1 [0; 1]; ind1 [1; 2]].
Definition exChain_m : list (ndarray Z) := [NDA [2; 2] [1; 2; 3; 4]; NDA [2; 2] [2; 2; 3; 3]].
Definition exRing_i : list (ndarray Z) := [ind1 [0; 1]; ind1 [2; 1]; ind1 [0; 2]].
Definition exRing_m : list (ndarray Z) := [NDA [2; 2] [1; 2; 3; 4]; NDA [2; 2] [2; 3; 2; 3]; NDA [2; 2] [1; 2; 4; 3]].

Lemma exChain_range : in_range exChain_i exChain_m. Proof. apply (in_range_by _ _ [2; 2; 2]); vm_compute; reflexivity. Qed.
Lemma exRing_range : in_range exRing_i exRing_m. Proof. apply (in_range_by _ _ [2; 2; 2]); vm_compute; reflexivity. Qed.
Lemma exChain_run : outline (py_qis L0 40 exChain_i exChain_m 0) = Some (true, [2; 2; 2], [1; 0; 1; 1; 1; 2; 2; 2], 10).
Proof. vm_compute. reflexivity. Qed.
Lemma exRing_run : outline (py_qis L0 40 exRing_i exRing_m 0) = Some (false, [2; 2; 2], [1; 0; 1; 1; 1; 2; 2; 2], 10).
Proof. vm_compute. reflexivity. Qed.

Lemma exRing_adds : adds_to [2; 2; 2] [] (cons_of exChain_i exChain_m) (cons_of exRing_i exRing_m).
Proof.
  unfold cons_of, exChain_i, exChain_m, exRing_i, exRing_m. cbn [combine map fst snd]. apply add_same. apply add_turned.
  - apply same_counts_by; [|vm_compute; reflexivity]. simpl. apply perm_swap.
  - simpl. repeat constructor; simpl; intuition lia.
  - simpl. intuition lia.
  - apply add_idle; [|apply add_nil]. intros d. simpl. intuition lia.
Qed.

Lemma pad_ex : exists res, let cs' := cons_of exRing_i exRing_m in
  in_range exChain_i exChain_m /\ in_range exRing_i exRing_m /\ vectors exRing_i exRing_m /\ py_qis L0 40 exChain_i exChain_m 0 = Ok res /\
  qr_conv res = true /\ flat (qr_pop_array res) = [1; 0; 1; 1; 1; 2; 2; 2] /\
  valid cs' /\ implied cs' (shape (qr_pop_array res)) /\ (forall c, In c cs' -> c_total c = qr_pop res) /\
  adds_to (shape (qr_pop_array res)) [] (cons_of exChain_i exChain_m) cs' /\
  (exists res', py_qis L0 40 exRing_i exRing_m 0 = Ok res' /\ qr_conv res' = false /\ flat (qr_pop_array res') = [1; 0; 1; 1; 1; 2; 2; 2]).
Proof.
  pose proof exChain_run as X. pose proof exRing_run as X'.
  destruct (py_qis L0 40 exChain_i exChain_m 0) as [res|e|w|] eqn:E; try discriminate X.
  destruct (py_qis L0 40 exRing_i exRing_m 0) as [res'|e|w|] eqn:E'; try discriminate X'.
  cbn [outline] in X, X'.
  assert (shape (qr_pop_array res) = [2; 2; 2] /\ flat (qr_pop_array res) = [1; 0; 1; 1; 1; 2; 2; 2] /\ qr_pop res = 10 /\ qr_conv res = true) as (Es & Ef & Ep & Ec)
    by (injection X; auto).
  assert (flat (qr_pop_array res') = [1; 0; 1; 1; 1; 2; 2; 2] /\ qr_conv res' = false) as (Ef' & Ec') by (injection X'; auto).
  destruct (valid_by exRing_i exRing_m exRing_range) as [Hv1 Hv2]; [vm_compute; reflexivity|vm_compute; reflexivity|].
  exists res. cbv zeta. rewrite Es, Ep. split; [exact exChain_range|]. split; [exact exRing_range|]. split; [exact Hv1|]. split; [reflexivity|].
  split; [exact Ec|]. split; [exact Ef|]. split; [exact Hv2|]. split; [apply implied_by; vm_compute; reflexivity|].
  split; [|split; [exact exRing_adds|exists res'; auto]].
  intros c Hc. unfold cons_of, exRing_i, exRing_m in Hc. cbn [combine map fst snd In] in Hc.
  destruct Hc as [<-|[<-|[<-|[]]]]; vm_compute; reflexivity.
Qed.

(** transposing a marginal with two new dimensions *)
Definition exUp_i : list (ndarray Z) := [ind1 [0; 1]; ind1 [2]].
Definition exUp_m : list (ndarray Z) := [NDA [2; 2] [3; 0; 1; 5]; NDA [2] [4; 5]].
Definition exAcross_i : list (ndarray Z) := [ind1 [1; 0]; ind1 [2]].
Definition exAcross_m : list (ndarray Z) := [NDA [2; 2] [3; 1; 0; 5]; NDA [2] [4; 5]].

Lemma exUp_range : in_range exUp_i exUp_m. Proof. apply (in_range_by _ _ [2; 2; 2]); vm_compute; reflexivity. Qed.
Lemma exAcross_range : in_range exAcross_i exAcross_m. Proof. apply (in_range_by _ _ [2; 2; 2]); vm_compute; reflexivity. Qed.
Lemma exUp_run : outline (py_qis L0 40 exUp_i exUp_m 0) = Some (true, [2; 2; 2], [2; 1; 0; 0; 0; 1; 2; 3], 9).
Proof. vm_compute. reflexivity. Qed.
Lemma exAcross_run : outline (py_qis L0 40 exAcross_i exAcross_m 0) = Some (true, [2; 2; 2], [2; 1; 0; 0; 1; 0; 1; 4], 9).
Proof. vm_compute. reflexivity. Qed.

Lemma orient_refute : exists ilist mlist ilist' mlist' res res', in_range ilist mlist /\ in_range ilist' mlist' /\
  vectors ilist mlist /\ valid (cons_of ilist mlist) /\ vectors ilist' mlist' /\ valid (cons_of ilist' mlist') /\
  Forall2 (same_counts (shape (qr_pop_array res))) (cons_of ilist mlist) (cons_of ilist' mlist') /\
  py_qis L0 40 ilist mlist 0 = Ok res /\ py_qis L0 40 ilist' mlist' 0 = Ok res' /\
  shape (qr_pop_array res') = shape (qr_pop_array res) /\ qr_pop res' = qr_pop res /\ qr_expectation res' = qr_expectation res /\
  flat (qr_pop_array res') <> flat (qr_pop_array res).
Proof.
  exists exUp_i, exUp_m, exAcross_i, exAcross_m. pose proof exUp_run as X. pose proof exAcross_run as X'.
  destruct (py_qis L0 40 exUp_i exUp_m 0) as [res|e|w|] eqn:E; try discriminate X.
  destruct (py_qis L0 40 exAcross_i exAcross_m 0) as [res'|e|w|] eqn:E'; try discriminate X'.
  cbn [outline] in X, X'. exists res, res'.
  assert (shape (qr_pop_array res) = [2; 2; 2] /\ flat (qr_pop_array res) = [2; 1; 0; 0; 0; 1; 2; 3] /\ qr_pop res = 9) as (Es & Ef & Ep) by (injection X; auto).
  assert (shape (qr_pop_array res') = [2; 2; 2] /\ flat (qr_pop_array res') = [2; 1; 0; 0; 1; 0; 1; 4] /\ qr_pop res' = 9) as (Es' & Ef' & Ep') by (injection X'; auto).
  destruct (valid_by exUp_i exUp_m exUp_range) as [Hv1 Hv2]; [vm_compute; reflexivity|vm_compute; reflexivity|].
  destruct (valid_by exAcross_i exAcross_m exAcross_range) as [Hv3 Hv4]; [vm_compute; reflexivity|vm_compute; reflexivity|].
  assert (Forall2 (same_counts [2; 2; 2]) (cons_of exUp_i exUp_m) (cons_of exAcross_i exAcross_m)) as HF.
  { unfold cons_of, exUp_i, exUp_m, exAcross_i, exAcross_m. cbn [combine map fst snd]. constructor; [|constructor; [|constructor]].
    - apply same_counts_by; [simpl; apply perm_swap|vm_compute; reflexivity].
    - apply same_counts_by; [apply Permutation_refl|vm_compute; reflexivity]. }
  split; [exact exUp_range|]. split; [exact exAcross_range|]. split; [exact Hv1|]. split; [exact Hv2|]. split; [exact Hv3|]. split; [exact Hv4|].
  rewrite Es. split; [exact HF|]. split; [reflexivity|]. split; [reflexivity|]. split; [exact Es'|]. split; [now rewrite Ep, Ep'|].
  split; [|rewrite Ef, Ef'; discriminate].
  apply (orient_claim L0 40 exUp_i exUp_m exAcross_i exAcross_m 0); auto using exUp_range, exAcross_range.
  - congruence. - congruence. - now rewrite Es.
Qed.
