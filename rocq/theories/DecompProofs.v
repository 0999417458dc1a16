(** qis on decomposable constraints. *)
From Coq Require Import Permutation.
From Verif Require Import Base Spec SpecFacts NDArray IndexProofs Float64 FloatProofs ArrayOps ArrayProofs Bind BindProofs
  SobolTable SobolSpec Sobol SobolTableProofs SobolProofs SobolClaims Micro Stat Qis SynthSpec MicroProofs PickProofs SampleProofs
  SplitProofs QisProofs StatProofs QisClaims QisExamples DecompSpec.
Open Scope Z_scope.

Section Loop.
Context (cs : list con) (sizes : list Z).
Context (Hsm : forall c, In c cs -> csmall c) (Himp : implied cs sizes) (Hfit : fits sizes) (Hnn : forall c, In c cs -> nonneg c).
Context (cols : list (list N)) (Hcols : length cols = length sizes) (Hdir : Forall valid_directions cols).
Notation rem := (rem sizes).
Notation rems := (rems cs sizes).
Notation trail := (trail sizes).

Lemma margin_rem c r js v : In c cs -> valid_dims (length (c_dims c)) js ->
  margin (c_sizes c) js v (rem c r) = margin (c_sizes c) js v (c_at c) - margin sizes (proj js (c_dims c)) v r.
Proof.
  intros Hc Hj.
  assert (margin (c_sizes c) js v (rem c r) =
    margin (c_sizes c) js v (c_at c) - margin (c_sizes c) js v (fun k => margin sizes (c_dims c) k r)) as ->.
  { unfold margin at 1 2 3, sum_where. rewrite <- sumZ_map_sub. reflexivity. }
  f_equal. rewrite <- (csizes cs sizes Himp c Hc) at 1. apply margin_margin; auto. now apply (cdims cs sizes Himp).
Qed.

(** the axis of dimension [d] *)
Fixpoint axis (l : list Z) (d : Z) : Z := match l with [] => 0 | x :: l' => if x =? d then 0 else 1 + axis l' d end.
Lemma axis_spec l d : In d l -> 0 <= axis l d < Z.of_nat (length l) /\ nth (Z.to_nat (axis l d)) l 0 = d.
Proof.
  induction l as [|x l IH]; [easy|]. intros H. cbn [axis length]. destruct (Z.eqb_spec x d) as [->|Hn].
  - split; [lia|reflexivity].
  - destruct IH as [I1 I2]; [destruct H; [congruence|auto]|]. split; [lia|].
    replace (Z.to_nat (1 + axis l d)) with (S (Z.to_nat (axis l d))) by lia. exact I2.
Qed.

Lemma draw_pos' r t seq : agree_on_shared cs -> decomposable cs -> counts sizes t r -> t < 2 ^ 62 -> left_ok cs sizes r ->
  (forall c, In c cs -> t < c_total c <= 2 ^ 53 + t) -> length seq = length sizes -> Forall (fun u => u < 2 ^ 32)%N seq ->
  forall post pre main, cs = pre ++ post -> trail pre main -> (forall c, In c pre -> 0 < rem c r (proj (c_dims c) main)) ->
  exists main', foldM (fun '(k, ix) main => let* a := vec_get (rems r) k in sample ix seq a main)
             (numbered (Z.of_nat (length pre)) (map c_dims post)) main = Ok main' /\ trail cs main' /\
     (forall c, In c cs -> 0 < rem c r (proj (c_dims c) main')).
Proof.
  intros Hag [Hnd Htree] Hc Hb Hl Htot Hs Hu. induction post as [|c post IH]; intros pre main E Ht Hpre.
  - exists main. simpl. rewrite E, app_nil_r in *. auto.
  - cbn [map numbered foldM]. rewrite (vec_get_rems cs sizes r pre c post E). cbn [bind].
    assert (In c cs) as Hin by (rewrite E; apply in_app_iff; right; now left).
    assert (forall c', In c' pre -> In c' cs) as Hpc by (intros c' H; rewrite E; apply in_app_iff; now left).
    pose proof Ht as [Hp Ha].
    assert (forall c', In c' pre -> index_in (c_sizes c') (proj (c_dims c') main)) as Hidx.
    { intros c' Hc'. rewrite <- (csizes cs sizes Himp c') by auto. apply index_in_nth. rewrite !proj_length. split; auto. intros i Hi. rewrite !nth_proj by auto.
      pose proof (cdims cs sizes Himp c' (Hpc c' Hc')) as Hvd'. unfold valid_dims in Hvd'. rewrite Forall_forall in Hvd'.
      pose proof (nth_In (c_dims c') 0 Hi) as Hini. pose proof (Hvd' _ Hini) as Hdi. destruct Hp as [_ Hp].
      specialize (Hp (Z.to_nat (nth i (c_dims c') 0)) ltac:(lia)). split; [|lia].
      apply (proj2 (Ha (Z.to_nat (nth i (c_dims c') 0)) ltac:(lia))). exists c'. split; auto. now rewrite Z2Nat.id by lia. }
    assert (exists k, index_in (c_sizes c) k /\ 0 < rem c r k /\
      forall j, (j < length (c_dims c))%nat -> 0 <= nth (Z.to_nat (nth j (c_dims c) 0)) main 0 ->
        nth j k 0 = nth (Z.to_nat (nth j (c_dims c) 0)) main 0) as Hcell.
    { pose proof (cdims cs sizes Himp c Hin) as Hvd. unfold valid_dims in Hvd. rewrite Forall_forall in Hvd.
      set (js := filter (fun j => 0 <=? nth (Z.to_nat (nth (Z.to_nat j) (c_dims c) 0)) main 0) (zrange (Z.of_nat (length (c_dims c))))).
      assert (forall j, In j js <-> 0 <= j < Z.of_nat (length (c_dims c)) /\ 0 <= nth (Z.to_nat (nth (Z.to_nat j) (c_dims c) 0)) main 0) as Hjs.
      { intros j. unfold js. rewrite filter_In, in_zrange, Z.leb_le. tauto. }
      assert (Forall (fun j => 0 <= j < Z.of_nat (length (c_dims c))) js) as Hjv by (apply Forall_forall; intros j Hj; now apply Hjs in Hj).
      assert (0 < margin (c_sizes c) js (proj (proj js (c_dims c)) main) (rem c r)) as Hpos.
      { destruct (list_eq_dec (fun a b : Z => Z.eq_dec a b) js []) as [Ej|Ej].
        - rewrite Ej.
          assert (margin (c_sizes c) [] (proj (proj [] (c_dims c)) main) (rem c r) = total (c_sizes c) (rem c r)) as ->.
          { unfold margin, sum_where. rewrite sum_filter. unfold total. apply sumZ_map_ext. intros i _. reflexivity. }
          rewrite (total_rem cs sizes Himp c r t) by auto. specialize (Htot c Hin). lia.
        - assert (pre <> []) as Hne.
          { intros ->. destruct js as [|j js']; [easy|]. destruct (proj1 (Hjs j) (or_introl eq_refl)) as [H1 H2].
            assert (In (nth (Z.to_nat j) (c_dims c) 0) (c_dims c)) as Hd by (apply nth_In; lia). pose proof (Hvd _ Hd).
            apply (Ha (Z.to_nat (nth (Z.to_nat j) (c_dims c) 0)) ltac:(lia)) in H2. destruct H2 as (c' & [] & _). }
          destruct (Htree pre c post E Hne) as (p & Hpp & Hsh).
          assert (forall d, In d (proj js (c_dims c)) -> In d (c_dims p)) as Hdp.
          { intros d Hd. unfold proj in Hd. apply in_map_iff in Hd as (j & <- & Hj). apply Hjs in Hj as [H1 H2].
            assert (In (nth (Z.to_nat j) (c_dims c) 0) (c_dims c)) as Hd by (apply nth_In; lia). pose proof (Hvd _ Hd).
            apply (Ha (Z.to_nat (nth (Z.to_nat j) (c_dims c) 0)) ltac:(lia)) in H2. destruct H2 as (c' & H2 & H3). rewrite Z2Nat.id in H3 by lia.
            apply Hsh; eauto. }
          set (js' := map (axis (c_dims p)) (proj js (c_dims c))).
          assert (Forall (fun j => 0 <= j < Z.of_nat (length (c_dims p))) js') as Hjv'.
          { apply Forall_forall. intros j Hj. unfold js' in Hj. apply in_map_iff in Hj as (d & <- & Hd). now apply axis_spec, Hdp. }
          assert (proj js (c_dims c) = proj js' (c_dims p)) as Epr.
          { unfold proj at 2. unfold js'. rewrite map_map. rewrite <- map_id at 1. apply map_ext_in. intros d Hd. symmetry. apply axis_spec. auto. }
          rewrite margin_rem by auto. rewrite (Hag c p js js') by auto. rewrite Epr, <- margin_rem by auto.
          unfold margin, sum_where.
          apply Z.lt_le_trans with (rem p r (proj (c_dims p) main)); [now apply Hpre|].
          replace (rem p r (proj (c_dims p) main)) with (sumZ (map (rem p r) [proj (c_dims p) main])) by (simpl; lia).
          apply sumZ_incl; [constructor; [easy|constructor]| |].
          + intros x [<-|[]]. apply filter_In. split; [now apply in_all_indices, Hidx|]. apply idx_eqb_true. rewrite proj_proj by auto. reflexivity.
          + intros x Hx. apply filter_In in Hx as [Hx _]. apply Hl; auto. now apply in_all_indices. }
      apply (pos_cell sizes cols Hcols) in Hpos as (k & Hk & Hpk & Hkpos). exists k. split; auto. split; auto.
      intros j Hj Hset. apply idx_eqb_true in Hpk.
      assert (In (Z.of_nat j) js) as Hjj by (apply Hjs; rewrite Nat2Z.id; split; [lia|auto]).
      unfold proj in Hpk. rewrite map_map in Hpk.
      assert (forall l, map (fun d => nth (Z.to_nat d) k 0) l = map (fun x => nth (Z.to_nat (nth (Z.to_nat x) (c_dims c) 0)) main 0) l ->
        forall x, In x l -> nth (Z.to_nat x) k 0 = nth (Z.to_nat (nth (Z.to_nat x) (c_dims c) 0)) main 0) as G.
      { induction l as [|y l IHl]; simpl; [easy|]. intros [= H1 H2] x [<-|Hx]; auto. }
      specialize (G js Hpk _ Hjj). now rewrite Nat2Z.id in G. }
    destruct (sample_one cs sizes Hsm Himp r t seq c pre post main E Hc Hb Hs Ht) as [Hsafe Hposs].
    specialize (Htot c Hin). destruct (Hposs (Hnd c Hin) ltac:(intros; now apply Hl) ltac:(lia) Hu Hcell) as (main' & Eo & Hm').
    destruct Hsafe as [(e & Ee)|(main'' & Ee & Ht' & Hkeep)]; [congruence|]. assert (main'' = main') as -> by congruence. rewrite Eo. cbn [bind].
    replace (Z.of_nat (length pre) + 1) with (Z.of_nat (length (pre ++ [c]))) by (rewrite app_length; simpl; lia).
    apply IH; auto; [now rewrite <- app_assoc|]. intros c' Hc'. apply in_app_iff in Hc' as [Hc'|[<-|[]]]; auto.
    assert (proj (c_dims c') main' = proj (c_dims c') main) as ->; auto.
    unfold proj. apply map_ext_in. intros d Hd. apply Hkeep. pose proof (cdims cs sizes Himp c' (Hpc c' Hc')) as Hvd'. unfold valid_dims in Hvd'. rewrite Forall_forall in Hvd'.
    specialize (Hvd' d Hd). apply Ha; [lia|]. exists c'. split; auto. now rewrite Z2Nat.id by lia.
Qed.

Notation inv := (inv cs sizes cols).

Lemma step_ok' v0 t s pop : agree_on_shared cs -> decomposable cs -> 0 <= t < pop -> pop <= 2 ^ 53 -> (forall c, In c cs -> c_total c = pop) ->
  (v0 + Z.to_N pop <= limit)%N -> inv v0 t s -> q_conv s = true ->
  exists s', qis_step (length sizes) (map c_dims cs) s = Ok s' /\ inv v0 (t + 1) s' /\ q_conv s' = true.
Proof.
  intros Hag Htr Ht Hp53 Htot Hlim Hi Hcv0. pose proof Hi as (r & v & Hv & Hn & Hc & Em & Ea & Ecv).
  assert (left_ok cs sizes r) as Hl by now apply Ecv.
  assert (exists s', qis_step (length sizes) (map c_dims cs) s = Ok s' /\ q_conv s' = true) as (s' & E & Hcs).
  { unfold qis_step. destruct (sobol_buf_ok cols v _ Hdir Hv) as (sb & Eb & Hv'); [rewrite Hn; lia|]. rewrite Eb. cbn [bind]. rewrite Em.
    destruct (draw_pos' r t (point_of cols (v_n v + 1)) Hag Htr Hc ltac:(lia) Hl ltac:(intros c Hin; rewrite (Htot c Hin); lia) (len_point sizes cols Hcols _)) with (post := cs) (pre := @nil con) (main := repeat (-1) (length sizes)) as (main & Ed & Htm & Hpos).
    - unfold point_of. rewrite Forall_map. revert Hdir. apply Forall_impl. intros m Hm. now apply coord_lt.
    - reflexivity.
    - now apply trail_nil.
    - easy.
    - change (Z.of_nat (length (@nil con))) with 0 in Ed. rewrite Ed. cbn [bind].
      pose proof (trail_all cs sizes Himp main Htm) as Hm. rewrite (all_set sizes) by auto.
      destruct (decrement_ok cs sizes Hsm Himp Hnn r t main (q_conv s) Hc ltac:(lia) Hm) as (conv' & -> & Hcv). cbn [bind].
      rewrite Ea, (increment_ok sizes Hfit r t main) by (auto; lia). cbn [bind]. eexists. split; [reflexivity|]. cbn [q_conv].
      apply Hcv. split; auto. intros c Hin. rewrite rem_inc, idx_eqb_refl by auto. specialize (Hpos c Hin). lia. }
  destruct (step_safe cs sizes Hsm Himp Hfit Hnn cols Hcols Hdir v0 t s ltac:(lia) Hi) as [(e & Ee)|(s2 & E2 & Hi2)]; [congruence|].
  assert (s2 = s') as -> by congruence. exists s'. auto.
Qed.

Lemma loop_ok' v0 pop s : agree_on_shared cs -> decomposable cs -> 0 <= pop <= 2 ^ 53 -> (forall c, In c cs -> c_total c = pop) ->
  (v0 + Z.to_N pop <= limit)%N -> inv v0 0 s -> q_conv s = true ->
  exists s', repeatM pop (qis_step (length sizes) (map c_dims cs)) s = Ok s' /\ inv v0 pop s' /\ q_conv s' = true.
Proof.
  intros Hag Htr Hp Htot Hlim. unfold repeatM.
  assert (forall n t s, 0 <= t -> t + Z.of_nat n = pop -> inv v0 t s -> q_conv s = true ->
    exists s', foldM (fun (_ : unit) s => qis_step (length sizes) (map c_dims cs) s) (repeat tt n) s = Ok s' /\ inv v0 pop s' /\ q_conv s' = true) as G.
  { induction n as [|n IH]; intros t s0 Ht0 Ht Hi Hcv.
    - exists s0. simpl. replace pop with t by lia. auto.
    - simpl repeat. cbn [foldM]. destruct (step_ok' v0 t s0 pop Hag Htr ltac:(lia) ltac:(lia) Htot Hlim Hi Hcv) as (s1 & -> & Hi1 & Hcv1).
      cbn [bind]. apply (IH (t + 1)); auto; lia. }
  intros Hi Hcv. apply (G (Z.to_nat pop) 0 s); auto; lia.
Qed.
End Loop.

Lemma decomp_claim L fuel ilist mlist skips : let cs := cons_of ilist mlist in
  in_range ilist mlist -> vectors ilist mlist -> valid cs -> decomposable cs -> agree_on_shared cs ->
  (forall sizes, implied cs sizes -> (length sizes <= 1111)%nat) ->
  0 <= skips <= 2 ^ 31 -> (forall c, In c cs -> c_total c + Z.of_N (skipped (Z.to_N skips)) <= 2 ^ 32 - 1) -> (32 <= fuel)%nat ->
  exists res, py_qis L fuel ilist mlist skips = Ok res /\ qr_conv res = true.
Proof.
  intros cs Hr Hvec Hval Htree Hag Hdim Hsk Hlim Hfuel. pose proof Hval as (Hl & (sizes0 & Hi0 & Hd0) & Hn & Htt & _).
  assert (forall c, In c cs -> csmall c) as Hsm by (intros c; now apply range_small).
  assert (u32 skips = skips) as Eu by (unfold u32; apply Z.mod_small; lia).
  destruct (qis_cases L fuel ilist mlist skips Hr) as [[_ Hno]|(_ & sizes & Hvc & Hf & H)].
  { exfalso. eapply Hno; auto. eapply valid_code_of_valid; eauto. }
  pose proof Hvc as (_ & Himp & _). cbv zeta in H. fold cs in H.
  destruct H as [(Hd & _)|[(_ & [Hf'|Hs'])|(Hu & _ & cols & sb & v & Hlc & Hdir & _ & Hvw & Hvn & H)]].
  { specialize (Hdim sizes Himp). lia. } { lia. } { rewrite Eu in Hs'. lia. }
  set (pop := pop_of (c_total (hd con0 cs))) in *.
  assert (In (hd con0 cs) cs) as Hh by (destruct cs; [simpl in Hl; lia|now left]).
  assert (0 <= c_total (hd con0 cs)) as Hc0 by (apply total_nonneg; intros i Hi; apply (Hn _ Hh i Hi)).
  pose proof (Hlim _ Hh) as Hlh.
  assert (pop = c_total (hd con0 cs)) as Ep by (unfold pop; apply pop_of_small; lia).
  assert (forall c, In c cs -> c_total c = pop) as Htot by (intros c Hc; rewrite Ep; now apply Htt).
  pose proof (inv_start cs sizes Hn cols Hlc sb _ v Hvw eq_refl) as Hinv.
  unfold start_of in Hvn. rewrite Eu in Hvn.
  destruct (loop_ok' cs sizes Hsm Himp Hf Hn cols Hlc Hdir (v_n v) pop (QS sb (map nd_of cs) (mk sizes (fun _ => 0)) true)
    Hag Htree ltac:(lia) Htot ltac:(rewrite Hvn; unfold limit; lia) Hinv eq_refl) as (s' & El & _ & Hcv).
  destruct H as [(e & El' & _)|(s & r & El' & _ & _ & _ & _ & _ & E)]; [congruence|].
  eexists. split; [exact E|]. cbn [qr_conv]. assert (s = s') as -> by congruence. auto.
Qed.

Lemma feasible_agree cs : feasible cs -> agree_on_shared cs.
Proof.
  intros (sizes & r & Himp & Hm) c c' js js' v Hc Hc' Hj Hj' E.
  assert (forall c js, In c cs -> Forall (fun j => 0 <= j < Z.of_nat (length (c_dims c))) js ->
    margin (c_sizes c) js v (c_at c) = margin sizes (proj js (c_dims c)) v r) as G.
  { clear - Himp Hm. intros c js Hc Hj. pose proof (csizes cs sizes Himp c Hc) as Es.
    rewrite <- margin_margin by (auto; now apply (cdims cs sizes Himp)). rewrite Es. unfold margin at 1 2, sum_where.
    apply sumZ_map_ext. intros k Hk. apply filter_In in Hk as [Hk _]. symmetry. apply (Hm c Hc). now apply in_all_indices. }
  rewrite (G c js), (G c' js') by auto. now rewrite E.
Qed.

Lemma share_decomposable cs : share_at_most_one cs -> decomposable cs.
Proof.
  intros [H1 H2]. split; auto. intros pre c post E Hne.
  destruct (existsb (fun d => existsb (fun c' => existsb (Z.eqb d) (c_dims c')) pre) (c_dims c)) eqn:Ex.
  - apply existsb_exists in Ex as (d & Hd & Ex). apply existsb_exists in Ex as (p & Hp & Ex). apply existsb_exists in Ex as (x & Hx & Ex).
    apply Z.eqb_eq in Ex. subst x. exists p. split; auto. intros d' Hd' He. rewrite <- (H2 pre c post d d' E Hd Hd'); eauto.
  - destruct pre as [|p pre]; [easy|]. exists p. split; [now left|]. intros d Hd (c' & Hc' & Hdc). exfalso.
    apply Bool.not_true_iff_false in Ex. apply Ex. apply existsb_exists. exists d. split; auto. apply existsb_exists. exists c'. split; auto.
    apply existsb_exists. exists d. split; auto. apply Z.eqb_refl.
Qed.

Lemma decomp_iff L fuel ilist mlist skips : let cs := cons_of ilist mlist in
  in_range ilist mlist -> vectors ilist mlist -> valid cs -> decomposable cs ->
  (forall sizes, implied cs sizes -> (length sizes <= 1111)%nat) ->
  0 <= skips <= 2 ^ 31 -> (forall c, In c cs -> c_total c + Z.of_N (skipped (Z.to_N skips)) <= 2 ^ 32 - 1) -> (32 <= fuel)%nat ->
  (feasible cs <-> exists res, py_qis L fuel ilist mlist skips = Ok res /\ qr_conv res = true).
Proof.
  intros cs Hr Hvec Hval Htree Hdim Hsk Hlim Hfuel. split.
  - intros Hfe. apply decomp_claim; auto. now apply feasible_agree.
  - intros (res & E & Hcv). destruct (population_claim L fuel ilist mlist skips res Hr E) as (Himp & _).
    exists (shape (qr_pop_array res)), (entry 0 (qr_pop_array res)). split; auto.
    now apply (conv_claim L fuel ilist mlist skips res Hr E).
Qed.

(** * Examples *)

Fixpoint nodup_b (l : list Z) : bool := match l with [] => true | x :: l' => negb (mem_b x l') && nodup_b l' end.
Lemma nodup_by l : nodup_b l = true -> NoDup l.
Proof.
  induction l as [|x l IH]; [constructor|]. cbn [nodup_b]. intros H. apply Bool.andb_true_iff in H as [H1 H2]. constructor; auto.
  intros Hi. apply mem_b_In in Hi. now rewrite Hi in H1.
Qed.
Definition decomposable_b (cs : list con) : bool :=
  forallb (fun c => nodup_b (c_dims c)) cs &&
  forallb (fun n => match nth_error cs n with
                    | Some c => existsb (fun p => forallb (fun d => implb (existsb (fun c' => mem_b d (c_dims c')) (firstn n cs)) (mem_b d (c_dims p))) (c_dims c))
                                        (firstn n cs)
                    | None => true end) (seq 1 (length cs)).
Lemma decomposable_by cs : decomposable_b cs = true -> decomposable cs.
Proof.
  unfold decomposable_b. rewrite Bool.andb_true_iff, !forallb_forall. intros [H1 H2]. split.
  - intros c Hc. specialize (H1 c Hc). now apply nodup_by.
  - intros pre c post E Hne. specialize (H2 (length pre)).
    assert (In (length pre) (seq 1 (length cs))) as Hin.
    { apply in_seq. rewrite E, app_length. simpl. destruct pre; [easy|simpl; lia]. }
    specialize (H2 Hin). cbv beta in H2. rewrite E in H2. rewrite nth_error_app2, Nat.sub_diag in H2 by lia. cbn [nth_error] in H2.
    rewrite firstn_app, firstn_all, Nat.sub_diag, app_nil_r in H2. apply existsb_exists in H2 as (p & Hp & H2).
    exists p. split; auto. intros d Hd (c' & Hc' & Hdc). rewrite forallb_forall in H2. specialize (H2 d Hd). cbv beta in H2.
    assert (existsb (fun c' => mem_b d (c_dims c')) pre = true) as Ex by (apply existsb_exists; exists c'; split; auto; now apply mem_b_In).
    rewrite Ex in H2. now apply mem_b_In.
Qed.

Definition feasible_b (cs : list con) (a : ndarray Z) : bool :=
  implied_b cs (shape a) &&
  forallb (fun c => forallb (fun k => margin (shape a) (c_dims c) k (entry 0 a) =? c_at c k) (all_indices (c_sizes c))) cs.
Lemma feasible_by cs a : feasible_b cs a = true -> feasible cs.
Proof.
  unfold feasible_b. rewrite Bool.andb_true_iff. intros [H1 H2]. exists (shape a), (entry 0 a). split; [now apply implied_by|].
  intros c Hc k Hk. rewrite forallb_forall in H2. specialize (H2 c Hc). rewrite forallb_forall in H2. apply Z.eqb_eq, H2. now apply in_all_indices.
Qed.

(** two shared dimensions; the same with other numbers, where the shared part differs but its 1-d sums do not; a ring; a
    chain that is not listed along the chain *)
Definition exTwo_i : list (ndarray Z) := [ind1 [0; 1; 2]; ind1 [0; 1; 3]].
Definition exTwo_m : list (ndarray Z) := [NDA [2; 2; 2] [1; 0; 2; 1; 0; 3; 1; 2]; NDA [2; 2; 2] [0; 1; 1; 2; 3; 0; 2; 1]].
Definition exOff_m : list (ndarray Z) := [NDA [2; 2; 2] [1; 0; 0; 0; 0; 0; 1; 0]; NDA [2; 2; 2] [0; 0; 1; 0; 1; 0; 0; 0]].
Definition exOrd_i : list (ndarray Z) := [ind1 [0; 1]; ind1 [2; 3]; ind1 [1; 2]].
Definition exOrd_m : list (ndarray Z) := [NDA [2; 2] [1; 0; 0; 1]; NDA [2; 2] [1; 0; 0; 1]; NDA [2; 2] [0; 1; 1; 0]].

Lemma exTwo_range : in_range exTwo_i exTwo_m. Proof. apply (in_range_by _ _ [2; 2; 2; 2]); vm_compute; reflexivity. Qed.
Lemma exOff_range : in_range exTwo_i exOff_m. Proof. apply (in_range_by _ _ [2; 2; 2; 2]); vm_compute; reflexivity. Qed.
Lemma exOrd_range : in_range exOrd_i exOrd_m. Proof. apply (in_range_by _ _ [2; 2; 2; 2]); vm_compute; reflexivity. Qed.

Lemma ring_claim : exists ilist mlist res, in_range ilist mlist /\ vectors ilist mlist /\ valid (cons_of ilist mlist) /\
  (exists a, forallb (Z.leb 0) (flat a) = true /\ implied (cons_of ilist mlist) (shape a) /\
  forall c, In c (cons_of ilist mlist) -> meets (shape a) (entry 0 a) c) /\
  py_qis L0 40 ilist mlist 0 = Ok res /\ qr_conv res = false.
Proof.
  exists exC_i, exC_m. destruct (py_qis L0 40 exC_i exC_m 0) as [res|e|w|] eqn:E.
  2-4: exfalso; assert (match py_qis L0 40 exC_i exC_m 0 with Ok _ => true | _ => false end = true) as X by (vm_compute; reflexivity); rewrite E in X; discriminate X.
  exists res. split; [exact exC_range|]. split; [apply exC_valid|]. split; [apply exC_valid|]. split.
  - exists (NDA [2; 2; 2] [0; 1; 1; 1; 2; 1; 2; 2]). split; [reflexivity|].
    assert (feasible_b (cons_of exC_i exC_m) (NDA [2; 2; 2] [0; 1; 1; 1; 2; 1; 2; 2]) = true) as Hb by (vm_compute; reflexivity).
    unfold feasible_b in Hb. apply Bool.andb_true_iff in Hb as [H1 H2]. split; [now apply implied_by|].
    intros c Hc k Hk. rewrite forallb_forall in H2. specialize (H2 c Hc). rewrite forallb_forall in H2. apply Z.eqb_eq, H2. now apply in_all_indices.
  - split; auto. assert (match py_qis L0 40 exC_i exC_m 0 with Ok r => qr_conv r | _ => true end = false) as X by (vm_compute; reflexivity).
    now rewrite E in X.
Qed.

Lemma order_claim : exists ilist mlist ilist' mlist' res res', in_range ilist mlist /\ vectors ilist mlist /\ valid (cons_of ilist mlist) /\
  Permutation (combine ilist mlist) (combine ilist' mlist') /\ decomposable (cons_of ilist' mlist') /\
  py_qis L0 40 ilist mlist 0 = Ok res /\ qr_conv res = false /\
  py_qis L0 40 ilist' mlist' 0 = Ok res' /\ qr_conv res' = true.
Proof.
  set (i' := [ind1 [0; 1]; ind1 [1; 2]; ind1 [2; 3]]). set (m' := [NDA [2; 2] [1; 0; 0; 1]; NDA [2; 2] [0; 1; 1; 0]; NDA [2; 2] [1; 0; 0; 1]]).
  exists exOrd_i, exOrd_m, i', m'.
  destruct (py_qis L0 40 exOrd_i exOrd_m 0) as [res|e|w|] eqn:E.
  2-4: exfalso; assert (match py_qis L0 40 exOrd_i exOrd_m 0 with Ok _ => true | _ => false end = true) as X by (vm_compute; reflexivity); rewrite E in X; discriminate X.
  destruct (py_qis L0 40 i' m' 0) as [res'|e|w|] eqn:E'.
  2-4: exfalso; assert (match py_qis L0 40 i' m' 0 with Ok _ => true | _ => false end = true) as X by (vm_compute; reflexivity); rewrite E' in X; discriminate X.
  destruct (valid_by exOrd_i exOrd_m exOrd_range) as [Hv1 Hv2]; [vm_compute; reflexivity|vm_compute; reflexivity|].
  exists res, res'. split; [exact exOrd_range|]. split; auto. split; auto. split.
  - simpl. apply perm_skip. apply perm_swap.
  - split; [apply decomposable_by; vm_compute; reflexivity|]. split; auto. split.
    + assert (match py_qis L0 40 exOrd_i exOrd_m 0 with Ok r => qr_conv r | _ => true end = false) as X by (vm_compute; reflexivity). now rewrite E in X.
    + split; auto. assert (match py_qis L0 40 i' m' 0 with Ok r => qr_conv r | _ => false end = true) as X by (vm_compute; reflexivity). now rewrite E' in X.
Qed.

(** accepted, decomposable, and impossible: only 1-d sums are compared *)
Lemma exOff_claim : in_range exTwo_i exOff_m /\ vectors exTwo_i exOff_m /\ valid (cons_of exTwo_i exOff_m) /\
  decomposable (cons_of exTwo_i exOff_m) /\ ~ feasible (cons_of exTwo_i exOff_m).
Proof.
  destruct (valid_by exTwo_i exOff_m exOff_range) as [Hv1 Hv2]; [vm_compute; reflexivity|vm_compute; reflexivity|].
  split; [exact exOff_range|]. split; auto. split; auto. split; [apply decomposable_by; vm_compute; reflexivity|].
  intros H. apply feasible_agree in H.
  specialize (H _ _ [0; 1] [0; 1] [0; 0] (or_introl eq_refl) (or_intror (or_introl eq_refl))).
  assert (forall c, Forall (fun j => 0 <= j < Z.of_nat (length (c_dims (con_of (ind1 [0; 1; c]) (NDA [2; 2; 2] []))))) [0; 1]) as G.
  { intros c. repeat constructor; simpl; lia. }
  specialize (H (G 2) (G 3) eq_refl). vm_compute in H. discriminate H.
Qed.
Lemma exTwo_claim : in_range exTwo_i exTwo_m /\ vectors exTwo_i exTwo_m /\ valid (cons_of exTwo_i exTwo_m) /\
  decomposable (cons_of exTwo_i exTwo_m) /\ ~ share_at_most_one (cons_of exTwo_i exTwo_m) /\ feasible (cons_of exTwo_i exTwo_m).
Proof.
  destruct (valid_by exTwo_i exTwo_m exTwo_range) as [Hv1 Hv2]; [vm_compute; reflexivity|vm_compute; reflexivity|].
  split; [exact exTwo_range|]. split; auto. split; auto. split; [apply decomposable_by; vm_compute; reflexivity|]. split.
  - intros [_ H]. specialize (H [con_of (ind1 [0; 1; 2]) (NDA [2; 2; 2] [1; 0; 2; 1; 0; 3; 1; 2])] (con_of (ind1 [0; 1; 3]) (NDA [2; 2; 2] [0; 1; 1; 2; 3; 0; 2; 1])) [] 0 1 eq_refl).
    discriminate H; simpl; auto; (eexists; split; [left; reflexivity|simpl; auto]).
  - apply (feasible_by _ (NDA [2; 2; 2; 2] [0; 1; 0; 0; 1; 1; 0; 1; 0; 0; 3; 0; 1; 0; 1; 1])). vm_compute. reflexivity.
Qed.
