(** Proofs for C91: further marginals over new dimensions in qis. *)
From Verif Require Import Base Spec SpecFacts NDArray IndexProofs Float64 ArrayOps ArrayProofs Bind BindProofs
  SobolTable SobolSpec Sobol SobolTableProofs SobolProofs SobolClaims Micro Stat Qis SynthSpec MicroProofs PickProofs SampleProofs
  SplitProofs StatProofs QisProofs QisClaims QisExamples QuantSpec QuantProofs PadSpec PadProofs ReorderSpec ReorderProofs RSpec RApi RApiExamples.
Open Scope Z_scope.

Lemma nth_first {A} (d : A) n : forall l k, (k < n)%nat -> nth k (firstn n l) d = nth k l d.
Proof.
  induction n as [|n IH]; intros l k Hk; [lia|]. destruct l as [|x l]; [now destruct k|]. destruct k as [|k]; [reflexivity|].
  cbn [firstn nth]. apply IH. lia.
Qed.

Lemma firstn_upd n : forall (m : list Z) k v, (k < n)%nat -> firstn n (upd m k v) = upd (firstn n m) k v.
Proof.
  induction n as [|n IH]; intros m k v Hk; [lia|]. destruct m as [|x m]; [now destruct k|]. destruct k as [|k]; [reflexivity|].
  cbn [firstn upd]. f_equal. apply IH. lia.
Qed.

Lemma index_firstn sz m : index_in sz m -> forall n, index_in (firstn n sz) (firstn n m).
Proof. unfold index_in. induction 1 as [|x y l l' Hx H IH]; intros [|n]; cbn [firstn]; try constructor; auto. Qed.

(** * One marginal's sampling looks only at its own dimensions *)
Section Short.
Context (sizes sizes' : list Z) (Hle : (length sizes <= length sizes')%nat).
Notation D := (length sizes).
Context (ix : list Z) (Hix : valid_dims D ix).

Lemma ix_long : valid_dims (length sizes') ix.
Proof. unfold valid_dims in *. rewrite Forall_forall in *. intros d Hd. specialize (Hix d Hd). lia. Qed.

Lemma ix_at p : 0 <= p < Z.of_nat (length ix) -> (Z.to_nat (nth (Z.to_nat p) ix 0%Z) < D)%nat.
Proof. intros Hp. unfold valid_dims in Hix. rewrite Forall_forall in Hix. specialize (Hix (nth (Z.to_nat p) ix 0) ltac:(apply nth_In; lia)). lia. Qed.

Lemma len_first {A} (l : list A) : length l = length sizes' -> length (firstn D l) = D.
Proof. intros H. rewrite firstn_length. lia. Qed.

Lemma rs_short : forall todo sm marg main m1, (forall e, In e todo -> 0 <= fst e < Z.of_nat (length ix)) -> length main = length sizes' ->
  recursive_sample todo sm marg ix main = Ok m1 -> recursive_sample todo sm marg ix (firstn D main) = Ok (firstn D m1).
Proof.
  induction todo as [|[d u] todo IH]; intros sm marg main m1 Hin Hl E; [discriminate|].
  pose proof (Hin (d, u) (or_introl eq_refl)) as Hd. cbn [fst] in Hd.
  destruct todo as [|[d' u'] todo].
  - cbn [recursive_sample] in *. destruct (nd_values marg) as [vs0| | |]; cbn [bind] in *; try discriminate.
    destruct (pick vs0 (unit_of u)) as [i| | |]; cbn [bind] in *; try discriminate.
    rewrite (mi_set_ok sizes' ix ix_long) in E by auto. injection E as <-.
    rewrite (mi_set_ok sizes ix Hix) by (auto; now apply len_first). f_equal. symmetry. apply firstn_upd. now apply ix_at.
  - remember ((d', u') :: todo) as rest eqn:Er.
    assert (forall m, recursive_sample ((d, u) :: rest) sm marg ix m =
      let o := match map_find sm d with Some o => o | None => 0 end in
      let* r := reduce1 IntOps marg o in let* i := pick r (unit_of u) in let* main' := mi_set ix m d i in
      let* sliced := slice marg [(o, i)] in recursive_sample rest sm sliced ix main') as Eq by (intros m; rewrite Er; reflexivity).
    rewrite Eq in *. cbv zeta in *.
    set (o := match map_find sm d with Some o => o | None => 0 end) in *.
    destruct (reduce1 IntOps marg o) as [rr| | |]; cbn [bind] in *; try discriminate.
    destruct (pick rr (unit_of u)) as [i| | |]; cbn [bind] in *; try discriminate.
    rewrite (mi_set_ok sizes' ix ix_long) in E by auto. cbn [bind] in E.
    rewrite (mi_set_ok sizes ix Hix) by (auto; now apply len_first). cbn [bind].
    destruct (slice marg [(o, i)]) as [sl| | |]; cbn [bind] in *; try discriminate.
    rewrite <- firstn_upd by now apply ix_at. apply IH; auto; [intros; apply Hin; now right|]. now rewrite length_upd.
Qed.

Lemma sample_short seq a main m1 : length seq = length sizes' -> length main = length sizes' -> sample ix seq a main = Ok m1 ->
  sample ix (firstn D seq) a (firstn D main) = Ok (firstn D m1).
Proof.
  intros Hs Hl E. unfold sample in *.
  pose proof ix_long as Hix'. pose proof (len_first seq Hs) as Hs1. pose proof (len_first main Hl) as Hl1.
  rewrite (split_spec sizes') in E by auto.
  rewrite (split_spec sizes) by auto.
  assert (forall p, In p (zrange (Z.of_nat (length ix))) -> nth (Z.to_nat (nth (Z.to_nat p) ix 0)) (firstn D main) 0 = nth (Z.to_nat (nth (Z.to_nat p) ix 0)) main 0) as He.
  { intros p Hpp. apply in_zrange in Hpp. apply nth_first. now apply ix_at. }
  assert (U ix (firstn D main) = U ix main) as ->.
  { unfold U. apply filter_ext_in. intros p Hpp. unfold set_p. now rewrite He. }
  assert (SL ix (firstn D main) = SL ix main) as ->.
  { unfold SL. assert (filter (set_p ix (firstn D main)) (zrange (Z.of_nat (length ix))) = filter (set_p ix main) (zrange (Z.of_nat (length ix)))) as ->.
    { apply filter_ext_in. intros p Hpp. unfold set_p. now rewrite He. }
    apply map_ext_in. intros p Hpp. apply filter_In in Hpp as [Hpp _]. now rewrite He. }
  assert (todo_of (us_of ix (firstn D seq)) (U ix main) = todo_of (us_of ix seq) (U ix main)) as ->.
  { unfold todo_of. f_equal. apply map_ext_in. intros p Hpp. apply U_in in Hpp as [Hpp _]. f_equal. unfold us_of. apply nth_first. now apply ix_at. }
  cbn [bind] in *.
  destruct (todo_of (us_of ix seq) (U ix main)) as [|e0 sa] eqn:Et; [injection E as <-; reflexivity|].
  destruct (slice a (SL ix main)) as [free| | |]; cbn [bind] in *; try discriminate.
  apply rs_short; auto. intros e He0.
  assert (In (fst e) (map fst (e0 :: sa))) as Hq by now apply in_map.
  rewrite <- Et in Hq. unfold todo_of in Hq. rewrite map_rev, map_map in Hq. apply in_rev in Hq. cbn [fst] in Hq. rewrite map_id in Hq.
  apply U_in in Hq. lia.
Qed.
End Short.

(** * Two lists of constraints, one the beginning of the other *)
Section Grow.
Context (cs ext : list con) (sizes sizes' : list Z) (Hfit : fits sizes) (Hfit' : fits sizes').
Definition all := cs ++ ext.
Context (Hsm : forall c, In c cs -> csmall c) (Himp : implied cs sizes) (Hnn : forall c, In c cs -> nonneg c).
Context (Hsm' : forall c, In c all -> csmall c) (Himp' : implied all sizes') (Hnn' : forall c, In c all -> nonneg c).
Notation D := (length sizes).

Lemma in_all c : In c cs -> In c all. Proof. intros H. apply in_app_iff. now left. Qed.

Lemma fewer : (D <= length sizes')%nat.
Proof.
  destruct (Nat.le_gt_cases D (length sizes')) as [H|H]; auto. exfalso.
  destruct (proj2 (proj1 Himp (Z.of_nat (length sizes'))) ltac:(lia)) as (c & Hc & Hd).
  pose proof (proj1 (proj1 Himp' (Z.of_nat (length sizes'))) (ex_intro _ c (conj (in_all c Hc) Hd))). lia.
Qed.

Lemma sizes_first : firstn D sizes' = sizes.
Proof.
  apply (nth_ext _ _ 0 0). { rewrite firstn_length. pose proof fewer. lia. }
  intros k Hk. rewrite firstn_length in Hk. assert (k < D)%nat as Hk' by lia. rewrite nth_first by auto.
  destruct (proj2 (proj1 Himp (Z.of_nat k)) ltac:(lia)) as (c & Hc & Hd).
  pose proof (proj2 (proj2 Himp c Hc)) as E. pose proof (proj2 (proj2 Himp' c (in_all c Hc))) as E'. rewrite <- E in E'.
  pose proof (proj1 (proj_eq_iff (c_dims c) sizes' sizes) E' _ Hd) as H. now rewrite Nat2Z.id in H.
Qed.

Definition dimsD : list Z := zrange (Z.of_nat D).

Lemma proj_first ix m : valid_dims D ix -> proj ix (firstn D m) = proj ix m.
Proof.
  intros H. unfold valid_dims in H. rewrite Forall_forall in H. apply proj_eq_iff. intros d Hd. apply nth_first. specialize (H d Hd). lia.
Qed.

Lemma proj_dimsD m : (D <= length m)%nat -> proj dimsD m = firstn D m.
Proof.
  intros H. unfold dimsD. assert (length (firstn D m) = D) as L by (rewrite firstn_length; lia).
  rewrite <- (firstn_skipn D m) at 1. rewrite <- L at 1. apply proj_zrange_app.
Qed.

Lemma index_first m : index_in sizes' m -> index_in sizes (firstn D m).
Proof.
  intros H. pose proof (index_firstn sizes' m H D) as G. now rewrite sizes_first in G.
Qed.

(** the state reached by the shorter list is the longer one's, the new dimensions summed over *)
Definition covers (r r' : list Z -> Z) : Prop :=
  (forall c k, In c cs -> margin sizes (c_dims c) k r = margin sizes' (c_dims c) k r') /\
  (forall k, index_in sizes k -> r k = margin sizes' dimsD k r').

Lemma covers_inc r r' main : covers r r' -> index_in sizes' main -> covers (inc r (firstn D main)) (inc r' main).
Proof.
  intros [H1 H2] Hm. pose proof (index_first main Hm) as Hm'. split.
  - intros c k Hc. rewrite !margin_inc by auto. rewrite (H1 c k Hc), proj_first; auto. now apply (cdims cs).
  - intros k Hk. rewrite margin_inc by auto. rewrite proj_dimsD by (pose proof fewer; pose proof (index_in_length _ _ Hm); lia).
    unfold inc, fupd. destruct (list_eq_dec Z.eq_dec (firstn D main) k) as [E|Ne].
    + rewrite E. rewrite !idx_eqb_refl. now rewrite H2.
    + unfold idx_eqb. destruct (list_eq_dec Z.eq_dec (firstn D main) k); [contradiction|].
      destruct (list_eq_dec Z.eq_dec k (firstn D main)); [congruence|]. rewrite H2 by auto. lia.
Qed.

Lemma draws_ext r' t seq : counts sizes' t r' -> t < 2 ^ 62 -> length seq = length sizes' ->
  forall rest pre main mF, all = pre ++ rest -> trail sizes' pre main -> (forall d, (d < D)%nat -> assigned main d) ->
  foldM (fun '(k, ix) main => let* a := vec_get (rems all sizes' r') k in sample ix seq a main)
             (numbered (Z.of_nat (length pre)) (map c_dims rest)) main = Ok mF -> firstn D mF = firstn D main.
Proof.
  intros Hc Hb Hl rest. induction rest as [|b rest IH]; intros pre main mF E0 Ht Has E.
  - cbn [map numbered foldM] in E. now injection E as <-.
  - cbn [map numbered foldM] in E. rewrite (vec_get_rems all sizes' r' pre b rest E0) in E. cbn [bind] in E.
    destruct (sample_one all sizes' Hsm' Himp' r' t seq b pre rest main E0 Hc Hb Hl Ht) as [S _]. cbv zeta in S.
    destruct S as [(e & Es)|(m1 & Es & Ht1 & Hk)]; rewrite Es in E; cbn [bind] in E; [discriminate|].
    replace (Z.of_nat (length pre) + 1) with (Z.of_nat (length (pre ++ [b]))) in E by (rewrite app_length; simpl; lia).
    assert (length main = length sizes') as L by (destruct Ht as [[Lm _] _]; exact Lm).
    assert (length m1 = length sizes') as L1 by (destruct Ht1 as [[L1 _] _]; exact L1).
    assert (firstn D m1 = firstn D main) as Ef.
    { apply (nth_ext _ _ 0 0); [rewrite !firstn_length; lia|]. intros k Hk'. rewrite firstn_length in Hk'.
      rewrite !nth_first by lia. apply Hk. apply Has. lia. }
    rewrite <- Ef. apply (IH (pre ++ [b])); auto; [now rewrite <- app_assoc|].
    intros d Hd. unfold assigned in *. rewrite Hk by (now apply Has). now apply Has.
Qed.

Lemma draws_short r r' t seq : covers r r' -> counts sizes' t r' -> t < 2 ^ 62 -> length seq = length sizes' ->
  forall rest pre main mF, cs = pre ++ rest -> trail sizes' pre main ->
  foldM (fun '(k, ix) main => let* a := vec_get (rems all sizes' r') k in sample ix seq a main)
             (numbered (Z.of_nat (length pre)) (map c_dims (rest ++ ext))) main = Ok mF ->
  foldM (fun '(k, ix) main => let* a := vec_get (rems cs sizes r) k in sample ix (firstn D seq) a main)
             (numbered (Z.of_nat (length pre)) (map c_dims rest)) (firstn D main) = Ok (firstn D mF).
Proof.
  intros Hcv Hc Hb Hl rest. induction rest as [|b rest IH]; intros pre main mF E0 Ht E.
  - rewrite app_nil_r in E0. subst pre. cbn [app map numbered foldM] in *. f_equal. symmetry.
    apply (draws_ext r' t seq Hc Hb Hl ext cs main mF eq_refl Ht); [|exact E].
    intros d Hd. apply (proj2 Ht); [pose proof fewer; lia|]. unfold touched.
    destruct (proj2 (proj1 Himp (Z.of_nat d)) ltac:(lia)) as (c & Hin & Hd'). eauto.
  - cbn [app map numbered foldM] in *.
    assert (E1 : all = pre ++ b :: (rest ++ ext)) by (unfold all; rewrite E0, <- app_assoc; reflexivity).
    assert (In b cs) as Hin by (rewrite E0; apply in_app_iff; right; now left).
    rewrite (vec_get_rems all sizes' r' pre b _ E1) in E. rewrite (vec_get_rems cs sizes r pre b rest E0). cbn [bind] in *.
    assert (mk (c_sizes b) (rem sizes b r) = mk (c_sizes b) (rem sizes' b r')) as ->.
    { apply mk_ext. intros k _. unfold rem. now rewrite (proj1 Hcv b k Hin). }
    destruct (sample_one all sizes' Hsm' Himp' r' t seq b pre _ main E1 Hc Hb Hl Ht) as [S _]. cbv zeta in S.
    destruct S as [(e & Es)|(m1 & Es & Ht1 & Hk)]; rewrite Es in E; cbn [bind] in E; [discriminate|].
    assert (length main = length sizes') as L by (destruct Ht as [[Lm _] _]; exact Lm).
    rewrite (sample_short sizes sizes' fewer (c_dims b) (cdims cs sizes Himp b Hin) seq _ main m1 Hl L Es). cbn [bind].
    replace (Z.of_nat (length pre) + 1) with (Z.of_nat (length (pre ++ [b]))) in * by (rewrite app_length; simpl; lia).
    apply IH; auto. now rewrite <- app_assoc.
Qed.

Context (cols cols' : list (list N)) (Hcols : length cols = D) (Hcols' : length cols' = length sizes').
Context (Hdir : Forall valid_directions cols) (Hdir' : Forall valid_directions cols') (Hcol : firstn D cols' = cols).

Definition grown (t : Z) (s s' : qstate) : Prop :=
  exists r r' v v', view_of cols v (q_sobol s) /\ view_of cols' v' (q_sobol s') /\ v_n v = v_n v' /\ (Z.to_N t <= v_n v)%N /\
    counts sizes t r /\ counts sizes' t r' /\ covers r r' /\ q_margs s = rems cs sizes r /\ q_margs s' = rems all sizes' r' /\
    q_arr s = mk sizes r /\ q_arr s' = mk sizes' r'.

Lemma grow_step t s s' s1' : 0 <= t -> grown t s s' -> qis_step (length sizes') (map c_dims all) s' = Ok s1' ->
  exists s1, qis_step D (map c_dims cs) s = Ok s1 /\ grown (t + 1) s1 s1'.
Proof.
  intros Ht0 (r & r' & v & v' & Hv & Hv' & Hn & Htv & Hc & Hc' & Hcv & Em & Em' & Ea & Ea') E. unfold qis_step in *.
  pose proof (view_n_le _ _ _ Hv) as Hle.
  destruct (N.eq_dec (v_n v') limit) as [El|Nl].
  { rewrite (sobol_buf_end cols' v' _ Hv' El) in E. cbn [bind] in E. discriminate. }
  assert (Hb : 0 <= t < 2 ^ 32) by (unfold limit in *; lia).
  destruct (sobol_buf_ok cols' v' _ Hdir' Hv') as (sb' & Eb' & Hvb'); [lia|]. rewrite Eb' in E. cbn [bind] in E.
  destruct (sobol_buf_ok cols v _ Hdir Hv) as (sb & Eb & Hvb); [lia|]. rewrite Eb. cbn [bind]. rewrite Hn.
  assert (point_of cols (v_n v' + 1) = firstn D (point_of cols' (v_n v' + 1))) as ->.
  { unfold point_of. rewrite <- Hcol. symmetry. apply firstn_map. }
  set (p := point_of cols' (v_n v' + 1)) in *.
  assert (length p = length sizes') as Lp by (unfold p, point_of; now rewrite map_length).
  rewrite Em' in E. rewrite Em.
  fold (draw all sizes' r' p (repeat (-1) (length sizes'))) in E.
  destruct (draw_safe all sizes' Hsm' Himp' Hfit' r' t p Hc' ltac:(lia) Lp) as [(e & Ed)|(main & Ed & Hm)]; rewrite Ed in *; cbn [bind] in *; [discriminate|].
  pose proof (draws_short r r' t p Hcv Hc' ltac:(lia) Lp cs [] (repeat (-1) (length sizes')) main eq_refl (trail_nil sizes' Hfit') Ed) as Es.
  cbn [length] in Es. change (Z.of_nat 0) with 0 in Es.
  assert (firstn D (repeat (-1) (length sizes')) = repeat (-1) D) as Erep.
  { pose proof fewer as Hf. revert Hf. generalize D, (length sizes'). induction n as [|n IH]; intros [|m] H; auto; [lia|]. cbn [repeat firstn]. f_equal. apply IH. lia. }
  rewrite Erep in Es. rewrite Es. cbn [bind]. clear Es.
  pose proof (index_first main Hm) as Hm2.
  rewrite (all_set sizes') in E by auto. rewrite (all_set sizes) by auto.
  destruct (decrement_ok all sizes' Hsm' Himp' Hnn' r' t main (q_conv s') Hc' ltac:(lia) Hm) as (conv' & Edec' & _). rewrite Edec' in E. cbn [bind] in E.
  destruct (decrement_ok cs sizes Hsm Himp Hnn r t (firstn D main) (q_conv s) Hc ltac:(lia) Hm2) as (conv & Edec & _). rewrite Edec. cbn [bind].
  rewrite Ea' in E. rewrite Ea. rewrite (increment_ok sizes' Hfit' r' t main) in E by (auto; lia).
  rewrite (increment_ok sizes Hfit r t (firstn D main)) by (auto; lia). cbn [bind] in *. injection E as <-.
  eexists. split; [reflexivity|]. exists (inc r (firstn D main)), (inc r' main), (SV (v_n v + 1) (v_n v + 1) (v_pos v)), (SV (v_n v' + 1) (v_n v' + 1) (v_pos v')).
  cbn [q_sobol q_margs q_arr v_n]. split; [exact Hvb|]. split; [exact Hvb'|]. split; [lia|].
  split; [rewrite Z2N.inj_add by lia; lia|]. split; [now apply counts_inc|]. split; [now apply counts_inc|]. split; [now apply covers_inc|]. repeat split.
Qed.

Lemma grow_loop n : forall t s s' s1', 0 <= t -> grown t s s' ->
  foldM (fun (_ : unit) s => qis_step (length sizes') (map c_dims all) s) (repeat tt n) s' = Ok s1' ->
  exists s1, foldM (fun (_ : unit) s => qis_step D (map c_dims cs) s) (repeat tt n) s = Ok s1 /\
    exists r r', q_arr s1 = mk sizes r /\ q_arr s1' = mk sizes' r' /\ covers r r'.
Proof.
  induction n as [|n IH]; intros t s s' s1' Ht Hg E.
  - simpl in *. injection E as <-. exists s. split; auto. destruct Hg as (r & r' & v & v' & _ & _ & _ & _ & _ & _ & Hcv & _ & _ & Ea & Ea'). eauto.
  - simpl repeat in *. cbn [foldM] in *. destruct (qis_step _ _ s') as [s2'| | |] eqn:Es; cbn [bind] in E; try discriminate.
    destruct (grow_step t s s' s2' Ht Hg Es) as (s2 & Es' & Ht2). rewrite Es'. cbn [bind]. eapply IH; [|exact Ht2|exact E]. lia.
Qed.

Lemma margin_0 sz dims k : margin sz dims k (fun _ => 0) = 0.
Proof. unfold margin, sum_where. induction (filter _ _) as [|x l IH]; simpl; auto. Qed.

Lemma grow_start sb sb' v v' : view_of cols v sb -> view_of cols' v' sb' -> v_n v = v_n v' -> grown 0 (start sb sizes cs) (start sb' sizes' all).
Proof.
  intros Hv Hv' Hn.
  assert (forall sz, counts sz 0 (fun _ => 0)) as Hz.
  { intros sz. split; [intros; lia|]. unfold total. induction (all_indices sz) as [|x l IH]; simpl; auto. }
  assert (forall sz l, (forall c, In c l -> csmall c) -> map nd_of l = rems l sz (fun _ => 0)) as Hr.
  { intros sz l Hl. unfold rems. apply map_ext_in. intros c Hc. unfold nd_of. apply mk_ext. intros k Hk. unfold rem. rewrite margin_0. lia. }
  exists (fun _ => 0), (fun _ => 0), v, v'. cbn [start q_sobol q_margs q_arr]. split; auto. split; auto. split; auto. split; [lia|].
  split; auto. split; auto. split; [|repeat split; auto].
  split; intros; now rewrite ?margin_0.
Qed.
End Grow.

Lemma cons_of_app i1 m1 i2 m2 : length i1 = length m1 -> cons_of (i1 ++ i2) (m1 ++ m2) = cons_of i1 m1 ++ cons_of i2 m2.
Proof.
  unfold cons_of. revert m1. induction i1 as [|i i1 IH]; intros [|m m1] H; try discriminate; auto.
  cbn [app combine map]. f_equal. apply IH. now injection H.
Qed.

Lemma grow_claim L fuel ilist mlist ilist' mlist' skips sizes res' :
  in_range ilist mlist -> vectors ilist mlist -> (2 <= length ilist)%nat -> implied (cons_of ilist mlist) sizes -> (2 <= length sizes)%nat ->
  in_range (ilist ++ ilist') (mlist ++ mlist') -> py_qis L fuel (ilist ++ ilist') (mlist ++ mlist') skips = Ok res' -> (32 <= fuel)%nat ->
  exists res, py_qis L fuel ilist mlist skips = Ok res /\ shape (qr_pop_array res) = sizes /\ qr_pop res = qr_pop res' /\
    (forall k, index_in sizes k -> entry 0 (qr_pop_array res) k =
       margin (shape (qr_pop_array res')) (zrange (Z.of_nat (length sizes))) k (entry 0 (qr_pop_array res'))) /\
    (qr_conv res' = true -> qr_conv res = true).
Proof.
  intros Hr Hvec Hl2 Himp Hd2 Hr' E Hfuel.
  assert (forall c, In c (cons_of ilist mlist) -> csmall c) as Hsm by (intros c; now apply range_small).
  assert (forall c, In c (cons_of (ilist ++ ilist') (mlist ++ mlist')) -> csmall c) as Hsm' by (intros c; now apply range_small).
  destruct (qis_cases L fuel _ _ skips Hr') as [[(e & E') _]|(Hv & sizes' & Hvc & Hf & H)]; [congruence|].
  cbv zeta in H. destruct H as [(_ & e & E')|[(E' & _)|(Hu & Hd & cols' & sb' & v' & Hlc' & Hdir' & Htab' & Hvw' & Hvn' & H)]]; try congruence.
  destruct H as [(e & _ & E')|(s' & r' & El & Ea & Hc & Hcv & Hp & Ht & E')]; [congruence|].
  rewrite cons_of_app in * by apply Hvec.
  set (cs := cons_of ilist mlist) in *. set (ext := cons_of ilist' mlist') in *. fold (all cs ext) in *.
  set (pop := pop_of (c_total (hd con0 (all cs ext)))) in *.
  rewrite E in E'. injection E' as Eres.
  assert (qr_pop res' = pop /\ qr_conv res' = q_conv s' /\ qr_pop_array res' = NDA sizes' (map r' (all_indices sizes')))
    as (Epop & Ecv & Earr) by (rewrite Eres; auto). clear Eres. rewrite Epop, Ecv, Earr. cbn [shape].
  pose proof Hvc as (_ & Himp' & _ & Hnn' & Hpops & Hag).
  assert (length cs = length ilist) as Lcs by (unfold cs, cons_of; rewrite map_length, combine_length; destruct Hvec; lia).
  assert (valid_code cs sizes) as Hvc0.
  { split; [lia|]. split; auto. split; auto. split; [intros c Hin; apply Hnn'; now apply in_all|].
    split; [intros c c' H1 H2; apply Hpops; now apply in_all|].
    intros c c' j j' d v Hin Hin'. apply Hag; now apply in_all. }
  pose proof Hvc0 as (_ & _ & _ & Hnn & _).
  destruct (qis_cases L fuel ilist mlist skips Hr) as [[_ Hno]|(_ & sizes0 & Hvc1 & Hf1 & H)].
  { exfalso. eapply Hno; eauto. }
  fold cs in Hvc1, H. assert (sizes0 = sizes) as -> by (destruct Hvc1 as (_ & Hi & _); eapply implied_unique; eauto).
  pose proof (fewer cs ext sizes sizes' Himp Himp') as Hfew.
  cbv zeta in H. destruct H as [(Hd' & _)|[(_ & [Hf''|Hs'])|(_ & _ & cols & sb & v & Hlc & Hdir & Htab & Hvw & Hvn & H)]]; try lia.
  assert (firstn (length sizes) cols' = cols) as Hcol.
  { apply (table_unique (length sizes)); [lia| |auto]. destruct Htab' as [L1 H1]. split; [rewrite firstn_length; lia|].
    intros i Hi. rewrite nth_first by auto. apply H1. lia. }
  assert (0 <= pop) as Hp0.
  { destruct Hc as [H1 H2]. fold pop in H2. rewrite <- H2. now apply total_nonneg. }
  assert (forall c, In c cs -> c_total c = pop) as Htot by (intros c Hin; apply Ht; now apply in_all).
  assert (pop_of (c_total (hd con0 cs)) = pop) as Ep.
  { rewrite Htot by (destruct cs; [simpl in Lcs; lia|now left]). apply pop_of_small. lia. }
  rewrite Ep in H. unfold repeatM in El, H.
  destruct (grow_loop cs ext sizes sizes' Hf1 Hf Hsm Himp Hnn Hsm' Himp' Hnn' cols cols' Hlc Hlc' Hdir Hdir' Hcol (Z.to_nat pop) 0
    (start sb sizes cs) (start sb' sizes' (all cs ext)) s' ltac:(lia) (grow_start cs ext sizes sizes' Hsm Hsm' cols cols' Hlc Hlc' sb sb' v v' Hvw Hvw' ltac:(congruence)) El)
    as (s1 & El1 & r1 & r1' & Ea1 & Ea1' & Hcov).
  unfold start in El1.
  destruct H as [(e & El'' & _)|(s2 & r & El'' & Ea2 & Hc2 & Hcv2 & _ & _ & E'')]; [congruence|].
  assert (s2 = s1) as -> by congruence. clear El''.
  assert (forall i, index_in sizes i -> r i = r1 i) as Hrr by (intros i Hi; rewrite Ea1 in Ea2; symmetry; now apply (mk_inj sizes _ _ Hf1 Ea2)).
  assert (forall i, index_in sizes' i -> r' i = r1' i) as Hrr' by (intros i Hi; rewrite Ea1' in Ea; symmetry; now apply (mk_inj sizes' _ _ Hf Ea)).
  eexists. split; [exact E''|]. cbn [qr_pop_array qr_pop qr_conv shape]. split; [reflexivity|]. split; [reflexivity|]. split.
  - intros k Hk. rewrite entry_NDA_map, margin_NDA by auto. rewrite Hrr, (proj2 Hcov) by auto. apply margin_ext. intros i Hi. symmetry. auto.
  - rewrite Hcv, Hcv2. intros H c k Hin Hk. specialize (H c k (in_all cs ext c Hin) Hk). unfold rem in *.
    rewrite (margin_ext sizes _ k r r1) by auto. rewrite (proj1 Hcov c k Hin). now rewrite <- (margin_ext sizes' _ k r' r1') by auto.
Qed.

(** the shorter lists are in range when the longer ones are *)
Lemma in_range_prefix ilist mlist ilist' mlist' sizes' : length ilist = length mlist ->
  in_range (ilist ++ ilist') (mlist ++ mlist') -> implied (cons_of (ilist ++ ilist') (mlist ++ mlist')) sizes' -> in_range ilist mlist.
Proof.
  intros Hl [Hf Hs] Hi. split; [now apply Forall_app in Hf|].
  intros sizes Hi0. pose proof (Hs _ Hi) as H.
  assert (positive sizes') as Hpos.
  { apply Forall_forall. intros x Hx. destruct (In_nth _ _ 0 Hx) as (k & Hk & <-).
    destruct (proj2 (proj1 Hi (Z.of_nat k)) ltac:(lia)) as (c & Hc & Hd).
    destruct (proj2 Hi c Hc) as [Hlen E].
    unfold cons_of in Hc. apply in_map_iff in Hc. destruct Hc as ([i m] & <- & Hc). apply in_combine_r in Hc.
    pose proof (proj1 (Forall_forall _ _) Hf m Hc) as ((_ & Hp & _) & _).
    cbn [con_of c_dims c_sizes fst snd] in *.
    assert (In (nth k sizes' 0) (shape m)) as Hin.
    { rewrite <- E. unfold proj. apply in_map_iff. exists (Z.of_nat k). split; auto. now rewrite ?Nat2Z.id. }
    exact (proj1 (Forall_forall _ _) Hp _ Hin). }
  rewrite cons_of_app in Hi by auto. pose proof (sizes_first _ _ _ _ Hi0 Hi) as E.
  rewrite <- (firstn_skipn (length sizes) sizes'), E, prodZ_app in H.
  rewrite <- (firstn_skipn (length sizes) sizes'), E in Hpos. apply Forall_app in Hpos. destruct Hpos as [P1 P2].
  pose proof (prodZ_pos _ P1). pose proof (prodZ_pos _ P2). nia.
Qed.

Lemma grow_claim' L fuel ilist mlist ilist' mlist' skips sizes res' :
  vectors ilist mlist -> (2 <= length ilist)%nat -> implied (cons_of ilist mlist) sizes -> (2 <= length sizes)%nat ->
  in_range (ilist ++ ilist') (mlist ++ mlist') -> py_qis L fuel (ilist ++ ilist') (mlist ++ mlist') skips = Ok res' -> (32 <= fuel)%nat ->
  exists res, py_qis L fuel ilist mlist skips = Ok res /\ shape (qr_pop_array res) = sizes /\ qr_pop res = qr_pop res' /\
    (forall k, index_in sizes k -> entry 0 (qr_pop_array res) k =
       margin (shape (qr_pop_array res')) (zrange (Z.of_nat (length sizes))) k (entry 0 (qr_pop_array res'))) /\
    (qr_conv res' = true -> qr_conv res = true).
Proof.
  intros Hvec Hl2 Himp Hd2 Hr' E Hfuel.
  destruct (qis_cases L fuel _ _ skips Hr') as [[(e & E') _]|(_ & sizes' & (_ & Hi & _) & _)]; [congruence|].
  eapply grow_claim; eauto. eapply in_range_prefix; eauto. apply Hvec.
Qed.

(** * Examples: two marginals, and a third one over a new dimension, last and first *)
Definition exGr_i : list (ndarray Z) := [ind1 [0; 1]; ind1 [1; 2]].
Definition exGr_m : list (ndarray Z) := [NDA [2; 2] [1; 2; 3; 4]; NDA [2; 2] [2; 2; 3; 3]].
Definition exGr_i2 : list (ndarray Z) := [ind1 [1; 3]].
Definition exGr_m2 : list (ndarray Z) := [NDA [2; 2] [1; 3; 4; 2]].

Lemma exGr_range : in_range exGr_i exGr_m. Proof. apply (in_range_by _ _ [2; 2; 2]); vm_compute; reflexivity. Qed.
Lemma exGr_range2 : in_range (exGr_i ++ exGr_i2) (exGr_m ++ exGr_m2). Proof. exact exSt_range. Qed.
Lemma exGr_range3 : in_range (exGr_i2 ++ exGr_i) (exGr_m2 ++ exGr_m). Proof. apply (in_range_by _ _ [2; 2; 2; 2]); vm_compute; reflexivity. Qed.
Lemma exGr_implied : implied (cons_of exGr_i exGr_m) [2; 2; 2]. Proof. apply implied_by. vm_compute. reflexivity. Qed.
Lemma exGr_run : outline (py_qis L0 40 exGr_i exGr_m 0) = Some (true, [2; 2; 2], [1; 0; 1; 1; 1; 2; 2; 2], 10).
Proof. vm_compute. reflexivity. Qed.
Lemma exGr_run3 : outline (py_qis L0 40 (exGr_i2 ++ exGr_i) (exGr_m2 ++ exGr_m) 0) =
  Some (true, [2; 2; 2; 2], [0; 0; 0; 1; 1; 1; 0; 0; 1; 1; 0; 1; 0; 1; 3; 0], 10).
Proof. vm_compute. reflexivity. Qed.

Lemma exGr_ex : exists res', in_range exGr_i exGr_m /\ vectors exGr_i exGr_m /\ implied (cons_of exGr_i exGr_m) [2; 2; 2] /\
  in_range (exGr_i ++ exGr_i2) (exGr_m ++ exGr_m2) /\ py_qis L0 40 (exGr_i ++ exGr_i2) (exGr_m ++ exGr_m2) 0 = Ok res' /\
  qr_pop_array res' = NDA [2; 2; 2; 2] [0; 1; 0; 0; 0; 1; 0; 1; 0; 1; 1; 1; 2; 0; 2; 0].
Proof.
  pose proof exSt_run as X. change (exGr_i ++ exGr_i2) with exSt_i. change (exGr_m ++ exGr_m2) with exSt_m.
  destruct (py_qis L0 40 exSt_i exSt_m 0) as [res|e|w|] eqn:E; try discriminate X. cbn [outline] in X.
  exists res. split; [exact exGr_range|]. split; [split; [reflexivity|repeat constructor]|]. split; [exact exGr_implied|].
  split; [exact exSt_range|]. split; [reflexivity|].
  destruct (qr_pop_array res) as [sh fl] eqn:Ea. cbn [shape flat] in X. injection X as _ -> -> _. reflexivity.
Qed.

Lemma grow_front_refute : exists ilist mlist ilist' mlist' sizes res res', in_range ilist mlist /\
  vectors (ilist' ++ ilist) (mlist' ++ mlist) /\ valid (cons_of (ilist' ++ ilist) (mlist' ++ mlist)) /\ implied (cons_of ilist mlist) sizes /\
  in_range (ilist' ++ ilist) (mlist' ++ mlist) /\ py_qis L0 40 ilist mlist 0 = Ok res /\
  py_qis L0 40 (ilist' ++ ilist) (mlist' ++ mlist) 0 = Ok res' /\ qr_conv res = true /\ qr_conv res' = true /\
  exists k, index_in sizes k /\ entry 0 (qr_pop_array res) k <>
    margin (shape (qr_pop_array res')) (zrange (Z.of_nat (length sizes))) k (entry 0 (qr_pop_array res')).
Proof.
  exists exGr_i, exGr_m, exGr_i2, exGr_m2, [2; 2; 2]. pose proof exGr_run as X. pose proof exGr_run3 as X'.
  destruct (py_qis L0 40 exGr_i exGr_m 0) as [res|e|w|] eqn:E; try discriminate X.
  destruct (py_qis L0 40 (exGr_i2 ++ exGr_i) (exGr_m2 ++ exGr_m) 0) as [res'|e|w|] eqn:E'; try discriminate X'.
  cbn [outline] in X, X'. exists res, res'.
  destruct (qr_pop_array res) as [sh fl] eqn:Ea. destruct (qr_pop_array res') as [sh' fl'] eqn:Ea'. cbn [shape flat] in *.
  injection X as Ec -> -> _. injection X' as Ec' -> -> _.
  destruct (valid_by _ _ exGr_range3) as [Hv1 Hv2]; [vm_compute; reflexivity|vm_compute; reflexivity|].
  split; [exact exGr_range|]. split; [exact Hv1|]. split; [exact Hv2|]. split; [exact exGr_implied|]. split; [exact exGr_range3|].
  split; [reflexivity|]. split; [reflexivity|]. split; [exact Ec|]. split; [exact Ec'|].
  exists [0; 0; 0]. split; [unfold index_in; repeat constructor; lia|]. vm_compute. discriminate.
Qed.

(** * R numbers the dimensions of the array it hands over from the other end *)
Definition exGrR_i : list (list Z) := [[1; 2]; [2; 3]].
Definition exGrR_m : list (rarray Z) := [RA (Some [2; 2]) [1; 3; 2; 4]; RA (Some [2; 2]) [2; 3; 2; 3]].
Definition exGrR_i2 : list (list Z) := [[2; 4]].
Definition exGrR_m2 : list (rarray Z) := [RA (Some [2; 2]) [1; 4; 3; 2]].
Lemma exGrR_range : r_range exGrR_i exGrR_m. Proof. apply (r_range_by _ _ [2; 2; 2]); vm_compute; reflexivity. Qed.
Lemma exGrR_range2 : r_range (exGrR_i ++ exGrR_i2) (exGrR_m ++ exGrR_m2). Proof. apply (r_range_by _ _ [2; 2; 2; 2]); vm_compute; reflexivity. Qed.
Lemma exGrR_implied : implied (rcons_of exGrR_i exGrR_m) [2; 2; 2]. Proof. apply implied_by. vm_compute. reflexivity. Qed.
Definition r_view' (x : outcome r_result) : option (bool * option (list Z) * list Z) :=
  match x with Ok r => Some (rr_conv r, r_dim (rr_result r), r_data (rr_result r)) | _ => None end.
Lemma exGrR_run : r_view' (r_qis L0 40 exGrR_i exGrR_m 0) = Some (true, Some [2; 2; 2], [0; 2; 1; 2; 1; 1; 1; 2]).
Proof. vm_compute. reflexivity. Qed.
Lemma exGrR_run2 : r_view' (r_qis L0 40 (exGrR_i ++ exGrR_i2) (exGrR_m ++ exGrR_m2) 0) =
  Some (true, Some [2; 2; 2; 2], [0; 1; 1; 1; 0; 0; 0; 2; 0; 1; 1; 0; 1; 1; 0; 1]).
Proof. vm_compute. reflexivity. Qed.

Lemma grow_R_refute : exists indices marginals indices' marginals' sizes res res', r_range indices marginals /\
  r_range (indices ++ indices') (marginals ++ marginals') /\ implied (rcons_of indices marginals) sizes /\
  r_qis L0 40 indices marginals 0 = Ok res /\ r_qis L0 40 (indices ++ indices') (marginals ++ marginals') 0 = Ok res' /\
  rr_conv res = true /\ rr_conv res' = true /\
  exists k, index_in sizes k /\ r_entry 0 (rr_result res) k <>
    margin (col_sizes (rr_result res')) (zrange (Z.of_nat (length sizes))) k (r_entry 0 (rr_result res')).
Proof.
  exists exGrR_i, exGrR_m, exGrR_i2, exGrR_m2, [2; 2; 2]. pose proof exGrR_run as X. pose proof exGrR_run2 as X'.
  destruct (r_qis L0 40 exGrR_i exGrR_m 0) as [res|e|w|] eqn:E; try discriminate X.
  destruct (r_qis L0 40 (exGrR_i ++ exGrR_i2) (exGrR_m ++ exGrR_m2) 0) as [res'|e|w|] eqn:E'; try discriminate X'.
  cbn [r_view'] in X, X'. exists res, res'.
  destruct (rr_result res) as [sh fl] eqn:Ea. destruct (rr_result res') as [sh' fl'] eqn:Ea'. cbn [r_dim r_data] in *.
  injection X as Ec -> ->. injection X' as Ec' -> ->.
  split; [exact exGrR_range|]. split; [exact exGrR_range2|]. split; [exact exGrR_implied|]. split; [reflexivity|]. split; [reflexivity|].
  split; [exact Ec|]. split; [exact Ec'|].
  exists [0; 1; 0]. split; [unfold index_in; repeat constructor; lia|]. vm_compute. discriminate.
Qed.
