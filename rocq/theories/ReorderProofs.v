(** Proofs for C88: the order of the marginals in qis. *)
From Coq Require Import Permutation.
From Verif Require Import Base Spec SpecFacts NDArray IndexProofs Float64 ArrayOps ArrayProofs Bind BindProofs
  SobolTable SobolSpec Sobol SobolTableProofs SobolProofs SobolClaims Micro Stat Qis SynthSpec MicroProofs PickProofs SampleProofs
  SplitProofs StatProofs QisProofs QisClaims QisExamples QuantSpec QuantProofs PadSpec PadProofs ReorderSpec.
Open Scope Z_scope.

(** * What one marginal's sampling reads and writes *)
Definition puts (vs : list (nat * Z)) (m : list Z) : list Z := fold_left (fun m e => upd m (fst e) (snd e)) vs m.

Lemma length_puts vs : forall m, length (puts vs m) = length m.
Proof. induction vs as [|e vs IH]; intros m; cbn [puts fold_left]; auto. fold (puts vs (upd m (fst e) (snd e))). now rewrite IH, length_upd. Qed.

Lemma puts_other vs : forall m k, (forall e, In e vs -> fst e <> k) -> nth k (puts vs m) 0 = nth k m 0.
Proof.
  induction vs as [|e vs IH]; intros m k H; cbn [puts fold_left]; auto. fold (puts vs (upd m (fst e) (snd e))).
  rewrite IH by (intros; apply H; now right). apply nth_upd_other. intros E. apply (H e); [now left|auto].
Qed.

Lemma puts_upd vs : forall m n a, (forall e, In e vs -> fst e <> n) -> puts vs (upd m n a) = upd (puts vs m) n a.
Proof.
  induction vs as [|e vs IH]; intros m n a H; cbn [puts fold_left]; auto. fold (puts vs (upd m (fst e) (snd e))).
  rewrite upd_upd_comm by (intros E; apply (H e); [now left|auto]). apply (IH (upd m (fst e) (snd e))). intros; apply H; now right.
Qed.

Lemma puts_puts vs : forall vs' m, (forall e e', In e vs -> In e' vs' -> fst e <> fst e') -> puts vs (puts vs' m) = puts vs' (puts vs m).
Proof.
  induction vs as [|e vs IH]; intros vs' m H; [reflexivity|].
  change (puts (e :: vs) (puts vs' m)) with (puts vs (upd (puts vs' m) (fst e) (snd e))).
  change (puts (e :: vs) m) with (puts vs (upd m (fst e) (snd e))).
  rewrite <- puts_upd by (intros e' He' E; apply (H e e'); [now left|auto|auto]).
  apply IH. intros; apply H; auto; now right.
Qed.

Section Frame.
Context (sizes ix : list Z) (Hix : valid_dims (length sizes) ix).

Lemma rs_frame : forall todo sm marg main m1, (forall e, In e todo -> 0 <= fst e < Z.of_nat (length ix)) -> length main = length sizes ->
  recursive_sample todo sm marg ix main = Ok m1 ->
  exists vs, (forall e, In e vs -> exists q, In q (map fst todo) /\ fst e = Z.to_nat (nth (Z.to_nat q) ix 0)) /\ m1 = puts vs main /\
    forall main', length main' = length sizes -> recursive_sample todo sm marg ix main' = Ok (puts vs main').
Proof.
  induction todo as [|[d u] todo IH]; intros sm marg main m1 Hin Hl E; [discriminate|].
  pose proof (Hin (d, u) (or_introl eq_refl)) as Hd. cbn [fst] in Hd.
  destruct todo as [|[d' u'] todo].
  - cbn [recursive_sample] in *. destruct (nd_values marg) as [vs0| | |]; cbn [bind] in *; try discriminate.
    destruct (pick vs0 (unit_of u)) as [i| | |]; cbn [bind] in *; try discriminate.
    rewrite (mi_set_ok sizes ix Hix) in E by auto. injection E as <-.
    exists [(Z.to_nat (nth (Z.to_nat d) ix 0), i)]. split; [|split].
    + intros e [<-|[]]. exists d. split; [now left|reflexivity].
    + reflexivity.
    + intros main' Hl'. now rewrite (mi_set_ok sizes ix Hix) by auto.
  - remember ((d', u') :: todo) as rest eqn:Er.
    assert (forall m, recursive_sample ((d, u) :: rest) sm marg ix m =
      let o := match map_find sm d with Some o => o | None => 0 end in
      let* r := reduce1 IntOps marg o in let* i := pick r (unit_of u) in let* main' := mi_set ix m d i in
      let* sliced := slice marg [(o, i)] in recursive_sample rest sm sliced ix main') as Eq by (intros m; rewrite Er; reflexivity).
    rewrite Eq in E. cbv zeta in *.
    set (o := match map_find sm d with Some o => o | None => 0 end) in *.
    destruct (reduce1 IntOps marg o) as [rr| | |]; cbn [bind] in *; try discriminate.
    destruct (pick rr (unit_of u)) as [i| | |]; cbn [bind] in *; try discriminate.
    rewrite (mi_set_ok sizes ix Hix) in E by auto. cbn [bind] in E.
    destruct (slice marg [(o, i)]) as [sl| | |]; cbn [bind] in *; try discriminate.
    destruct (IH sm sl (upd main (Z.to_nat (nth (Z.to_nat d) ix 0)) i) m1 ltac:(intros; apply Hin; now right) ltac:(now rewrite length_upd) E) as (vs & Hvs & -> & Hall).
    exists ((Z.to_nat (nth (Z.to_nat d) ix 0), i) :: vs). split; [|split].
    + intros e [<-|He]; [exists d; split; [now left|reflexivity]|]. destruct (Hvs e He) as (q & Hq & Ee). exists q. split; [now right|auto].
    + reflexivity.
    + intros main' Hl'. rewrite Eq. rewrite (mi_set_ok sizes ix Hix) by auto. cbn [bind]. now rewrite Hall by (now rewrite length_upd).
Qed.

Context (seq : list N) (Hs : length seq = length sizes).

Lemma split_frame main main' : length main = length sizes -> length main' = length sizes -> proj ix main' = proj ix main ->
  split_dims ix seq main' = split_dims ix seq main.
Proof.
  intros Hl Hl' Hp. rewrite !(split_spec sizes) by auto.
  assert (forall p, In p (zrange (Z.of_nat (length ix))) -> nth (Z.to_nat (nth (Z.to_nat p) ix 0)) main' 0 = nth (Z.to_nat (nth (Z.to_nat p) ix 0)) main 0) as He.
  { intros p Hpp. apply in_zrange in Hpp. apply (proj1 (proj_eq_iff ix main' main) Hp). apply nth_In. lia. }
  assert (U ix main' = U ix main) as ->.
  { unfold U. apply filter_ext_in. intros p Hpp. unfold set_p. now rewrite He. }
  assert (SL ix main' = SL ix main) as ->; [|reflexivity].
  unfold SL. assert (filter (set_p ix main') (zrange (Z.of_nat (length ix))) = filter (set_p ix main) (zrange (Z.of_nat (length ix)))) as ->.
  { apply filter_ext_in. intros p Hpp. unfold set_p. now rewrite He. }
  apply map_ext_in. intros p Hpp. apply filter_In in Hpp as [Hpp _]. now rewrite He.
Qed.

Lemma sample_frame a main m1 : length main = length sizes -> sample ix seq a main = Ok m1 ->
  exists vs, (forall e, In e vs -> exists d, In d ix /\ fst e = Z.to_nat d /\ nth (Z.to_nat d) main 0 <= -1) /\ m1 = puts vs main /\
    forall main', length main' = length sizes -> proj ix main' = proj ix main -> sample ix seq a main' = Ok (puts vs main').
Proof.
  intros Hl E. unfold sample in E.
  assert (forall main', length main' = length sizes -> proj ix main' = proj ix main -> sample ix seq a main' =
    let* '(sl, sa, sm) := split_dims ix seq main in
    match sa with [] => Ok main' | _ => let* free := slice a sl in recursive_sample sa sm free ix main' end) as Eq.
  { intros main' Hl' Hp. unfold sample. now rewrite (split_frame main main'). }
  rewrite (split_spec sizes) in E, Eq by auto. cbn [bind] in E, Eq.
  destruct (todo_of (us_of ix seq) (U ix main)) as [|e0 sa] eqn:Et.
  - injection E as <-. exists []. split; [intros e []|]. split; [reflexivity|]. intros main' Hl' Hp. now rewrite Eq.
  - destruct (slice a (SL ix main)) as [free| | |]; cbn [bind] in *; try discriminate.
    assert (forall q, In q (map fst (e0 :: sa)) -> In q (U ix main)) as HU.
    { intros q Hq. rewrite <- Et in Hq. unfold todo_of in Hq. rewrite map_rev, map_map in Hq. apply in_rev in Hq. cbn [fst] in Hq. now rewrite map_id in Hq. }
    assert (forall e, In e (e0 :: sa) -> 0 <= fst e < Z.of_nat (length ix)) as Hr.
    { intros e He. pose proof (HU (fst e) ltac:(now apply in_map)) as Hu. apply U_in in Hu. lia. }
    destruct (rs_frame (e0 :: sa) (rev (map (fun e => (snd e, fst e)) (numbered 0 (U ix main)))) free main m1 Hr Hl E) as (vs & Hvs & -> & Hall).
    exists vs. split; [|split; [reflexivity|]].
    + intros e He. destruct (Hvs e He) as (q & Hq & Ee). apply HU, U_in in Hq. destruct Hq as [Hq1 Hq2].
      exists (nth (Z.to_nat q) ix 0). split; [apply nth_In; lia|]. auto.
    + intros main' Hl' Hp. rewrite Eq by auto. now apply Hall.
Qed.
End Frame.

(** * Two lists of constraints that differ by an exchange of neighbours *)
Lemma adds_refl sizes l : forall seen, adds_to sizes seen l l.
Proof. induction l; intros seen; [apply add_nil|apply add_same; auto]. Qed.

Section Swap.
Context (sizes : list Z) (Hfit : fits sizes) (pre0 : list con) (c c' : con) (post : list con).
Definition cs := pre0 ++ c :: c' :: post.
Definition cs' := pre0 ++ c' :: c :: post.
Context (Hsm : forall c, In c cs -> csmall c) (Himp : implied cs sizes) (Hnn : forall c, In c cs -> nonneg c).
Context (Hsm' : forall c, In c cs' -> csmall c) (Himp' : implied cs' sizes) (Hnn' : forall c, In c cs' -> nonneg c).
Context (Hcom : forall d, In d (c_dims c) -> In d (c_dims c') -> exists b, In b pre0 /\ In d (c_dims b)).

Lemma draws_swap r t seq : counts sizes t r -> t < 2 ^ 62 -> length seq = length sizes ->
  forall rest pre main mF, pre0 = pre ++ rest -> trail sizes pre main ->
  foldM (fun '(k, ix) main => let* a := vec_get (rems cs sizes r) k in sample ix seq a main)
             (numbered (Z.of_nat (length pre)) (map c_dims (rest ++ c :: c' :: post))) main = Ok mF ->
  foldM (fun '(k, ix) main => let* a := vec_get (rems cs' sizes r) k in sample ix seq a main)
             (numbered (Z.of_nat (length pre)) (map c_dims (rest ++ c' :: c :: post))) main = Ok mF.
Proof.
  intros Hc Hb Hl rest. induction rest as [|b rest IH]; intros pre main mF E0 Ht E.
  - rewrite app_nil_r in E0. subst pre. cbn [app map numbered foldM] in *.
    assert (E1 : cs = pre0 ++ c :: c' :: post) by reflexivity. assert (E1' : cs' = pre0 ++ c' :: c :: post) by reflexivity.
    rewrite (vec_get_rems cs sizes r pre0 c (c' :: post) E1) in E. rewrite (vec_get_rems cs' sizes r pre0 c' (c :: post) E1'). cbn [bind] in *.
    assert (E2 : cs = (pre0 ++ [c]) ++ c' :: post) by (rewrite E1, <- app_assoc; reflexivity).
    assert (E2' : cs' = (pre0 ++ [c']) ++ c :: post) by (rewrite E1', <- app_assoc; reflexivity).
    assert (In c cs) as Hin by (rewrite E1; apply in_app_iff; right; now left).
    assert (In c' cs) as Hin' by (rewrite E1; apply in_app_iff; right; right; now left).
    pose proof (cdims cs sizes Himp c Hin) as Hd. pose proof (cdims cs sizes Himp c' Hin') as Hd'.
    destruct (sample_one cs sizes Hsm Himp r t seq c pre0 (c' :: post) main E1 Hc Hb Hl Ht) as [S _]. cbv zeta in S.
    destruct S as [(e & Es)|(m1 & Es & Ht1 & Hk)]; rewrite Es in E; cbn [bind] in E; [discriminate|].
    replace (Z.of_nat (length pre0) + 1) with (Z.of_nat (length (pre0 ++ [c]))) in E by (rewrite app_length; simpl; lia).
    rewrite (vec_get_rems cs sizes r (pre0 ++ [c]) c' post E2) in E. cbn [bind] in E.
    destruct (sample_one cs sizes Hsm Himp r t seq c' (pre0 ++ [c]) post m1 E2 Hc Hb Hl Ht1) as [S _]. cbv zeta in S.
    destruct S as [(e & Es2)|(m2 & Es2 & Ht2 & Hk2)]; rewrite Es2 in E; cbn [bind] in E; [discriminate|].
    assert (length main = length sizes) as Lm by (destruct Ht as [[Lm _] _]; exact Lm).
    assert (length m1 = length sizes) as Lm1 by (destruct Ht1 as [[L1 _] _]; exact L1).
    destruct (sample_frame sizes (c_dims c) Hd seq Hl _ main m1 Lm Es) as (vs & Hvs & Em1 & Fc).
    destruct (sample_frame sizes (c_dims c') Hd' seq Hl _ m1 m2 Lm1 Es2) as (vs' & Hvs' & Em2 & Fc').
    assert (forall d, In d (c_dims c) -> In d (c_dims c') -> 0 <= nth (Z.to_nat d) main 0) as Hass.
    { intros d H1 H2. destruct (Hcom d H1 H2) as (b & Hb0 & Hb1).
      assert (0 <= d < Z.of_nat (length sizes)) as Hdr by (unfold valid_dims in Hd; rewrite Forall_forall in Hd; now apply Hd).
      apply (proj2 Ht); [lia|]. exists b. split; auto. now rewrite Z2Nat.id by lia. }
    assert (forall d, In d (c_dims c) -> 0 <= d) as Hp by (intros d H; unfold valid_dims in Hd; rewrite Forall_forall in Hd; now apply Hd).
    assert (forall d, In d (c_dims c') -> 0 <= d) as Hp' by (intros d H; unfold valid_dims in Hd'; rewrite Forall_forall in Hd'; now apply Hd').
    assert (forall d e, In d (c_dims c') -> In e vs -> fst e <> Z.to_nat d) as Hsep.
    { intros d e Hdc He Eq. destruct (Hvs e He) as (d0 & Hd0 & E0 & Hm0). specialize (Hp d0 Hd0). specialize (Hp' d Hdc).
      assert (d0 = d) as -> by lia. specialize (Hass d Hd0 Hdc). lia. }
    assert (proj (c_dims c') main = proj (c_dims c') m1) as Ep.
    { apply proj_eq_iff. intros d Hdc. rewrite Em1. symmetry. apply puts_other. intros e He. now apply Hsep. }
    assert (forall d e, In d (c_dims c) -> In e vs' -> fst e <> Z.to_nat d) as Hsep'.
    { intros d e Hdc He Eq. destruct (Hvs' e He) as (d0 & Hd0 & E0 & Hm0). specialize (Hp' d0 Hd0). specialize (Hp d Hdc).
      assert (d0 = d) as -> by lia. specialize (Hass d Hdc Hd0). rewrite Em1, puts_other in Hm0 by (intros; now apply Hsep). lia. }
    rewrite (Fc' main Lm Ep). cbn [bind].
    assert (sample (c_dims c') seq (mk (c_sizes c') (rem sizes c' r)) main = Ok (puts vs' main)) as Es' by (now apply Fc').
    assert (proj (c_dims c) (puts vs' main) = proj (c_dims c) main) as Ep2.
    { apply proj_eq_iff. intros d Hdc. apply puts_other. intros e He. now apply Hsep'. }
    replace (Z.of_nat (length pre0) + 1) with (Z.of_nat (length (pre0 ++ [c']))) by (rewrite app_length; simpl; lia).
    rewrite (vec_get_rems cs' sizes r (pre0 ++ [c']) c post E2'). cbn [bind].
    assert (sample (c_dims c) seq (mk (c_sizes c) (rem sizes c r)) (puts vs' main) = Ok m2) as Es2'.
    { rewrite Fc; [|now rewrite length_puts|auto]. rewrite Em2, Em1. f_equal. apply puts_puts. intros e e' He He' Eq.
      destruct (Hvs e He) as (d0 & Hd0 & E0 & _). apply (Hsep' d0 e' Hd0 He'). congruence. }
    rewrite Es2'. cbn [bind].
    destruct (sample_one cs' sizes Hsm' Himp' r t seq c' pre0 (c :: post) main E1' Hc Hb Hl Ht) as [S _]. cbv zeta in S. rewrite Es' in S.
    destruct S as [(e & Ex)|(x1 & Ex & Ht1' & _)]; [discriminate|]. injection Ex as <-.
    destruct (sample_one cs' sizes Hsm' Himp' r t seq c (pre0 ++ [c']) post (puts vs' main) E2' Hc Hb Hl Ht1') as [S _]. cbv zeta in S. rewrite Es2' in S.
    destruct S as [(e & Ex)|(x1 & Ex & Ht2' & _)]; [discriminate|]. injection Ex as <-.
    replace (Z.of_nat (length (pre0 ++ [c])) + 1) with (Z.of_nat (length ((pre0 ++ [c]) ++ [c']))) in E by (rewrite !app_length; simpl; lia).
    replace (Z.of_nat (length (pre0 ++ [c'])) + 1) with (Z.of_nat (length ((pre0 ++ [c']) ++ [c]))) by (rewrite !app_length; simpl; lia).
    rewrite <- E. symmetry.
    apply (draws_same cs cs' sizes Hsm Himp Hsm' Himp' Hfit r t seq Hc Hb Hl [] post post (adds_refl sizes post [])); auto.
    + unfold cs. rewrite <- !app_assoc. reflexivity.
    + unfold cs'. rewrite <- !app_assoc. reflexivity.
    + intros d [].
  - cbn [app map numbered foldM] in *.
    assert (E1 : cs = pre ++ b :: (rest ++ c :: c' :: post)) by (unfold cs; rewrite E0, <- app_assoc; reflexivity).
    assert (E1' : cs' = pre ++ b :: (rest ++ c' :: c :: post)) by (unfold cs'; rewrite E0, <- app_assoc; reflexivity).
    rewrite (vec_get_rems cs sizes r pre b _ E1) in E. rewrite (vec_get_rems cs' sizes r pre b _ E1'). cbn [bind] in *.
    destruct (sample_one cs sizes Hsm Himp r t seq b pre _ main E1 Hc Hb Hl Ht) as [S _]. cbv zeta in S.
    destruct S as [(e & Es)|(m1 & Es & Ht1 & Hk)]; rewrite Es in *; cbn [bind] in *; [discriminate|].
    replace (Z.of_nat (length pre) + 1) with (Z.of_nat (length (pre ++ [b]))) in * by (rewrite app_length; simpl; lia).
    apply IH; auto. now rewrite <- app_assoc.
Qed.

Context (cols : list (list N)) (Hcols : length cols = length sizes) (Hdir : Forall valid_directions cols).

Lemma swap_step t s s' s1 : 0 <= t -> tied cs cs' sizes cols t s s' -> qis_step (length sizes) (map c_dims cs) s = Ok s1 ->
  exists s1', qis_step (length sizes) (map c_dims cs') s' = Ok s1' /\ tied cs cs' sizes cols (t + 1) s1 s1'.
Proof.
  intros Ht0 (r & v & v' & Hv & Hv' & Hn & Htv & Hc & Em & Em' & Ea & Ea') E. unfold qis_step in *.
  pose proof (view_n_le _ _ _ Hv) as Hle.
  destruct (N.eq_dec (v_n v) limit) as [El|Nl].
  { rewrite (sobol_buf_end cols v _ Hv El) in E. cbn [bind] in E. discriminate. }
  assert (Hb : 0 <= t < 2 ^ 32) by (unfold limit in *; lia).
  destruct (sobol_buf_ok cols v _ Hdir Hv) as (sb & Eb & Hvb); [lia|]. rewrite Eb in E. cbn [bind] in E.
  destruct (sobol_buf_ok cols v' _ Hdir Hv') as (sb' & Eb' & Hvb'); [lia|]. rewrite Eb'. cbn [bind]. rewrite <- Hn.
  set (p := point_of cols (v_n v + 1)) in *.
  assert (length p = length sizes) as Lp by (unfold p, point_of; now rewrite map_length).
  rewrite Em in E. rewrite Em'.
  fold (draw cs sizes r p (repeat (-1) (length sizes))) in E.
  destruct (draw_safe cs sizes Hsm Himp Hfit r t p Hc ltac:(lia) Lp) as [(e & Ed)|(main & Ed & Hm)]; rewrite Ed in *; cbn [bind] in *; [discriminate|].
  pose proof (draws_swap r t p Hc ltac:(lia) Lp pre0 [] (repeat (-1) (length sizes)) main eq_refl (trail_nil sizes Hfit) Ed) as Es.
  cbn [length Z.of_nat] in Es. change (map c_dims (pre0 ++ c' :: c :: post)) with (map c_dims cs') in Es. change (Z.of_nat 0) with 0 in Es. rewrite Es. cbn [bind]. clear Es.
  rewrite (all_set sizes) in * by auto.
  destruct (decrement_ok cs sizes Hsm Himp Hnn r t main (q_conv s) Hc ltac:(lia) Hm) as (conv & Edec & _). rewrite Edec in E. cbn [bind] in E.
  destruct (decrement_ok cs' sizes Hsm' Himp' Hnn' r t main (q_conv s') Hc ltac:(lia) Hm) as (conv' & Edec' & _). rewrite Edec'. cbn [bind].
  rewrite Ea in E. rewrite Ea'. rewrite (increment_ok sizes Hfit r t main) in * by (auto; lia). cbn [bind] in *. injection E as <-.
  eexists. split; [reflexivity|]. exists (inc r main), (SV (v_n v + 1) (v_n v + 1) (v_pos v)), (SV (v_n v' + 1) (v_n v' + 1) (v_pos v')).
  cbn [q_sobol q_margs q_arr v_n]. split; [exact Hvb|]. split; [exact Hvb'|]. split; [lia|].
  split; [rewrite Z2N.inj_add by lia; lia|]. split; [now apply counts_inc|]. repeat split.
Qed.

Lemma swap_loop n : forall t s s' s1, 0 <= t -> tied cs cs' sizes cols t s s' ->
  foldM (fun (_ : unit) s => qis_step (length sizes) (map c_dims cs) s) (repeat tt n) s = Ok s1 ->
  exists s1', foldM (fun (_ : unit) s => qis_step (length sizes) (map c_dims cs') s) (repeat tt n) s' = Ok s1' /\ q_arr s1' = q_arr s1.
Proof.
  induction n as [|n IH]; intros t s s' s1 Ht Htied E.
  - simpl in *. injection E as <-. exists s'. split; auto. destruct Htied as (r & v & v' & _ & _ & _ & _ & _ & _ & _ & Ea & Ea'). congruence.
  - simpl repeat in *. cbn [foldM] in *. destruct (qis_step _ _ s) as [s2| | |] eqn:Es; cbn [bind] in E; try discriminate.
    destruct (swap_step t s s' s2 Ht Htied Es) as (s2' & Es' & Ht2). rewrite Es'. cbn [bind]. eapply IH; [|exact Ht2|exact E]. lia.
Qed.
End Swap.

(** * Any number of exchanges *)
Lemma exchanged_perm a b : exchanged a b -> Permutation a b.
Proof. intros (pre & c & c' & post & -> & -> & _). apply Permutation_app_head. apply perm_swap. Qed.
Lemma reordered_perm a b : reordered a b -> Permutation a b.
Proof. induction 1; [apply Permutation_refl|]. eapply perm_trans; [eapply exchanged_perm; eassumption|assumption]. Qed.

Lemma perm_in {A} (a b : list A) x : Permutation a b -> In x b -> In x a.
Proof. intros H. apply Permutation_in. now apply Permutation_sym. Qed.

Lemma implied_perm a b sizes : Permutation a b -> implied a sizes -> implied b sizes.
Proof.
  intros H [H1 H2]. split.
  - intros d. rewrite <- H1. split; intros (c & Hc & Hd); exists c; split; auto.
    + eapply perm_in; eauto.
    + eapply Permutation_in; eauto.
  - intros c Hc. apply H2. eapply perm_in; eauto.
Qed.

Definition start (sb : sobol) (sizes : list Z) (l : list con) : qstate := QS sb (map nd_of l) (mk sizes (fun _ => 0)) true.

Lemma reorder_loop sizes a b cols : reordered a b -> fits sizes -> implied a sizes -> (forall c, In c a -> csmall c) ->
  (forall c, In c a -> nonneg c) -> length cols = length sizes -> Forall valid_directions cols ->
  forall n sb v s, view_of cols v sb ->
  foldM (fun (_ : unit) s => qis_step (length sizes) (map c_dims a) s) (repeat tt n) (start sb sizes a) = Ok s ->
  exists s', foldM (fun (_ : unit) s => qis_step (length sizes) (map c_dims b) s) (repeat tt n) (start sb sizes b) = Ok s' /\ q_arr s' = q_arr s.
Proof.
  intros H. induction H as [l|a b d He Hre IH]; intros Hf Himp Hsm Hnn Hc Hdir n sb v s Hv E.
  - exists s. auto.
  - pose proof (exchanged_perm a b He) as Hp.
    assert (implied b sizes) as Himp' by now apply (implied_perm a).
    assert (forall c, In c b -> csmall c) as Hsm' by (intros c Hin; apply Hsm; eapply perm_in; eauto).
    assert (forall c, In c b -> nonneg c) as Hnn' by (intros c Hin; apply Hnn; eapply perm_in; eauto).
    destruct He as (pre & c & c' & post & -> & -> & Hcom).
    destruct (swap_loop sizes Hf pre c c' post Hsm Himp Hnn Hsm' Himp' Hnn' Hcom cols Hc Hdir n 0 _ (start sb sizes (pre ++ c' :: c :: post)) s ltac:(lia)
      (tied_start _ _ sizes cols Hc sb sb v v Hv Hv eq_refl) E) as (s1 & E1 & Ea1).
    destruct (IH Hf Himp' Hsm' Hnn' Hc Hdir n sb v s1 Hv E1) as (s2 & E2 & Ea2). exists s2. split; auto. congruence.
Qed.

(** a population loop depends on the generator only through the points it will produce *)
Lemma view_loop sizes l cols : fits sizes -> implied l sizes -> (forall c, In c l -> csmall c) ->
  (forall c, In c l -> nonneg c) -> length cols = length sizes -> Forall valid_directions cols ->
  forall n sb sb' v v' s, view_of cols v sb -> view_of cols v' sb' -> v_n v = v_n v' ->
  foldM (fun (_ : unit) s => qis_step (length sizes) (map c_dims l) s) (repeat tt n) (start sb sizes l) = Ok s ->
  exists s', foldM (fun (_ : unit) s => qis_step (length sizes) (map c_dims l) s) (repeat tt n) (start sb' sizes l) = Ok s' /\ q_arr s' = q_arr s.
Proof.
  intros Hf Himp Hsm Hnn Hc Hdir n sb sb' v v' s Hv Hv' Hn E.
  eapply (tied_loop l l sizes Hsm Himp Hnn Hsm Himp Hnn Hf cols Hc Hdir (adds_refl sizes l []) n 0); [lia| |exact E].
  apply (tied_start l l sizes cols Hc sb sb' v v' Hv Hv' Hn).
Qed.

Lemma valid_code_perm a b sizes : Permutation a b -> (forall c, In c a -> csmall c) -> (forall c c', In c a -> In c' a -> c_total c = c_total c') ->
  valid_code a sizes -> valid_code b sizes.
Proof.
  intros H Hsm Htot (Hl & Himp & Hd & Hnn & Hp & Hag). unfold valid_code.
  split; [rewrite <- (Permutation_length H); auto|]. split; [now apply (implied_perm a)|]. split; auto.
  split; [intros c Hc; apply Hnn; eapply perm_in; eauto|].
  split; [intros c c' Hc Hc'; rewrite (Htot c c') by (eapply perm_in; eauto); apply Hp; eapply perm_in; eauto|].
  intros c c' j j' d v Hc Hc'. apply Hag; eapply perm_in; eauto.
Qed.

Lemma reorder_claim L fuel ilist mlist ilist' mlist' skips res :
  in_range ilist mlist -> vectors ilist' mlist' -> in_range ilist' mlist' -> py_qis L fuel ilist mlist skips = Ok res ->
  reordered (cons_of ilist mlist) (cons_of ilist' mlist') -> (32 <= fuel)%nat ->
  exists res', py_qis L fuel ilist' mlist' skips = Ok res' /\ qr_pop_array res' = qr_pop_array res /\ qr_pop res' = qr_pop res /\
    qr_conv res' = qr_conv res /\ qr_degeneracy res' = qr_degeneracy res.
Proof.
  intros Hr Hvec' Hr' E Hre Hfuel. pose proof (reordered_perm _ _ Hre) as Hperm.
  assert (forall c, In c (cons_of ilist mlist) -> csmall c) as Hsm by (intros c; now apply range_small).
  destruct (qis_cases L fuel ilist mlist skips Hr) as [[(e & E') _]|(Hv & sizes & Hvc & Hf & H)]; [congruence|].
  cbv zeta in H. destruct H as [(_ & e & E')|[(E' & _)|(Hu & Hd & cols & sb & v & Hlc & Hdir & Htab & Hvw & Hvn & H)]]; try congruence.
  destruct H as [(e & _ & E')|(s & r & El & Ea & Hc & Hcv & Hp & Ht & E')]; [congruence|].
  set (cs := cons_of ilist mlist) in *. set (cs' := cons_of ilist' mlist') in *. set (pop := pop_of (c_total (hd con0 cs))) in *.
  rewrite E in E'. injection E' as Eres.
  assert (qr_pop res = pop /\ qr_conv res = q_conv s /\ qr_pop_array res = NDA sizes (map r (all_indices sizes)) /\ qr_degeneracy res = deg_val L sizes r)
    as (Epop & Ecv & Earr & Edeg) by (rewrite Eres; auto). clear Eres. rewrite Epop, Ecv, Earr, Edeg.
  pose proof Hvc as (Hl2 & Himp & Hd2 & Hnn & _).
  assert (valid_code cs' sizes) as Hvc0.
  { apply (valid_code_perm cs); auto. intros c c' H1 H2. rewrite (Ht c), (Ht c') by auto. reflexivity. }
  assert (forall c, In c cs' -> c_total c = pop) as Htot' by (intros c Hin; apply Ht; eapply perm_in; eauto).
  destruct (qis_cases L fuel ilist' mlist' skips Hr') as [[_ Hno]|(_ & sizes' & Hvc' & Hf' & H)].
  { exfalso. eapply Hno; eauto. }
  fold cs' in Hvc', H. pose proof Hvc' as (Hl2' & Himp' & _ & Hnn' & _). pose proof Hvc0 as (_ & Himp0 & _).
  assert (sizes' = sizes) as -> by (eapply implied_unique; eauto).
  cbv zeta in H. destruct H as [(Hd' & _)|[(_ & [Hf''|Hs'])|(_ & _ & cols' & sb' & v' & Hlc' & Hdir' & Htab' & Hvw' & Hvn' & H)]]; try lia.
  assert (cols' = cols) as -> by (eapply table_unique; eauto).
  assert (0 <= pop) as Hp0.
  { destruct Hc as [H1 H2]. fold cs pop in H2. rewrite <- H2. now apply total_nonneg. }
  assert (pop_of (c_total (hd con0 cs')) = pop) as Ep'.
  { rewrite Htot' by (destruct cs'; [simpl in Hl2'; lia|now left]). apply pop_of_small. lia. }
  rewrite Ep' in H. unfold repeatM in El.
  destruct (view_loop sizes cs cols Hf Himp Hsm Hnn Hlc Hdir (Z.to_nat pop) sb sb' v v' s Hvw Hvw' ltac:(congruence) El) as (s1 & El1 & Ea1).
  destruct (reorder_loop sizes cs cs' cols Hre Hf Himp Hsm Hnn Hlc Hdir (Z.to_nat pop) sb' v' s1 Hvw' El1) as (s' & El' & Ea').
  unfold repeatM in H. unfold start in El'.
  destruct H as [(e & El'' & _)|(s2 & r' & El'' & Ea2 & Hc' & Hcv' & _ & _ & E'')]; [congruence|].
  assert (s2 = s') as -> by congruence. clear El''.
  assert (forall i, index_in sizes i -> r' i = r i) as Hrr.
  { intros i Hi. rewrite Ea', Ea1, Ea in Ea2. symmetry. apply (mk_inj sizes _ _ Hf Ea2 i Hi). }
  eexists. split; [exact E''|]. cbn [qr_pop_array qr_pop qr_conv qr_degeneracy]. split.
  { f_equal. apply map_ext_in. intros i Hi. apply Hrr. now apply in_all_indices. }
  split; [reflexivity|]. split.
  { assert (q_conv s' = true <-> q_conv s = true) as Hiff.
    { rewrite Hcv', Hcv, (left_ok_meets cs' sizes Himp' r' pop), (left_ok_meets cs sizes Himp r pop) by auto.
      split; intros H c Hin k Hk.
      - rewrite <- (H c (Permutation_in c Hperm Hin) k Hk). apply margin_ext. intros i Hi. symmetry. auto.
      - rewrite <- (H c (perm_in cs cs' c Hperm Hin) k Hk). apply margin_ext. auto. }
    destruct (q_conv s'), (q_conv s); auto; [symmetry|]; apply Hiff; reflexivity. }
  unfold deg_val. f_equal. generalize (d_ofZ (prodZ sizes), d_one).
  assert (forall i, In i (all_indices sizes) -> index_in sizes i) as Hall by (intros i Hi; now apply in_all_indices). revert Hall.
  generalize (all_indices sizes). induction l as [|i l IHl]; intros Hall p; cbn [fold_left]; auto.
  rewrite (Hrr i) by (apply Hall; now left). apply IHl. intros j Hj. apply Hall. now right.
Qed.

(** * Marginals that share no dimension *)
Lemma no_sharing_perm a b : Permutation a b -> no_sharing a -> no_sharing b.
Proof.
  unfold no_sharing. induction 1 as [|x l l' Hp IH|x y l|l l' l'' H1 IH1 H2 IH2]; intros H; auto.
  - inversion H as [|? ? Hf Ho]; subst. constructor; auto. rewrite Forall_forall in *. intros c Hc. apply Hf. eapply perm_in; eauto.
  - inversion H as [|? ? Hf Ho]; subst. inversion Ho as [|? ? Hf' Ho']; subst. inversion Hf as [|? ? Hxy Hf'']; subst.
    constructor; [constructor; auto; intros d Hd Hd'; eapply Hxy; eauto|]. constructor; auto.
Qed.

Lemma exchanged_cons x a b : exchanged a b -> exchanged (x :: a) (x :: b).
Proof.
  intros (pre & c & c' & post & -> & -> & H). exists (x :: pre), c, c', post. split; [reflexivity|]. split; [reflexivity|].
  intros d Hd Hd'. destruct (H d Hd Hd') as (b & Hb & Hdb). exists b. split; [now right|auto].
Qed.
Lemma reordered_cons x a b : reordered a b -> reordered (x :: a) (x :: b).
Proof. induction 1; [apply re_refl|]. eapply re_step; [apply exchanged_cons; eassumption|auto]. Qed.
Lemma reordered_trans a b c : reordered a b -> reordered b c -> reordered a c.
Proof. induction 1; intros H2; auto. eapply re_step; eauto. Qed.

Lemma no_sharing_reordered a b : Permutation a b -> no_sharing a -> reordered a b.
Proof.
  induction 1 as [|x l l' Hp IH|x y l|l l' l'' H1 IH1 H2 IH2]; intros H.
  - apply re_refl.
  - apply reordered_cons. apply IH. now inversion H.
  - eapply re_step; [|apply re_refl]. exists [], y, x, l. split; [reflexivity|]. split; [reflexivity|]. intros d Hd Hd'. exfalso.
    inversion H as [|? ? Hf Ho]; subst. inversion Hf as [|? ? Hxy Hf'']; subst. eapply Hxy; eauto.
  - eapply reordered_trans; [now apply IH1|]. apply IH2. now apply (no_sharing_perm l l').
Qed.

Lemma cons_perm ilist mlist ilist' mlist' : Permutation (combine ilist mlist) (combine ilist' mlist') ->
  Permutation (cons_of ilist mlist) (cons_of ilist' mlist').
Proof. intros H. unfold cons_of. now apply Permutation_map. Qed.

Lemma no_sharing_claim L fuel ilist mlist ilist' mlist' skips res :
  in_range ilist mlist -> vectors ilist' mlist' -> in_range ilist' mlist' -> py_qis L fuel ilist mlist skips = Ok res ->
  no_sharing (cons_of ilist mlist) -> Permutation (combine ilist mlist) (combine ilist' mlist') -> (32 <= fuel)%nat ->
  exists res', py_qis L fuel ilist' mlist' skips = Ok res' /\ qr_pop_array res' = qr_pop_array res /\ qr_pop res' = qr_pop res /\
    qr_conv res' = qr_conv res /\ qr_degeneracy res' = qr_degeneracy res.
Proof.
  intros Hr Hv' Hr' E Hns Hp Hf. apply (reorder_claim L fuel ilist mlist); auto. apply no_sharing_reordered; auto. now apply cons_perm.
Qed.

(** * Examples *)
Definition exSt_i : list (ndarray Z) := [ind1 [0; 1]; ind1 [1; 2]; ind1 [1; 3]].
Definition exSt_m : list (ndarray Z) := [NDA [2; 2] [1; 2; 3; 4]; NDA [2; 2] [2; 2; 3; 3]; NDA [2; 2] [1; 3; 4; 2]].
Definition exSt_i' : list (ndarray Z) := [ind1 [0; 1]; ind1 [1; 3]; ind1 [1; 2]].
Definition exSt_m' : list (ndarray Z) := [NDA [2; 2] [1; 2; 3; 4]; NDA [2; 2] [1; 3; 4; 2]; NDA [2; 2] [2; 2; 3; 3]].

Lemma exSt_range : in_range exSt_i exSt_m. Proof. apply (in_range_by _ _ [2; 2; 2; 2]); vm_compute; reflexivity. Qed.
Lemma exSt_range' : in_range exSt_i' exSt_m'. Proof. apply (in_range_by _ _ [2; 2; 2; 2]); vm_compute; reflexivity. Qed.
Lemma exSt_run : outline (py_qis L0 40 exSt_i exSt_m 0) =
  Some (true, [2; 2; 2; 2], [0; 1; 0; 0; 0; 1; 0; 1; 0; 1; 1; 1; 2; 0; 2; 0], 10).
Proof. vm_compute. reflexivity. Qed.

Lemma exSt_ex : exists res, in_range exSt_i exSt_m /\ vectors exSt_i' exSt_m' /\ in_range exSt_i' exSt_m' /\
  py_qis L0 40 exSt_i exSt_m 0 = Ok res /\ flat (qr_pop_array res) = [0; 1; 0; 0; 0; 1; 0; 1; 0; 1; 1; 1; 2; 0; 2; 0] /\
  reordered (cons_of exSt_i exSt_m) (cons_of exSt_i' exSt_m') /\ cons_of exSt_i exSt_m <> cons_of exSt_i' exSt_m'.
Proof.
  pose proof exSt_run as X. destruct (py_qis L0 40 exSt_i exSt_m 0) as [res|e|w|] eqn:E; try discriminate X. cbn [outline] in X.
  assert (flat (qr_pop_array res) = [0; 1; 0; 0; 0; 1; 0; 1; 0; 1; 1; 1; 2; 0; 2; 0]) as Ef by (injection X; auto).
  exists res. split; [exact exSt_range|]. split; [split; [reflexivity|repeat constructor]|]. split; [exact exSt_range'|].
  split; [reflexivity|]. split; [exact Ef|]. split.
  - unfold cons_of, exSt_i, exSt_m, exSt_i', exSt_m'. cbn [combine map fst snd]. eapply re_step; [|apply re_refl].
    eexists [_], _, _, []. split; [reflexivity|]. split; [reflexivity|]. intros d Hd Hd'. eexists. split; [now left|].
    simpl in *. intuition lia.
  - intros Eq. apply (f_equal (map c_dims)) in Eq. vm_compute in Eq. discriminate.
Qed.

Definition exFree_i : list (ndarray Z) := [ind1 [0; 2]; ind1 [1]; ind1 [3]].
Definition exFree_m : list (ndarray Z) := [NDA [2; 2] [1; 2; 3; 4]; NDA [3] [2; 5; 3]; NDA [2] [4; 6]].
Definition exFree_i' : list (ndarray Z) := [ind1 [3]; ind1 [0; 2]; ind1 [1]].
Definition exFree_m' : list (ndarray Z) := [NDA [2] [4; 6]; NDA [2; 2] [1; 2; 3; 4]; NDA [3] [2; 5; 3]].
Lemma exFree_range : in_range exFree_i exFree_m. Proof. apply (in_range_by _ _ [2; 3; 2; 2]); vm_compute; reflexivity. Qed.
Lemma exFree_range' : in_range exFree_i' exFree_m'. Proof. apply (in_range_by _ _ [2; 3; 2; 2]); vm_compute; reflexivity. Qed.
Lemma exFree_run : match outline (py_qis L0 40 exFree_i exFree_m 0) with Some (b, z, _, p) => Some (b, z, p) | None => None end = Some (true, [2; 3; 2; 2], 10).
Proof. vm_compute. reflexivity. Qed.
Lemma exFree_ex : exists res, in_range exFree_i exFree_m /\ vectors exFree_i' exFree_m' /\ in_range exFree_i' exFree_m' /\
  py_qis L0 40 exFree_i exFree_m 0 = Ok res /\ qr_pop res = 10 /\
  no_sharing (cons_of exFree_i exFree_m) /\ Permutation (combine exFree_i exFree_m) (combine exFree_i' exFree_m').
Proof.
  pose proof exFree_run as X. destruct (py_qis L0 40 exFree_i exFree_m 0) as [res|e|w|] eqn:E; try discriminate X. cbn [outline] in X.
  assert (qr_pop res = 10) as Ep by (injection X; auto).
  exists res. split; [exact exFree_range|]. split; [split; [reflexivity|repeat constructor]|]. split; [exact exFree_range'|].
  split; [reflexivity|]. split; [exact Ep|]. split.
  - unfold no_sharing, cons_of, exFree_i, exFree_m. cbn [combine map fst snd].
    repeat constructor; simpl; intros; lia.
  - unfold exFree_i, exFree_m, exFree_i', exFree_m'. cbn [combine].
    apply Permutation_sym. apply (Permutation_cons_app [_; _] []). apply Permutation_refl.
Qed.

(** two marginals sharing a dimension, exchanged *)
Definition exPair_i : list (ndarray Z) := [ind1 [0; 1]; ind1 [1; 2]].
Definition exPair_m : list (ndarray Z) := [NDA [2; 2] [4; 2; 3; 5]; NDA [2; 2] [1; 6; 5; 2]].
Definition exPair_i' : list (ndarray Z) := [ind1 [1; 2]; ind1 [0; 1]].
Definition exPair_m' : list (ndarray Z) := [NDA [2; 2] [1; 6; 5; 2]; NDA [2; 2] [4; 2; 3; 5]].
Lemma exPair_range : in_range exPair_i exPair_m. Proof. apply (in_range_by _ _ [2; 2; 2]); vm_compute; reflexivity. Qed.
Lemma exPair_range' : in_range exPair_i' exPair_m'. Proof. apply (in_range_by _ _ [2; 2; 2]); vm_compute; reflexivity. Qed.
Lemma exPair_run : outline (py_qis L0 40 exPair_i exPair_m 0) = Some (true, [2; 2; 2], [1; 3; 1; 1; 0; 3; 4; 1], 14).
Proof. vm_compute. reflexivity. Qed.
Lemma exPair_run' : outline (py_qis L0 40 exPair_i' exPair_m' 0) = Some (true, [2; 2; 2], [0; 4; 2; 0; 1; 2; 3; 2], 14).
Proof. vm_compute. reflexivity. Qed.
Lemma reorder_refute : exists ilist mlist ilist' mlist' res res', in_range ilist mlist /\ in_range ilist' mlist' /\
  vectors ilist mlist /\ valid (cons_of ilist mlist) /\ share_at_most_one (cons_of ilist mlist) /\
  Permutation (combine ilist mlist) (combine ilist' mlist') /\
  py_qis L0 40 ilist mlist 0 = Ok res /\ py_qis L0 40 ilist' mlist' 0 = Ok res' /\ qr_conv res = true /\ qr_conv res' = true /\
  flat (qr_pop_array res') <> flat (qr_pop_array res).
Proof.
  exists exPair_i, exPair_m, exPair_i', exPair_m'. pose proof exPair_run as X. pose proof exPair_run' as X'.
  destruct (py_qis L0 40 exPair_i exPair_m 0) as [res|e|w|] eqn:E; try discriminate X.
  destruct (py_qis L0 40 exPair_i' exPair_m' 0) as [res'|e|w|] eqn:E'; try discriminate X'.
  cbn [outline] in X, X'. exists res, res'.
  assert (qr_conv res = true /\ flat (qr_pop_array res) = [1; 3; 1; 1; 0; 3; 4; 1]) as (Ec & Ef) by (injection X; auto).
  assert (qr_conv res' = true /\ flat (qr_pop_array res') = [0; 4; 2; 0; 1; 2; 3; 2]) as (Ec' & Ef') by (injection X'; auto).
  destruct (valid_by exPair_i exPair_m exPair_range) as [Hv1 Hv2]; [vm_compute; reflexivity|vm_compute; reflexivity|].
  split; [exact exPair_range|]. split; [exact exPair_range'|]. split; [exact Hv1|]. split; [exact Hv2|]. split.
  { unfold share_at_most_one, cons_of, exPair_i, exPair_m. cbn [combine map fst snd]. split.
    - intros c [<-|[<-|[]]]; simpl; repeat constructor; simpl; intuition lia.
    - intros pre c post d d' Eq Hd Hd' (b & Hb & Hdb) (b' & Hb' & Hdb').
      destruct pre as [|x [|y pre]].
      + destruct Hb.
      + injection Eq as <- <- _. destruct Hb as [<-|[]]. destruct Hb' as [<-|[]]. simpl in *. intuition lia.
      + injection Eq as _ _ Eq. destruct pre; discriminate. }
  split; [unfold exPair_i, exPair_m, exPair_i', exPair_m'; cbn [combine]; apply perm_swap|].
  split; [reflexivity|]. split; [reflexivity|]. split; [exact Ec|]. split; [exact Ec'|]. rewrite Ef, Ef'. discriminate.
Qed.
