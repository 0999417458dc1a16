(** C18 and C39: the entry points leave the caller's memory as it was, and use no freed buffer but for ipf with converted
    marginals. *)
From Verif Require Import Base Spec SpecFacts NDArray IndexProofs Float64 ArrayOps Bind Sobol Micro Stat Qis Ipf Qisi Integerise Lifetime LifetimeSpec LifetimeProofs.
Open Scope Z_scope.

Lemma bind_ok {A B} (x : outcome A) (f : A -> outcome B) b : bind x f = Ok b -> exists a, x = Ok a /\ f a = Ok b.
Proof. destruct x; cbn; try discriminate. eauto. Qed.

Lemma bind_Ok {A B} (a : A) (f : A -> outcome B) : bind (Ok a) f = f a.
Proof. reflexivity. Qed.

(** * One iteration keeps the headers of the marginals *)

Lemma headers_refl (l : list (nd Z)) : Forall2 same_header l l.
Proof. induction l; constructor; auto. repeat split. Qed.
Lemma headers_trans (a b c : list (nd Z)) : Forall2 same_header a b -> Forall2 same_header b c -> Forall2 same_header a c.
Proof.
  intros H. revert c. induction H as [|x y l l' Hxy Hl IH]; intros c Hc; inversion Hc; subst; constructor; auto.
  unfold same_header in *. intuition congruence.
Qed.
Lemma headers_upd (l : list (nd Z)) k a a' : nth_error l k = Some a -> same_header a a' -> Forall2 same_header l (upd l k a').
Proof.
  revert k. induction l as [|x l IH]; intros [|k] E Hs; simpl in *; try discriminate.
  - injection E as ->. constructor; auto. apply headers_refl.
  - constructor; auto. repeat split.
Qed.

Lemma decrement_headers indices main margs conv margs' conv' : decrement indices main margs conv = Ok (margs', conv') -> Forall2 same_header margs margs'.
Proof.
  unfold decrement. generalize (numbered 0 indices) as l. intros l. revert margs conv. induction l as [|[k ix] l IH]; intros margs conv E; cbn [foldM] in E.
  - injection E as <- <-. apply headers_refl.
  - apply bind_ok in E as ([m1 c1] & E1 & E2). apply IH in E2. eapply headers_trans; [|exact E2]. clear E2 IH.
    apply bind_ok in E1 as (a & Ea & E1). apply bind_ok in E1 as (idx & _ & E1). apply bind_ok in E1 as (x & _ & E1).
    apply bind_ok in E1 as (x' & _ & E1). apply bind_ok in E1 as (a' & Es & E1). apply bind_ok in E1 as (m2 & Em & E1).
    apply bind_ok in E1 as (y & _ & E1). injection E1 as <- _. unfold vec_get in Ea. destruct (0 <=? k); [|discriminate].
    destruct (nth_error margs (Z.to_nat k)) as [a0|] eqn:En; [|discriminate]. injection Ea as ->.
    unfold vec_set in Em. destruct (_ && _); [|discriminate]. injection Em as <-. eapply headers_upd; [exact En|].
    unfold nd_set in Es. destruct (nd_offset a idx); try discriminate. cbn [bind] in Es. destruct (_ <? _); [|discriminate]. injection Es as <-. repeat split.
Qed.

Lemma qis_step_headers dim indices s s' : qis_step dim indices s = Ok s' -> Forall2 same_header (q_margs s) (q_margs s').
Proof.
  unfold qis_step. intros E. apply bind_ok in E as ([sb seq] & _ & E). apply bind_ok in E as (main & _ & E).
  destruct (existsb _ main); [discriminate|]. apply bind_ok in E as ([margs conv] & E1 & E). apply bind_ok in E as (arr & _ & E). injection E as <-.
  exact (decrement_headers _ _ _ _ _ _ E1).
Qed.
Lemma qisi_step_headers fuel indices seed s s' : qisi_step fuel indices seed s = Ok s' -> Forall2 same_header (i_margs s) (i_margs s').
Proof.
  unfold qisi_step. intros E. apply bind_ok in E as ([sb seq] & _ & E). apply bind_ok in E as (main & _ & E). apply bind_ok in E as (arr & _ & E).
  apply bind_ok in E as ([margs conv] & E1 & E). apply bind_ok in E as (x & _ & E). apply bind_ok in E as (sol & _ & E). apply bind_ok in E as (y & _ & E).
  apply bind_ok in E as (sol' & _ & E). injection E as <-. exact (decrement_headers _ _ _ _ _ _ E1).
Qed.

(** * The loop in memory *)

Lemma steps_mem_spec {S} (get : S -> list (nd Z)) (put : list (nd Z) -> S -> S) (step : S -> outcome S) n hs g :
  (forall m s, get (put m s) = m) -> (forall s, put (get s) s = s) -> (forall s s', step s = Ok s' -> Forall2 same_header (get s) (get s')) ->
  length g = n ->
  forall k s vs ext, owned n ext hs vs ->
  match foldM (fun _ s => step s) (repeat tt k) (put vs s) with
  | Ok s' => exists ext', steps_mem get put step hs k s (g ++ ext) = (g ++ ext', Ok s') /\ owned n ext' hs (get s')
  | Throw e => exists ext' vs', steps_mem get put step hs k s (g ++ ext) = (g ++ ext', Throw e) /\ owned n ext' hs vs'
  | UB w => snd (steps_mem get put step hs k s (g ++ ext)) = UB w
  | Diverge => snd (steps_mem get put step hs k s (g ++ ext)) = Diverge
  end.
Proof.
  intros Hgp Hpg Hst Hg. induction k as [|k IH]; intros s vs ext Ho; cbn [repeat foldM steps_mem].
  - rewrite (owned_load _ _ _ _ Ho) by auto. exists ext. rewrite Hgp. auto.
  - rewrite (owned_load _ _ _ _ Ho) by auto. destruct (step (put vs s)) as [s1|e|w|] eqn:E; cbn [bind]; eauto.
    pose proof (Hst _ _ E) as Hh. rewrite Hgp in Hh. destruct (owned_store _ _ _ _ Ho _ g Hh Hg) as (ext1 & E1 & Ho1). rewrite E1.
    specialize (IH s1 (get s1) ext1 Ho1). rewrite Hpg in IH. exact IH.
Qed.

Lemma snd_pair {A B} (x : A * B) y : snd x = y -> exists z, x = (z, y).
Proof. destruct x as [a b]. cbn. intros <-. eauto. Qed.

Lemma combine_value h (ilist : list (ndarray Z)) (mlist : list (pyarg Z)) :
  combine ilist (map (value h) mlist) = map (fun p => (fst p, value h (snd p))) (combine ilist mlist).
Proof. revert mlist. induction ilist as [|i l IH]; intros [|m ml]; cbn; auto. now f_equal. Qed.
Lemma combine_held {T} (h : mem T) (ilist : list (ndarray Z)) (mlist : list (pyarg T)) : Forall (held h) mlist -> Forall (fun p => held h (snd p)) (combine ilist mlist).
Proof. intros H. apply Forall_forall. intros [i m] Hin. apply in_combine_r in Hin. cbn. rewrite Forall_forall in H. auto. Qed.

(** * qis *)

Lemma qis_mem_claim L fuel ilist mlist skips (h : mem Z) : Forall (held h) mlist ->
  faithful h (qis_mem L fuel ilist mlist skips h) (py_qis L fuel ilist (map (value h) mlist) skips).
Proof.
  intros Hh. unfold qis_mem, py_qis, py_lists. rewrite map_length. destruct (Nat.eqb (length ilist) (length mlist)); cbn [negb bind].
  2:{ cbn. exists []. rewrite app_nil_r. auto. }
  pose proof (copy_args_spec h (combine ilist mlist) [] (combine_held _ _ _ Hh)) as Hc. rewrite !app_nil_r in Hc. cbn [app] in Hc.
  rewrite combine_value. destruct (mapM _ (map _ (combine ilist mlist))) as [ps|e|w|]; cbn [bind].
  2:{ destruct Hc as (ext & -> & Hf). cbn. eauto. }
  2:{ apply snd_pair in Hc as (h' & ->). reflexivity. }
  2:{ apply snd_pair in Hc as (h' & ->). reflexivity. }
  destruct Hc as (ext & hs & -> & Ho). cbn [bind_mem]. rewrite (owned_load _ _ _ _ Ho) by auto.
  set (indices := map fst ps). set (margs := map snd ps) in *.
  destruct (qis_new fuel indices margs skips) as [q|e|w|]; cbn [bind bind_mem].
  2:{ destruct (owned_destroy _ _ _ _ Ho h eq_refl) as (e' & -> & Hf). cbn. eauto. }
  2,3: reflexivity.
  unfold qis_solve. cbv zeta.
  destruct (nd_assign (ms_array (q_ms q)) 0) as [arr|e|w|]; cbn [bind bind_mem].
  2:{ destruct (owned_destroy _ _ _ _ Ho h eq_refl) as (e' & -> & Hf). cbn. eauto. }
  2,3: reflexivity.
  destruct (index_new (nd_sizes arr)) as [ix|e|w|]; cbn [bind bind_mem].
  2:{ destruct (owned_destroy _ _ _ _ Ho h eq_refl) as (e' & -> & Hf). cbn. eauto. }
  2,3: reflexivity.
  destruct (make_mappings (ms_indices (q_ms q)) ix) as [maps|e|w|]; cbn [bind bind_mem].
  2:{ destruct (owned_destroy _ _ _ _ Ho h eq_refl) as (e' & -> & Hf). cbn. eauto. }
  2,3: reflexivity.
  pose proof (steps_mem_spec q_margs q_put (qis_step (length (ms_sizes (q_ms q))) (ms_indices (q_ms q))) (length h) hs h
    ltac:(reflexivity) ltac:(intros []; reflexivity) ltac:(intros; eapply qis_step_headers; eauto) eq_refl
    (Z.to_nat (ms_pop (q_ms q))) (QS (q_sob q) [] arr true) margs ext Ho) as Hs.
  unfold repeatM. cbn [q_put q_sobol q_arr q_conv] in Hs. unfold q_put in Hs at 1. cbn [q_sobol q_arr q_conv] in Hs.
  destruct (foldM _ (repeat tt _) _) as [st|e|w|]; cbn [bind].
  2:{ destruct Hs as (ext' & vs' & -> & Ho'). cbn [bind]. destruct (owned_destroy _ _ _ _ Ho' h eq_refl) as (e' & -> & Hf). cbn. eauto. }
  2:{ apply snd_pair in Hs as (h' & ->). reflexivity. }
  2:{ apply snd_pair in Hs as (h' & ->). reflexivity. }
  destruct Hs as (ext' & -> & Ho'). destruct (owned_destroy _ _ _ _ Ho' h eq_refl) as (e' & -> & Hf). cbn [bind].
  assert (forall x : outcome qis_result, faithful h (h ++ e', x) x) as Hfin by (intros [| | |]; cbn; eauto).
  repeat match goal with |- context [bind ?x _] => destruct x eqn:?; cbn [bind]; try apply Hfin end.
Qed.

(** * A held argument: flatten, integerise and the seed of qisi *)

Lemma held_arg {T} (h : mem T) arg : held h arg -> exists h1 b ext, cast arg h = (h1, b) /\ drop b h1 = h ++ ext /\ Forall freed ext /\
  (let* a := as_nd_mem h1 b in Ok (load h1 a)) = as_nd (value h arg).
Proof.
  intros Hh. destruct (cast_spec h arg [] Hh) as (h1 & b & pre & Ec & Hp & Hl & Hy). rewrite app_nil_r in Ec. exists h1, b, pre.
  destruct (Hy []) as (D & S1 & C1 & _). rewrite !app_nil_r in D, S1, C1. cbn [app] in D. rewrite app_nil_r in D.
  split; [auto|]. split; [exact D|]. split; [auto|].
  unfold as_nd_mem, as_nd. rewrite S1. destruct (storage_size _); cbn [bind]; auto. destruct (compute_offs _ _); cbn [bind]; auto.
  unfold load. cbn. now rewrite C1.
Qed.

Lemma with_arg_claim {T A} (arg : pyarg T) h (f : nd T -> outcome A) : held h arg ->
  faithful h (with_arg arg h (fun h b => let* a := as_nd_mem h b in f (load h a))) (let* t := as_nd (value h arg) in f t).
Proof.
  intros Hh. destruct (held_arg h arg Hh) as (h1 & b & ext & Ec & D & Hf & <-). unfold with_arg. rewrite Ec, D.
  destruct (as_nd_mem h1 b); cbn [bind]; [destruct (f _)| | |]; cbn; eauto.
Qed.

Lemma flatten_mem_claim arg (h : mem Z) : held h arg -> faithful h (flatten_mem arg h) (flatten (value h arg)).
Proof. intros Hh. exact (with_arg_claim arg h (fun t => let* pop := index_loop (nd_sizes t) (fun i p => let* x := nd_get t i in Ok (u64 (p + x))) 0 in listify pop t 0) Hh). Qed.
Lemma integerise_mem_claim L fuel arg (h : mem double) : held h arg -> faithful h (integerise_mem L fuel arg h) (py_integerise L fuel (value h arg)).
Proof.
  intros Hh. exact (with_arg_claim arg h (fun t => let* g := integeriser_new L fuel t in let* a := from_nd (in_result g) in Ok (a, in_conv g, in_rmse g)) Hh).
Qed.

(** * qisi *)

Lemma qisi_mem_claim L fuel seed ilist mlist skips (hd : mem double) (h : mem Z) : held hd seed -> Forall (held h) mlist ->
  (exists ext, fst (qisi_mem L fuel seed ilist mlist skips hd h) = hd ++ ext /\ Forall freed ext) /\
  faithful h (snd (qisi_mem L fuel seed ilist mlist skips hd h)) (py_qisi L fuel (value hd seed) ilist (map (value h) mlist) skips).
Proof.
  intros Hs Hh. destruct (held_arg hd seed Hs) as (hd1 & sb & dext & Ec & D & Hdf & Ea). unfold qisi_mem. rewrite Ec, D. cbn [fst snd]. split; [eauto|].
  unfold py_qisi, py_lists. rewrite map_length. destruct (Nat.eqb (length ilist) (length mlist)); cbn [negb bind].
  2:{ cbn. exists []. rewrite app_nil_r. auto. }
  pose proof (copy_args_spec h (combine ilist mlist) [] (combine_held _ _ _ Hh)) as Hc. rewrite !app_nil_r in Hc. cbn [app] in Hc.
  rewrite combine_value. destruct (mapM _ (map _ (combine ilist mlist))) as [ps|e|w|]; cbn [bind].
  2:{ destruct Hc as (ext & -> & Hf). cbn. eauto. }
  2:{ apply snd_pair in Hc as (h' & ->). reflexivity. }
  2:{ apply snd_pair in Hc as (h' & ->). reflexivity. }
  destruct Hc as (ext & hs & -> & Ho). cbn [bind_mem]. rewrite (owned_load _ _ _ _ Ho) by auto.
  set (indices := map fst ps). set (margs := map snd ps) in *. cbv zeta.
  destruct (owned_destroy _ _ _ _ Ho h eq_refl) as (e0 & D0 & Hf0).
  assert (forall e, faithful h (destroy hs (h ++ ext), @Throw qis_result e) (Throw e)) as Ht by (intros e; rewrite D0; exists e0; auto).
  assert (forall w, faithful h (destroy hs (h ++ ext), @UB qis_result w) (UB w)) as Hu by (intros w; reflexivity).
  assert (faithful h (destroy hs (h ++ ext), @Diverge qis_result) Diverge) as Hd by reflexivity.
  destruct (qisi_new fuel indices margs skips) as [q|e|w|]; cbn [bind bind_mem]; [|apply Ht|apply Hu|apply Hd].
  rewrite <- Ea. destruct (as_nd_mem hd1 sb) as [sh|e|w|]; cbn [bind bind_mem]; [|apply Ht|apply Hu|apply Hd].
  unfold qisi_solve. cbv zeta.
  destruct (check_seed _ _) as [chk|e|w|]; cbn [bind bind_mem]; [|apply Ht|apply Hu|apply Hd].
  destruct (nd_new (nd_sizes (ms_array (qi_ms q)))) as [sol0|e|w|]; cbn [bind bind_mem]; [|apply Ht|apply Hu|apply Hd].
  destruct (recompute_ipf _ _ _ _ _) as [sol|e|w|]; cbn [bind bind_mem]; [|apply Ht|apply Hu|apply Hd].
  destruct (nd_copy sol _) as [ex|e|w|]; cbn [bind bind_mem]; [|apply Ht|apply Hu|apply Hd].
  destruct (index_new _) as [ix|e|w|]; cbn [bind bind_mem]; [|apply Ht|apply Hu|apply Hd].
  destruct (make_mappings _ _) as [maps|e|w|]; cbn [bind bind_mem]; [|apply Ht|apply Hu|apply Hd].
  destruct (nd_assign _ _) as [arr|e|w|]; cbn [bind bind_mem]; [|apply Ht|apply Hu|apply Hd].
  destruct (sobol_new _ _ _) as [sob|e|w|]; cbn [bind bind_mem]; [|apply Ht|apply Hu|apply Hd].
  cbn [bind_mem].
  match goal with |- context [steps_mem _ _ ?st _ ?n ?s _] =>
    pose proof (steps_mem_spec i_margs i_put st (length h) hs h
      ltac:(reflexivity) ltac:(intros []; reflexivity) ltac:(intros; eapply qisi_step_headers; eauto) eq_refl n s margs ext Ho) as Hst end.
  unfold repeatM. unfold i_put in Hst at 1. cbn [i_sobol i_main i_arr i_conv i_sol] in Hst.
  destruct (foldM _ (repeat tt _) _) as [st|e|w|]; cbn [bind].
  2:{ destruct Hst as (ext' & vs' & -> & Ho'). cbn [bind]. destruct (owned_destroy _ _ _ _ Ho' h eq_refl) as (e' & -> & Hf). cbn. eauto. }
  2:{ apply snd_pair in Hst as (h' & ->). reflexivity. }
  2:{ apply snd_pair in Hst as (h' & ->). reflexivity. }
  destruct Hst as (ext' & -> & Ho'). destruct (owned_destroy _ _ _ _ Ho' h eq_refl) as (e' & -> & Hf). cbn [bind].
  assert (forall x : outcome qis_result, faithful h (h ++ e', x) x) as Hfin by (intros [| | |]; cbn; eauto).
  repeat match goal with |- context [bind ?x _] => destruct x eqn:?; cbn [bind]; try apply Hfin end.
Qed.

(** * ipf *)

Lemma stale_shared {T} (args : list (pyarg T)) : Forall shared args -> forall vs, length vs = length args ->
  map (fun p => stale (fst p) (snd p)) (combine args vs) = vs.
Proof. induction 1 as [|[b|a] l Hs Hl IH]; intros [|v vs] E; cbn in *; try discriminate; auto; [|easy]. f_equal. auto. Qed.

Lemma mapM_length {A B} (f : A -> outcome B) l ys : mapM f l = Ok ys -> length ys = length l.
Proof.
  revert ys. induction l as [|x l IH]; intros ys E; cbn in E; [now injection E as <-|].
  apply bind_ok in E as (y & _ & E). apply bind_ok in E as (zs & Ez & E). injection E as <-. cbn. f_equal. auto.
Qed.
Lemma combine_snd {A B} (l : list A) (m : list B) : length l = length m -> map snd (combine l m) = m.
Proof. revert m. induction l as [|x l IH]; intros [|y m] E; cbn in *; try discriminate; auto. f_equal. auto. Qed.
Lemma combine_value_d (h : mem double) (ilist : list (ndarray Z)) (mlist : list (pyarg double)) :
  combine ilist (map (value h) mlist) = map (fun p => (fst p, value h (snd p))) (combine ilist mlist).
Proof. revert mlist. induction ilist as [|i l IH]; intros [|m ml]; cbn; auto. now f_equal. Qed.

(** another reference, or a converted array, changes no value *)
Lemma cast_keeps {T} (h : mem T) arg h1 b a : cast arg h = (h1, b) -> held h a -> held h1 a /\ value h1 a = value h a.
Proof.
  destruct a as [c|a]; [|cbn; auto]. intros Ec (x & E & Hr & Hc). pose proof (nth_lt _ _ _ E) as Hlt.
  assert (exists r, bk_refs x <= r /\ nth_error h1 c = Some (BK r (bk_shape x) (bk_cells x))) as (r & Hr' & E').
  { destruct arg as [d|a]; cbn [cast] in Ec; injection Ec as <- <-.
    - unfold add_refs. destruct (nth_error h d) as [z|] eqn:Ed; [|exists (bk_refs x); split; [lia|now destruct x]].
      pose proof (nth_lt _ _ _ Ed). rewrite nth_error_upd by auto. destruct (Nat.eqb_spec c d) as [->|].
      + assert (z = x) as -> by congruence. exists (bk_refs x + 1). split; [lia|auto].
      + exists (bk_refs x). split; [lia|]. rewrite E. now destruct x.
    - exists (bk_refs x). split; [lia|]. rewrite nth_error_app1, E by auto. now destruct x. }
  split; [exists (BK r (bk_shape x) (bk_cells x)); cbn; repeat split; auto; lia|]. unfold value. now rewrite E, E'.
Qed.

(** ipf after its arguments are read *)
Definition ipf_on (fuel : nat) (seed : ndarray double) (indices : list (list Z)) (margs : list (nd double)) : outcome (ipf_result double) :=
  let* ms := micro_new (T := double) DblMarg indices margs in
  let* s := as_nd seed in
  let* st := ipf_solve (DblScale (fun m => m)) DblErr fuel ms margs s in
  let* arr := from_nd (is_arr st) in
  Ok (IR arr (is_conv st) (ms_pop ms) (is_iters st) (is_max st)).
Lemma py_ipf_on fuel seed ilist mlist : py_ipf fuel seed ilist mlist = let* x := py_lists as_nd ilist mlist in ipf_on fuel seed (fst x) (snd x).
Proof. unfold py_ipf, py_ipf_gen, ipf_on. destruct (py_lists as_nd ilist mlist) as [[i m]| | |]; cbn [bind fst snd]; reflexivity. Qed.

(** what ipf computes: the function on values, with the arrays of the converted marginals stale *)
Lemma ipf_mem_spec fuel seed ilist mlist (h : mem double) : held h seed -> Forall (held h) mlist ->
  faithful h (ipf_mem fuel seed ilist mlist h)
    (let* x := py_lists as_nd ilist (map (value h) mlist) in
     ipf_on fuel (value h seed) (fst x) (map (fun p => stale (fst p) (snd p)) (combine mlist (snd x)))).
Proof.
  intros Hs Hh. destruct (cast_spec h seed [] Hs) as (h1 & sb & pre & Ec & Hp & Hl & Hy). rewrite app_nil_r in Ec. cbn [app] in Hy.
  unfold ipf_mem. rewrite Ec. unfold py_lists. rewrite map_length. destruct (Nat.eqb_spec (length ilist) (length mlist)) as [Hlen|]; cbn [negb bind].
  2:{ destruct (Hy []) as (D & _). rewrite app_nil_r in D. cbn. rewrite D. eauto. exists (pre ++ []). rewrite app_nil_r. auto. }
  assert (Forall (held h1) mlist) as Hh1 by (eapply Forall_impl; [|exact Hh]; intros a Ha; exact (proj1 (cast_keeps _ _ _ _ _ Ec Ha))).
  assert (map (value h) mlist = map (value h1) mlist) as ->.
  { apply map_ext_in. intros a Ha. rewrite Forall_forall in Hh. symmetry. exact (proj2 (cast_keeps _ _ _ _ _ Ec (Hh a Ha))). }
  pose proof (share_args_spec h1 (combine ilist mlist) [] (combine_held _ _ _ Hh1)) as Hc. rewrite app_nil_r in Hc. cbn [app] in Hc.
  rewrite combine_value_d. destruct (mapM _ (map _ (combine ilist mlist))) as [ps|e|w|]; cbn [bind].
  2:{ destruct Hc as (ext & -> & Hf). destruct (Hy ext) as (D & _). cbn. rewrite D. exists (pre ++ ext). split; auto. apply Forall_app. auto. }
  2:{ apply snd_pair in Hc as (h' & ->). reflexivity. }
  2:{ apply snd_pair in Hc as (h' & ->). reflexivity. }
  destruct Hc as (ext & hs & -> & Hf & Hld). specialize (Hld []). rewrite app_nil_r, combine_snd in Hld by auto. cbn [bind fst snd]. cbv zeta. rewrite Hld. unfold ipf_on.
  destruct (Hy ext) as (D & S1 & C1 & _). rewrite D.
  assert (forall x : outcome (ipf_result double), faithful h (h ++ pre ++ ext, x) x) as Hfin.
  { assert (Forall freed (pre ++ ext)) by (apply Forall_app; auto). intros [| | |]; cbn; eauto. }
  set (margs := map _ (combine mlist _)). destruct (micro_new DblMarg (map fst ps) margs) as [ms|e|w|]; cbn [bind]; try apply Hfin.
  unfold as_nd_mem, as_nd. rewrite S1. destruct (storage_size _) as [st|e|w|]; cbn [bind]; try apply Hfin.
  destruct (compute_offs _ _) as [os|e|w|]; cbn [bind]; try apply Hfin. unfold load at 1. cbn [h_sizes h_offs h_storage h_ptr]. rewrite C1. apply Hfin.
Qed.

Lemma py_lists_length (h : mem double) ilist mlist indices margs :
  py_lists as_nd ilist (map (value h) mlist) = Ok (indices, margs) -> length margs = length mlist.
Proof.
  unfold py_lists. rewrite map_length. destruct (Nat.eqb_spec (length ilist) (length mlist)) as [Hlen|]; cbn [negb]; [|discriminate].
  intros E. apply bind_ok in E as (l & El & E). injection E as <- <-. apply mapM_length in El. rewrite combine_length, map_length in El. rewrite map_length. lia.
Qed.

Lemma ipf_mem_claim fuel seed ilist mlist (h : mem double) : held h seed -> Forall (held h) mlist -> Forall shared mlist ->
  faithful h (ipf_mem fuel seed ilist mlist h) (py_ipf fuel (value h seed) ilist (map (value h) mlist)).
Proof.
  intros Hs Hh Hsh. pose proof (ipf_mem_spec fuel seed ilist mlist h Hs Hh) as H. rewrite py_ipf_on.
  revert H. generalize (ipf_mem fuel seed ilist mlist h) as r. generalize (ipf_on fuel (value h seed)) as f. intros f r.
  destruct (py_lists as_nd ilist (map (value h) mlist)) as [[indices margs]|e|w|] eqn:E; cbn [bind fst snd]; auto.
  rewrite stale_shared; auto. exact (py_lists_length _ _ _ _ _ E).
Qed.

(** * The read of a freed buffer in ipf *)

Lemma nth_error_repeat_none {A} n k : nth_error (repeat (@None A) n) k = None \/ nth_error (repeat (@None A) n) k = Some None.
Proof. revert k. induction n as [|n IH]; intros [|k]; cbn; auto. Qed.

Lemma nd_get_stale {T} (a : ndarray T) (v : nd T) idx x : nd_get v idx = Ok x -> exists w, nd_get (stale (Converted a) v) idx = UB w.
Proof.
  unfold nd_get. cbn [stale nd_data]. unfold nd_offset. cbn [nd_offs]. destruct (offset_from 0 (nd_offs v) idx) as [o| | |]; cbn [bind]; try discriminate.
  intros _. destruct (nth_error_repeat_none (A := T) (length (nd_data v)) (Z.to_nat o)) as [-> | ->]; eauto.
Qed.

(** the first access of the loop of min reads a freed element *)
Lemma nd_min_stale {T} (O : NumOps T) (a : ndarray T) (v : nd T) x : nd_min O v = Ok x -> exists w, nd_min O (stale (Converted a) v) = UB w.
Proof.
  unfold nd_min. cbn [stale nd_sizes]. fold (stale (Converted a) v). unfold index_loop.
  destruct (index_new (nd_sizes v)) as [ix| | |] eqn:Ei; cbn [bind]; try discriminate. unfold loop_fuel. cbn [index_loop_from].
  assert (ix_end ix = false) as ->. { unfold index_new in Ei. destruct (nd_sizes v); [discriminate|]. now injection Ei as <-. }
  destruct (nd_get v (ix_idx ix)) as [y| | |] eqn:Eg; cbn [bind]; try discriminate. intros _.
  destruct (nd_get_stale a v _ _ Eg) as (w & ->). cbn [bind]. eauto.
Qed.

Lemma collect_sizes_stale {T} (indices : list (list Z)) (args : list (pyarg T)) (vs : list (nd T)) : length vs = length args ->
  collect_sizes indices (map (fun p => stale (fst p) (snd p)) (combine args vs)) = collect_sizes indices vs.
Proof.
  unfold collect_sizes. generalize (@nil (Z * Z)). revert args vs. induction indices as [|i l IH]; intros [|a args] [|v vs] m E; cbn in *; try discriminate; auto.
  assert (nd_sizes (stale a v) = nd_sizes v) as -> by now destruct a. destruct (negb _); cbn [bind]; auto.
  destruct (foldM add_dim _ m); cbn [bind]; auto.
Qed.

Lemma min_check_stale {T} (O : NumOps T) (args : list (pyarg T)) : forall vs u u', length vs = length args -> ~ Forall shared args ->
  foldM (fun a (_ : unit) => let* v := nd_min O a in if n_ltb O v (n_zero O) then Throw (RuntimeError "negative value in marginal") else Ok tt) vs u = Ok u' ->
  exists w, foldM (fun a (_ : unit) => let* v := nd_min O a in if n_ltb O v (n_zero O) then Throw (RuntimeError "negative value in marginal") else Ok tt)
    (map (fun p => stale (fst p) (snd p)) (combine args vs)) u = UB w.
Proof.
  induction args as [|a args IH]; intros [|v vs] u u' E Hn; cbn in E; try discriminate; [now contradict Hn|].
  cbn [combine map foldM fst snd]. intros H. apply bind_ok in H as (t & Ht & H). apply bind_ok in Ht as (x & Ex & Ht).
  destruct a as [b|a].
  - cbn [stale]. rewrite Ex. cbn [bind]. rewrite Ht. cbn [bind]. eapply IH; eauto. intros Hs. apply Hn. constructor; cbn; auto.
  - destruct (nd_min_stale O a v x Ex) as (w & ->). cbn [bind]. eauto.
Qed.

Lemma ipf_mem_stale fuel seed ilist mlist (h : mem double) res : held h seed -> Forall (held h) mlist -> ~ Forall shared mlist ->
  py_ipf fuel (value h seed) ilist (map (value h) mlist) = Ok res -> exists w, snd (ipf_mem fuel seed ilist mlist h) = UB w.
Proof.
  intros Hs Hh Hn E. pose proof (ipf_mem_spec fuel seed ilist mlist h Hs Hh) as H. rewrite py_ipf_on in E.
  revert H. generalize (ipf_mem fuel seed ilist mlist h) as r. intros r.
  apply bind_ok in E as ([indices margs] & El & E). rewrite El. rewrite bind_Ok. cbn [fst snd] in E |- *. intros H. pose proof (py_lists_length _ _ _ _ _ El) as Hlen.
  unfold ipf_on in E, H. apply bind_ok in E as (ms & Em & _).
  assert (exists w, micro_new (T := double) DblMarg indices (map (fun p => stale (fst p) (snd p)) (combine mlist margs)) = UB w) as (w & Ew).
  { unfold micro_new in *. rewrite map_length, combine_length, <- Hlen, Nat.min_id. destruct (negb _ || _); [discriminate|].
    rewrite collect_sizes_stale by auto. apply bind_ok in Em as (m & -> & Em). cbn [bind]. destruct (Nat.ltb _ 2); [discriminate|].
    apply bind_ok in Em as (u & Eu & _). destruct (min_check_stale _ mlist margs tt u Hlen Hn Eu) as (w & Ew). rewrite Ew. cbn. eauto. }
  rewrite Ew in H. cbn in H. eauto.
Qed.

(** * The two halves of [faithful] *)

Lemma faithful_same {T A} (h : mem T) (r : mem T * outcome A) o : faithful h r o -> snd r = o.
Proof. destruct o; cbn; auto; intros (ext & -> & _); auto. Qed.
Lemma faithful_kept {T A} (h : mem T) (r : mem T * outcome A) o : faithful h r o -> completes (snd r) -> unchanged h (fst r).
Proof. intros H. pose proof (faithful_same _ _ _ H) as E. rewrite E. destruct o; cbn in *; try easy; destruct H as (ext & -> & Hf); intros _; exists ext; auto. Qed.

Lemma qis_kept L fuel ilist mlist skips h : Forall (held h) mlist ->
  completes (snd (qis_mem L fuel ilist mlist skips h)) -> unchanged h (fst (qis_mem L fuel ilist mlist skips h)).
Proof. intros H. exact (faithful_kept _ _ _ (qis_mem_claim L fuel ilist mlist skips h H)). Qed.
Lemma qis_reads L fuel ilist mlist skips h : Forall (held h) mlist ->
  snd (qis_mem L fuel ilist mlist skips h) = py_qis L fuel ilist (map (value h) mlist) skips.
Proof. intros H. exact (faithful_same _ _ _ (qis_mem_claim L fuel ilist mlist skips h H)). Qed.
Lemma qisi_kept L fuel seed ilist mlist skips hd h : held hd seed -> Forall (held h) mlist ->
  let r := qisi_mem L fuel seed ilist mlist skips hd h in completes (snd (snd r)) -> unchanged hd (fst r) /\ unchanged h (fst (snd r)).
Proof.
  intros Hs H r Hc. destruct (qisi_mem_claim L fuel seed ilist mlist skips hd h Hs H) as [Hd Hf]. split; [exact Hd|]. exact (faithful_kept _ _ _ Hf Hc).
Qed.
Lemma qisi_reads L fuel seed ilist mlist skips hd h : held hd seed -> Forall (held h) mlist ->
  snd (snd (qisi_mem L fuel seed ilist mlist skips hd h)) = py_qisi L fuel (value hd seed) ilist (map (value h) mlist) skips.
Proof. intros Hs H. exact (faithful_same _ _ _ (proj2 (qisi_mem_claim L fuel seed ilist mlist skips hd h Hs H))). Qed.
Lemma ipf_kept fuel seed ilist mlist h : held h seed -> Forall (held h) mlist ->
  completes (snd (ipf_mem fuel seed ilist mlist h)) -> unchanged h (fst (ipf_mem fuel seed ilist mlist h)).
Proof. intros Hs H. exact (faithful_kept _ _ _ (ipf_mem_spec fuel seed ilist mlist h Hs H)). Qed.
Lemma ipf_reads fuel seed ilist mlist h : held h seed -> Forall (held h) mlist -> Forall shared mlist ->
  snd (ipf_mem fuel seed ilist mlist h) = py_ipf fuel (value h seed) ilist (map (value h) mlist).
Proof. intros Hs H Hsh. exact (faithful_same _ _ _ (ipf_mem_claim fuel seed ilist mlist h Hs H Hsh)). Qed.
Lemma flatten_kept arg h : held h arg -> completes (snd (flatten_mem arg h)) -> unchanged h (fst (flatten_mem arg h)).
Proof. intros H. exact (faithful_kept _ _ _ (flatten_mem_claim arg h H)). Qed.
Lemma flatten_reads arg h : held h arg -> snd (flatten_mem arg h) = flatten (value h arg).
Proof. intros H. exact (faithful_same _ _ _ (flatten_mem_claim arg h H)). Qed.
Lemma integerise_kept L fuel arg h : held h arg -> completes (snd (integerise_mem L fuel arg h)) -> unchanged h (fst (integerise_mem L fuel arg h)).
Proof. intros H. exact (faithful_kept _ _ _ (integerise_mem_claim L fuel arg h H)). Qed.
Lemma integerise_reads L fuel arg h : held h arg -> snd (integerise_mem L fuel arg h) = py_integerise L fuel (value h arg).
Proof. intros H. exact (faithful_same _ _ _ (integerise_mem_claim L fuel arg h H)). Qed.
