(** Claims about ipf, for all inputs. *)
From Coq Require Import Reals Psatz.
From Flocq Require Import Core.Core IEEE754.BinarySingleNaN.
From Verif Require Import Base Spec SpecFacts NDArray IndexProofs Float64 FloatProofs FloatExt ArrayOps ArrayProofs Bind BindProofs Micro Qis
  SynthSpec MicroProofs QisProofs QisClaims Ipf IpfSpec IpfProofs MicroDbl.
Open Scope Z_scope.

(** * What a call does, for any arithmetic with total addition *)

Section Call.
Context {M T : Type} (MO : MargOps M) (SO : ScaleOps M T) (EO : ErrOps T) (madd : M -> M -> M) (add : T -> T -> T) (dm : M) (dt : T).
Hypothesis Hmadd : forall x y, n_add (mg_num MO) x y = Ok (madd x y).
Hypothesis Hpop : forall x, (exists p, mg_pop MO x = Ok p) \/ (exists w, mg_pop MO x = UB w).
Hypothesis Hadd : forall x y, n_add (sc_num SO) x y = Ok (add x y).

Lemma py_lists_gen ilist (mlist : list (ndarray M)) : g_range dm ilist mlist -> let cs := gcons_of dm ilist mlist in
  (g_vectors ilist mlist /\ py_lists as_nd ilist mlist = Ok (map g_dims cs, map gnd cs)) \/
  (~ g_vectors ilist mlist /\ exists e, py_lists as_nd ilist mlist = Throw e).
Proof.
  intros [Hm _]. unfold py_lists, g_vectors. destruct (Nat.eqb_spec (length ilist) (length mlist)) as [El|Nl]; cbn [negb].
  2:{ right. split; [tauto|eauto]. }
  assert ((Forall (fun i => length (shape i) = 1%nat) ilist /\
    mapM (fun '(i, m) => let* iv := to_vector i in let* mv := as_nd m in Ok (iv, mv)) (combine ilist mlist) =
      Ok (map (fun p => (flat (fst p), gnd (gcon_of dm (fst p) (snd p)))) (combine ilist mlist))) \/
    (~ Forall (fun i => length (shape i) = 1%nat) ilist /\ exists e,
      mapM (fun '(i, m) => let* iv := to_vector i in let* mv := as_nd m in Ok (iv, mv)) (combine ilist mlist) = Throw e)) as H.
  { revert mlist Hm El. induction ilist as [|i il IH]; intros [|m ml] Hm El; try discriminate; [left; split; [constructor|reflexivity]|].
    inversion Hm as [|? ? (Hw & Hp & _) Hm']; subst. cbn [combine mapM]. unfold to_vector at 1 3.
    destruct (Nat.eqb_spec (length (shape i)) 1) as [E1|N1]; cbn [bind].
    - rewrite (as_nd_ok dm) by auto. cbn [bind].
      destruct (IH ml Hm' ltac:(simpl in El; lia)) as [[H1 ->]|[H1 (e & ->)]]; cbn [bind].
      + left. split; [now constructor|reflexivity].
      + right. split; [|eauto]. intros H. apply H1. now inversion H.
    - right. split; [|eauto]. intros H. inversion H. tauto. }
  destruct H as [[H ->]|[H (e & ->)]]; cbn [bind].
  - left. split; auto. unfold gcons_of. now rewrite !map_map.
  - right. split; [tauto|eauto].
Qed.

Lemma range_gsmall ilist mlist : g_range dm ilist mlist -> forall c, In c (gcons_of dm ilist mlist) -> gsmall c.
Proof.
  intros [Hm _] c Hc. unfold gcons_of in Hc. apply in_map_iff in Hc as ([i m] & <- & Hin). apply in_combine_r in Hin.
  rewrite Forall_forall in Hm. destruct (Hm m Hin) as (Hw & Hp & Hl). split; auto. now apply wf_fits.
Qed.

Lemma well_indexed_of (cs : list (gcon M)) sizes c : implied (map outline cs) sizes -> In c cs -> fits (g_sizes c) -> proper (length sizes) (g_dims c) ->
  well_indexed sizes c.
Proof.
  intros [H1 H2] Hc Fc [Hn Hl]. assert (In (outline c) (map outline cs)) as Ho by now apply in_map.
  destruct (H2 _ Ho) as [E1 E2]. cbn [outline c_dims c_sizes] in E1, E2.
  split; [|split; [auto|split; [|split; [auto|now rewrite E2]]]].
  - intros E. rewrite E in E1. destruct Fc as (Hne & _). apply Hne. now destruct (g_sizes c).
  - apply Forall_forall. intros d Hd. apply H1. exists (outline c). split; auto.
Qed.

Lemma check_seed_cases s z : (s = z /\ check_seed s z = Ok tt) \/ (s <> z /\ exists e, check_seed s z = Throw e).
Proof.
  unfold check_seed. destruct (Nat.eqb_spec (length s) (length z)) as [El|Nl]; cbn [negb].
  2:{ right. split; [congruence|eauto]. }
  assert (forallb (fun '(a, b) => a =? b) (combine s z) = true <-> s = z) as Hiff.
  { revert z El. induction s as [|a s IH]; intros [|b z] El; try discriminate; [tauto|]. simpl in El. cbn [combine forallb].
    rewrite andb_true_iff, (IH z) by lia. split; [intros [E1 E2]; f_equal; [lia|auto]|intros E; inversion E; split; [lia|auto]]. }
  destruct (forallb _ _); [left; split; [now apply Hiff|auto]|right; split; [|eauto]].
  intros E. apply Hiff in E. discriminate.
Qed.

(** the validated part of a call: the constructor accepted the marginals and the seed has the implied shape *)
Definition accepted (ilist : list (ndarray Z)) (mlist : list (ndarray M)) (seed : ndarray T) (pop : Z) : Prop :=
  let cs := gcons_of dm ilist mlist in
  g_vectors ilist mlist /\ (2 <= length cs)%nat /\ (2 <= length (shape seed))%nat /\ implied (map outline cs) (shape seed) /\
  (forall c, In c cs -> neg_check MO c = false) /\ (forall c, In c cs -> mg_pop MO (gsum MO madd c) = Ok pop).

Lemma ipf_front fuel seed ilist mlist : g_range dm ilist mlist -> wf_array seed -> prodZ (shape seed) < 2 ^ 60 ->
  let cs := gcons_of dm ilist mlist in
  (exists e, py_ipf_gen MO SO EO fuel seed ilist mlist = Throw e) \/
  (exists w, py_ipf_gen MO SO EO fuel seed ilist mlist = UB w /\ bad_sum MO madd cs w) \/
  (exists pop, accepted ilist mlist seed pop /\
     py_ipf_gen MO SO EO fuel seed ilist mlist =
     let* st := ipf_solve SO EO fuel (MS (shape seed) (map g_dims cs) pop (mkp (shape seed) (fun _ => None))) (map gnd cs)
                  (mk (shape seed) (entry dt seed)) in
     let* arr := from_nd (is_arr st) in
     Ok (IR arr (is_conv st) pop (is_iters st) (is_max st))).
Proof.
  intros Hr Hw Hs cs. unfold py_ipf_gen. destruct (py_lists_gen ilist mlist Hr) as [[Hv ->]|[_ (e & ->)]]; cbn [bind]; [|left; eauto].
  fold cs. pose proof (micro_new_tri MO madd Hmadd Hpop (T := T) cs (range_gsmall _ _ Hr) (proj2 Hr)) as H.
  destruct (micro_new MO (map g_dims cs) (map gnd cs)) as [ms|e|w|]; cbn [bind]; [|left; eauto|right; left; eauto|easy].
  destruct H as (sizes & pop & Hi & Hf & Hl & Hl2 & Hn & Hp & ->). rewrite (as_nd_ok dt) by auto. cbn [bind ms_pop].
  destruct (check_seed_cases (shape seed) sizes) as [[<- Es]|[_ (e & Es)]].
  - right. right. exists pop. split; [|reflexivity]. repeat (split; [now auto|]). auto.
  - left. exists e. unfold ipf_solve. cbn [ms_array]. rewrite sizes_mk, sizes_mkp, Es. reflexivity.
Qed.

Lemma ipf_cases fuel seed ilist mlist : g_range dm ilist mlist -> all_proper dm ilist mlist -> wf_array seed -> prodZ (shape seed) < 2 ^ 60 ->
  prodZ (shape seed) < Z.of_nat fuel ->
  let cs := gcons_of dm ilist mlist in
  (exists e, py_ipf_gen MO SO EO fuel seed ilist mlist = Throw e) \/
  (exists w, py_ipf_gen MO SO EO fuel seed ilist mlist = UB w /\ bad_sum MO madd cs w) \/
  (exists pop, accepted ilist mlist seed pop /\ fits (shape seed) /\ (forall c, In c cs -> well_indexed (shape seed) c) /\
     py_ipf_gen MO SO EO fuel seed ilist mlist =
     let '(f', n') := sweeps SO EO add (shape seed) cs (Z.to_nat 1000) (entry dt seed) 0 in
     Ok (IR (NDA (shape seed) (map f' (all_indices (shape seed)))) (converged SO EO add (shape seed) cs f') pop n'
           (max_error SO EO add (shape seed) cs f'))).
Proof.
  intros Hr Hpr Hw Hs Hfu cs. destruct (ipf_front fuel seed ilist mlist Hr Hw Hs) as [H|[H|(pop & Ha & E)]]; [left; auto|right; left; auto|].
  right. right. exists pop. split; [auto|]. pose proof (wf_fits _ Hw Hs) as Hf. split; [auto|]. fold cs in E.
  pose proof Ha as (_ & _ & _ & Hi & _).
  assert (forall c, In c cs -> well_indexed (shape seed) c) as Hwi.
  { intros c Hc. apply (well_indexed_of cs); auto. now apply (range_gsmall _ _ Hr). }
  split; [auto|]. rewrite E, (ipf_solve_ok SO EO add) by auto.
  destruct (sweeps SO EO add (shape seed) cs (Z.to_nat 1000) (entry dt seed) 0) as [f' n']. cbn [bind is_arr is_conv is_iters is_max].
  rewrite from_nd_mk by now apply fits_pos. reflexivity.
Qed.

(** whatever holds before the first sweep and is kept by each sweep holds of the result; and the result was swept at
    least once *)
Lemma sweeps_inv sizes cs (P : (list Z -> T) -> Prop) : (forall f, P f -> P (sweep SO add sizes cs f)) ->
  forall left f n f' n', sweeps SO EO add sizes cs left f n = (f', n') -> P f -> P f'.
Proof.
  intros Hk. induction left as [|left IH]; intros f n f' n' E Hf; cbn [sweeps] in E; [congruence|].
  destruct (converged _ _ _ _ _ _).
  - inversion E; subst. auto.
  - eapply IH; eauto.
Qed.

Lemma sweeps_last sizes cs left f n f' n' : sweeps SO EO add sizes cs (S left) f n = (f', n') -> exists f0, f' = sweep SO add sizes cs f0.
Proof.
  intros E. cbn [sweeps] in E. destruct (converged _ _ _ _ _ _) in E; [inversion E; eauto|].
  apply (sweeps_inv sizes cs (fun f => exists f0, f = sweep SO add sizes cs f0)) in E; eauto.
Qed.

Lemma sweep_inv sizes cs (P : (list Z -> T) -> Prop) : (forall f c, In c cs -> P f -> P (step SO add sizes c f)) ->
  forall f, P f -> P (sweep SO add sizes cs f).
Proof.
  unfold sweep. intros H f Hf. revert f Hf. assert (forall c, In c cs -> In c cs) as Hin by auto. revert Hin. generalize cs at 1 3 as l.
  induction l as [|c l IH]; intros Hin f Hf; simpl; auto. apply IH; auto using in_cons. apply H; auto using in_eq.
Qed.

(** C13: the loop's accounting, with no hypothesis on the input *)
Lemma ipf_loop_count fuel indices margs : forall left arr diffs errs mx conv n st,
  ipf_loop SO EO fuel left indices margs arr diffs errs mx conv n = Ok st ->
  (match mx with Some m => conv = n_ltb (sc_num SO) m (e_tol EO) | None => conv = false end) ->
  n <= is_iters st <= n + Z.of_nat left /\ (mx = None -> n < is_iters st) /\ is_conv st = n_ltb (sc_num SO) (is_max st) (e_tol EO) /\
  (is_conv st = false -> is_iters st = n + Z.of_nat left).
Proof.
  induction left as [|left IH]; intros arr diffs errs mx conv n st E Hmx; cbn [ipf_loop] in E.
  - destruct mx as [m|]; [|discriminate]. inversion E; subst. cbn [is_iters is_conv is_max]. repeat split; try lia; auto; discriminate.
  - destruct conv.
    + destruct mx as [m|]; [|discriminate]. inversion E; subst. cbn [is_iters is_conv is_max]. repeat split; try lia; auto; discriminate.
    + destruct (rscale SO fuel indices margs arr) as [arr'| | |]; cbn [bind] in E; try discriminate.
      destruct (rdiff SO indices margs arr' diffs) as [diffs'| | |]; cbn [bind] in E; try discriminate.
      destruct (compute_errors SO EO diffs' errs) as [[[errs' m'] conv']| | |] eqn:Ee; cbn [bind] in E; try discriminate.
      assert (conv' = n_ltb (sc_num SO) m' (e_tol EO)) as Hc.
      { unfold compute_errors in Ee. destruct (foldM _ _ _) as [[? ?]| | |]; cbn [bind] in Ee; congruence. }
      destruct (IH _ _ _ _ _ _ _ E Hc) as (H1 & _ & H3 & H4). repeat split; try lia; auto. intros Hf. rewrite (H4 Hf). lia.
Qed.

Lemma ipf_count_claim fuel seed ilist mlist res : py_ipf_gen MO SO EO fuel seed ilist mlist = Ok res ->
  1 <= ir_iters res <= 1000 /\ (ir_conv res = false -> ir_iters res = 1000) /\ ir_conv res = n_ltb (sc_num SO) (ir_max res) (e_tol EO).
Proof.
  unfold py_ipf_gen. intros E. destruct (py_lists as_nd ilist mlist) as [[indices margs]| | |]; cbn [bind] in E; try discriminate.
  destruct (micro_new MO indices margs) as [ms| | |]; cbn [bind] in E; try discriminate.
  destruct (as_nd seed) as [s| | |]; cbn [bind] in E; try discriminate.
  destruct (ipf_solve SO EO fuel ms margs s) as [st| | |] eqn:Es; cbn [bind] in E; try discriminate.
  destruct (from_nd (is_arr st)) as [arr| | |]; cbn [bind] in E; try discriminate. inversion E; subst. cbn [ir_iters ir_conv ir_max].
  unfold ipf_solve in Es.
  repeat match type of Es with (let* _ := ?X in _) = _ => destruct X; cbn [bind] in Es; try discriminate end.
  apply ipf_loop_count in Es; [|reflexivity]. rewrite Z2Nat.id in Es by lia. destruct Es as (H1 & H2 & H3 & H4).
  pose proof (H2 eq_refl). repeat split; try lia; auto.
Qed.

(** C14: a constraint on every dimension *)
Lemma cover_step_diverges sizes ix (g : list Z -> M) fuel : fits sizes -> NoDup ix -> valid_dims (length sizes) ix -> length ix = length sizes ->
  forall f, prodZ sizes < Z.of_nat fuel -> rscale_step SO fuel ix (mk (proj ix sizes) g) (mk sizes f) = Diverge.
Proof.
  intros Hf Hn Hv Hl f Hfuel.
  assert (ix <> []) as Hix. { intros ->. destruct Hf as (Hne & _). simpl in Hl. now destruct sizes. }
  assert (fits (proj ix sizes)) as Fx by now apply fits_proj.
  unfold rscale_step. rewrite (greduce sizes ix Hf Hix Hn Hv SO add Hadd). cbn [bind]. rewrite sizes_mk.
  rewrite index_new_ok by now apply fits_ne. cbn [bind]. rewrite invert_ok by lia. cbn [bind].
  assert (complement (length sizes) ix = []) as ->.
  { destruct (complement (length sizes) ix) as [|d l] eqn:E; auto. exfalso.
    assert (In d (complement (length sizes) ix)) as Hd by (rewrite E; now left). apply in_complement in Hd as [Hd Hni].
    assert (incl (d :: ix) (zrange (Z.of_nat (length sizes)))) as Hinc.
    { intros x [<-|Hx]; apply in_zrange; auto. unfold valid_dims in Hv. rewrite Forall_forall in Hv. now apply Hv. }
    apply NoDup_incl_length in Hinc; [|now constructor]. rewrite length_zrange in Hinc. simpl in Hinc. lia. }
  rewrite mindex_new_ok by constructor. cbn [bind ix_idx proj map].
  set (r := gmargin sizes ix SO add f). set (cell := rscale_cell SO (mk (proj ix sizes) r) (mk (proj ix sizes) g) ix).
  assert (forall i h, index_in sizes i -> exists v, cell i (mk sizes h) = Ok (mk sizes (fupd h i v))) as Hcell.
  { intros i h Hi. unfold cell, rscale_cell. rewrite mapM_vec_get_proj by (now rewrite (index_in_length _ _ Hi)). cbn [bind].
    rewrite nd_get_mk by (auto; now apply index_in_valid_proj). cbn [bind].
    destruct (n_eqb (sc_num SO) (r (proj ix i)) (n_zero (sc_num SO))); cbn [negb].
    - rewrite nd_set_mk by auto. eauto.
    - rewrite nd_get_mk by (auto; now apply index_in_valid_proj). cbn [bind].
      rewrite nd_get_mk by auto. cbn [bind]. rewrite nd_set_mk by auto. eauto. }
  set (main := repeat 0 (length sizes)).
  assert (index_in sizes main) as Hmain by now apply zeros_in.
  assert (length main = length sizes) as Hlm by apply repeat_length.
  assert (forall h, exists h', (let* ii := mindex_new (IX main (nd_sizes (mk sizes h)) false) ix in mindex_loop fuel cell ii main (mk sizes h)) = Ok (main, mk sizes h')) as Hbody.
  { intros h. rewrite sizes_mk. unfold mindex_new. cbn [ix_idx ix_sizes ix_end].
    rewrite mapM_vec_get_proj by (rewrite ?Hlm; auto). cbn [bind]. rewrite mapM_vec_get_proj by (rewrite ?Hlm; auto). cbn [bind].
    rewrite mindex_loop_spec; auto.
    - assert (forall l h, (forall c, In c l -> index_in (proj ix sizes) c) ->
        exists h', foldM (fun ci s => cell (writes ix ci main) s) l (mk sizes h) = Ok (mk sizes h')) as G.
      { induction l as [|c l IH]; intros h0 Hc; simpl; [eauto|].
        destruct (Hcell (writes ix c main) h0) as (v & ->); [apply writes_index_in; auto; apply Hc; now left|].
        cbn [bind]. apply IH. intros. apply Hc. now right. }
      destruct (G (all_indices (proj ix sizes)) h) as (h' & ->); [intros c; apply in_all_indices|]. cbn [bind]. eauto.
    - now rewrite Hlm.
    - apply proj_length.
    - unfold main, proj. clear. induction ix as [|d l IH]; simpl; auto. f_equal; auto. apply nth_repeat.
    - pose proof (prodZ_proj_le sizes ix (fits_pos _ Hf) Hn Hv). lia. }
  assert (forall fu h, mindex_loop_m fu (fun mainv a => let* ii := mindex_new (IX mainv (nd_sizes a) false) ix in mindex_loop fuel cell ii mainv a)
     (MI [] [] false) main (mk sizes h) = Diverge) as G.
  { induction fu as [|fu IH]; intros h; [reflexivity|]. cbn [mindex_loop_m mi_end]. destruct (Hbody h) as (h' & ->). cbn [bind].
    cbn -[mindex_loop mindex_new nd_sizes]. apply IH. }
  now rewrite G.
Qed.

Definition covering (n : nat) (dims : list Z) : Prop := NoDup dims /\ length dims = n.

Lemma rscale_diverges sizes cs fuel : fits sizes -> (forall c, In c cs -> well_indexed sizes c \/
     (valid_dims (length sizes) (g_dims c) /\ covering (length sizes) (g_dims c) /\ g_sizes c = proj (g_dims c) sizes)) ->
  (exists c, In c cs /\ length (g_dims c) = length sizes) -> prodZ sizes < Z.of_nat fuel ->
  forall f, rscale SO fuel (map g_dims cs) (map gnd cs) (mk sizes f) = Diverge.
Proof.
  intros Hf Hcs Hex Hfuel f. unfold rscale. rewrite numbered_map, foldM_map.
  assert (forall l2 pre f, cs = pre ++ l2 -> (exists c, In c l2 /\ length (g_dims c) = length sizes) ->
    foldM (fun b : Z * gcon M => let '(k, ix) := (fst b, g_dims (snd b)) in
       fun arr => let* m := vec_get (map gnd cs) k in rscale_step SO fuel ix m arr)
      (numbered (Z.of_nat (length pre)) l2) (mk sizes f) = Diverge) as G.
  { induction l2 as [|c l2 IH]; intros pre f0 E (c0 & Hc0 & Hl0); [destruct Hc0|]. cbn [numbered foldM fold_left fst snd].
    rewrite (vec_get_nth_error _ _ (gnd c)).
    2:{ rewrite E, map_app, nth_error_app2; rewrite map_length; [|lia]. now rewrite Nat.sub_diag. }
    cbn [bind]. destruct (Hcs c) as [(H1 & H2 & H3 & H4 & H5)|(H1 & [H2 H3] & H5)]. { rewrite E. apply in_or_app. simpl. auto. }
    - unfold gnd. rewrite H5. rewrite rscale_step_ok with (add := add) by auto. cbn [bind].
      replace (Z.of_nat (length pre) + 1) with (Z.of_nat (length (pre ++ [c]))) by (rewrite app_length; simpl; lia).
      apply IH; [now rewrite <- app_assoc|]. destruct Hc0 as [->|Hc0]; [lia|eauto].
    - unfold gnd. rewrite H5. now rewrite cover_step_diverges. }
  now apply (G cs []).
Qed.

(** the marginals are accepted and the seed has the implied shape *)
Definition passes (ilist : list (ndarray Z)) (mlist : list (ndarray M)) (seed : ndarray T) : Prop :=
  exists ms, (let* '(indices, margs) := py_lists as_nd ilist mlist in micro_new (T := T) MO indices margs) = Ok ms /\ ms_sizes ms = shape seed.

Lemma ipf_diverges fuel seed ilist mlist : g_range dm ilist mlist -> wf_array seed -> prodZ (shape seed) < 2 ^ 60 ->
  let cs := gcons_of dm ilist mlist in passes ilist mlist seed ->
  (forall c, In c cs -> NoDup (g_dims c)) -> (exists c, In c cs /\ length (g_dims c) = length (shape seed)) ->
  prodZ (shape seed) < Z.of_nat fuel ->
  py_ipf_gen MO SO EO fuel seed ilist mlist = Diverge.
Proof.
  intros Hr Hw Hs cs (ms & Hms & Hsz) Hnd Hex Hfuel. pose proof (wf_fits _ Hw Hs) as Hf. unfold py_ipf_gen.
  destruct (py_lists_gen ilist mlist Hr) as [[Hv Hl]|[_ (e & Hl)]]; rewrite Hl in *; cbn [bind] in *; [|discriminate]. fold cs in Hms |- *.
  pose proof (micro_new_tri MO madd Hmadd Hpop (T := T) cs (range_gsmall _ _ Hr) (proj2 Hr)) as H. rewrite Hms in *. cbn [bind].
  destruct H as (sizes & pop & Hi & _ & _ & _ & _ & _ & ->). cbn [ms_sizes] in Hsz. subst sizes. rewrite (as_nd_ok dt) by auto. cbn [bind].
  - unfold ipf_solve. cbn [ms_array ms_indices]. rewrite sizes_mk, sizes_mkp, check_seed_same. cbn [bind].
    rewrite index_new_ok by now apply fits_ne. cbn [bind]. unfold make_mappings.
    pose proof Hi as [Hi1 Hi2].
    assert (forall c, In c cs -> valid_dims (length (shape seed)) (g_dims c)) as Hvd.
    { intros c Hc. apply Forall_forall. intros d Hd. apply Hi1. exists (outline c). split; auto. now apply in_map. }
    rewrite (mapM_ok _ (fun dims => MI dims (proj dims (shape seed)) false)).
    2:{ intros dims Hd. apply in_map_iff in Hd as (c & <- & Hc). apply mindex_new_ok. now apply Hvd. }
    cbn [bind]. rewrite copy_seed_ok by auto. cbn [bind].
    assert (forall l, incl l cs -> mapM (fun m : nd M => nd_new (T := T) (nd_sizes m)) (map gnd l) = Ok (map (fun c => mkp (g_sizes c) (fun _ => None)) l)) as Hnew.
    { induction l as [|c l IH]; intros Hinc; simpl; auto. rewrite nd_new_ok by (apply (range_gsmall _ _ Hr), Hinc; now left). cbn [bind].
      rewrite IH by (intros x Hx; apply Hinc; now right). reflexivity. }
    rewrite !(Hnew cs (incl_refl _)). cbn [bind]. change (Z.to_nat 1000) with (S 999). cbn [ipf_loop].
    rewrite rscale_diverges; auto. intros c Hc.
    destruct (Hi2 (outline c) (in_map _ _ _ Hc)) as [E1 E2]. cbn [outline c_dims c_sizes] in E1, E2.
    pose proof (proj1 (range_gsmall _ _ Hr c Hc)) as Fc. specialize (Hvd c Hc). specialize (Hnd c Hc).
    assert (length (g_dims c) <= length (shape seed))%nat as Hle.
    { assert (incl (g_dims c) (zrange (Z.of_nat (length (shape seed))))) as Hinc.
      { intros x Hx. apply in_zrange. unfold valid_dims in Hvd. rewrite Forall_forall in Hvd. now apply Hvd. }
      apply NoDup_incl_length in Hinc; auto. rewrite length_zrange in Hinc. lia. }
    destruct (Nat.eq_dec (length (g_dims c)) (length (shape seed))) as [Ee|Ne].
    + right. split; [auto|]. split; [now split|now rewrite E2].
    + left. apply (well_indexed_of cs); auto. split; [auto|lia].
Qed.

End Call.
