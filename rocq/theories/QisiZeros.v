(** qisi: a state that is zero in the seed is never sampled. *)
From Coq Require Import Reals Psatz.
From Flocq Require Import Core.Core IEEE754.BinarySingleNaN.
From Verif Require Import Base Spec SpecFacts NDArray IndexProofs Float64 FloatProofs FloatExt ArrayOps ArrayProofs Bind BindProofs
  SobolTable SobolSpec Sobol SobolTableProofs SobolProofs SobolClaims Micro Stat Qis SynthSpec MicroProofs PickProofs SampleProofs
  SplitProofs QisProofs StatProofs QisClaims Ipf IpfSpec IpfProofs MicroDbl IpfClaims Qisi QisiProofs QisiClaims.
Open Scope Z_scope.

(** * Picking *)

Lemma d_ofZ_nn z : 0 <= z -> nnb (d_ofZ z) = true.
Proof.
  intros Hz. unfold d_ofZ, d_lit.
  pose proof (binary_normalize_correct 53 1024 Hprec Hemax mode_NE z 0 false) as C. cbv zeta in C.
  assert (0 <= F2R (Float radix2 z 0))%R as H0 by (apply F2R_ge_0; simpl; auto).
  destruct (Rlt_bool _ _) in C.
  - destruct C as (E & F & _). apply finite_nnb; auto. rewrite E. now apply RN_nonneg.
  - rewrite Rlt_bool_false in C by auto. apply overflow_inf in C. rewrite C. reflexivity.
Qed.

Lemma unit_of_nn u : nnb (unit_of u) = true.
Proof. apply d_mul_nn; [apply d_ofZ_nn; lia|]. vm_compute. reflexivity. Qed.

Lemma add_zn x run y : zn y = true -> d_ltb x (d_add run y) = true -> d_ltb x run = true.
Proof.
  destruct y as [sy|sy| |sy my ey By]; try discriminate; intros _.
  - destruct run as [sr|sr| |sr mr er Br]; try (intros H; exact H). destruct sr, sy, x as [|[]| |[]]; cbn; auto.
  - destruct run as [sr|sr| |sr mr er Br], x as [|[]| |[]]; cbn; discriminate.
Qed.

Lemma dpick_loop_nz x j : forall dist i run, d_ltb x run = false -> dpick_loop dist x i run = Ok j ->
  i <= j /\ zn (nth (Z.to_nat (j - i)) dist d_zero) = false.
Proof.
  induction dist as [|y l IH]; intros i run Hx E; cbn [dpick_loop] in E; [discriminate|].
  destruct (d_ltb x (d_add run y)) eqn:El.
  - injection E as <-. split; [lia|]. rewrite Z.sub_diag. cbn [Z.to_nat nth]. destruct (zn y) eqn:Ey; auto.
    rewrite (add_zn x run y Ey El) in Hx. discriminate.
  - apply IH in E as [H1 H2]; auto. split; [lia|]. replace (Z.to_nat (j - i)) with (S (Z.to_nat (j - (i + 1)))) by lia. exact H2.
Qed.

Lemma dpick_nz dist u j : (forall x, In x dist -> nnb x = true) -> dpick dist (unit_of u) = Ok j ->
  zn (nth (Z.to_nat j) dist d_zero) = false.
Proof.
  intros Hd E. unfold dpick in E. apply dpick_loop_nz in E as [_ E]; [now rewrite Z.sub_0_r in E|].
  rewrite nnb_ltb, d_mul_nn; auto using unit_of_nn. apply fold_add_nn; auto.
Qed.

Lemma firstn_upd_skip {A} (l : list A) (n : nat) x y : (n < length l)%nat -> nth n l y = x -> firstn (S n) l = firstn n l ++ [x].
Proof.
  revert n. induction l as [|z l IH]; intros [|n] Hn Hx; simpl in *; try lia; [now rewrite Hx|]. now rewrite <- (IH n) by (auto; lia).
Qed.

(** the state picked has a value that is neither zero nor NaN *)
Lemma get_index_nz u : forall n s f index index', (2 <= length s)%nat -> fits s -> Z.of_nat (length index) < 2 ^ 63 ->
  length u = length index -> (length s <= length index)%nat -> (forall c, index_in s c -> nnb (f c) = true) ->
  get_index n (mk s f) u index = Ok index' ->
  length index' = length index /\ (forall k, (length s <= k)%nat -> nth k index' 0 = nth k index 0) /\
  zn (f (firstn (length s) index')) = false.
Proof.
  induction n as [|n IH]; intros s f index index' H2 Hf H63 Hu Hle Hnn E.
  all: destruct (@exists_last _ s) as (s' & k & ->); [intros ->; simpl in H2; lia|].
  all: rewrite app_length in H2, Hle; simpl in H2, Hle.
  all: assert (s' <> []) as Hne by (destruct s'; [simpl in H2; lia|discriminate]).
  all: destruct (fits_app_l s' k Hne Hf) as [Hf' Hk].
  all: assert (Z.of_nat (length (s' ++ [k])) = Z.of_nat (length s') + 1) as El by (rewrite app_length; simpl; lia).
  all: cbn [get_index] in E; rewrite sizes_mk, El in E; destruct (Z.ltb_spec 2 (Z.of_nat (length s') + 1)) as [H3|H3].
  all: try (replace (Z.of_nat (length s') + 1 - 1) with (Z.of_nat (length s')) in E by lia).
  1: { exfalso. destruct (reduce1 _ _ _); cbn [bind] in E; try discriminate. destruct (vec_get _ _); cbn [bind] in E; try discriminate.
       destruct (dpick _ _); cbn [bind] in E; try discriminate. destruct (vec_set _ _ _); cbn [bind] in E; try discriminate.
       destruct (slice _ _); cbn [bind] in E; discriminate. }
  2: { destruct (reduce1_len (s' ++ [k]) f (Z.of_nat (length s')) Hf ltac:(lia) ltac:(lia)) as (m & Er & Em). rewrite Er in E. cbn [bind] in E.
       rewrite Nat2Z.id, nth_mid in Em. rewrite (vec_get_ok _ _ 0%N) in E by lia. cbn [bind] in E.
       destruct (dpick_cases m (unit_of (nth (Z.to_nat (Z.of_nat (length s'))) u 0%N))) as [(e & Ed)|(i & Ed & Hi)]; rewrite Ed in E; cbn [bind] in E; try discriminate.
       rewrite Em in Hi. rewrite vec_set_ok in E by lia. cbn [bind] in E. rewrite Nat2Z.id in E.
       rewrite slice_last in E by (auto; lia). cbn [bind] in E.
       apply IH in E; auto; try (rewrite length_upd; auto; lia); try lia.
       2:{ intros c Hc. apply Hnn. apply Forall2_app; [exact Hc|]. repeat constructor; lia. }
       rewrite length_upd in E. destruct E as (E1 & E2 & E3). split; auto. split.
       - intros q Hq. rewrite app_length in Hq. simpl in Hq. rewrite E2 by lia. rewrite nth_upd by lia. destruct (Nat.eqb_spec q (length s')); [lia|auto].
       - rewrite app_length. simpl length. rewrite Nat.add_1_r. rewrite (firstn_upd_skip index' (length s') i 0); auto; [lia|].
         rewrite E2 by lia. rewrite nth_upd by lia. now rewrite Nat.eqb_refl. }
  all: destruct s' as [|k0 [|? ?]]; [easy| |simpl in H3; lia]; cbn [app] in *;
    destruct (reduce1_len [k0; k] f 1 Hf ltac:(simpl; lia) ltac:(lia)) as (m & Er & Em); rewrite Er in E; cbn [bind] in E;
    change (nth (Z.to_nat 1) [k0; k] 0) with k in Em; simpl length in *; rewrite (vec_get_ok _ _ 0%N) in E by lia; cbn [bind] in E;
    destruct (dpick_cases m (unit_of (nth (Z.to_nat 1) u 0%N))) as [(e & Ed)|(i & Ed & Hi)]; rewrite Ed in E; cbn [bind] in E; try discriminate;
    rewrite Em in Hi; rewrite vec_set_ok in E by lia; cbn [bind] in E;
    pose proof (slice_last [k0] k f i ltac:(discriminate) Hf ltac:(simpl; lia) Hi) as Es; cbn [app length] in Es;
    change (Z.of_nat 1) with 1 in Es; rewrite Es in E; cbn [bind] in E;
    rewrite nd_values_mk in E by auto; cbn [bind] in E; rewrite (vec_get_ok _ _ 0%N) in E by lia; cbn [bind] in E;
    match type of E with context [dpick ?d ?x] => destruct (dpick_cases d x) as [(e & Ed2)|(j & Ed2 & Hj)] end; rewrite Ed2 in E; cbn [bind] in E; try discriminate;
    rewrite map_length, length_all_indices in Hj by (apply positive_nonneg; auto); simpl prodZ in Hj;
    rewrite vec_set_ok in E by (rewrite length_upd; lia); injection E as <-.
  all: change (Z.to_nat 1) with 1%nat; change (Z.to_nat 0) with 0%nat; rewrite !length_upd; split; [reflexivity|]; split;
    [intros q Hq; rewrite !nth_upd by (rewrite ?length_upd; lia); destruct q as [|[|q]]; try lia; reflexivity|].
  all: destruct index as [|a [|b index]]; simpl in Hle; try lia; cbn [upd firstn].
  all: apply dpick_nz in Ed2; [|intros x Hx; apply in_map_iff in Hx as (c & <- & Hc); apply Hnn; apply in_all_indices in Hc;
    apply (Forall2_app (l1 := [k0]) (l2 := [k])); [exact Hc|repeat constructor; lia]].
  all: rewrite (nth_indep _ _ ((fun c => f (c ++ [i])) [0])) in Ed2 by (rewrite map_length; pose proof (length_all_indices [k0] (positive_nonneg _ (fits_pos _ Hf'))) as Hla; simpl prodZ in Hla; lia);
    rewrite (map_nth (fun c => f (c ++ [i]))) in Ed2.
  all: replace (nth (Z.to_nat j) (all_indices [k0]) [0]) with [j] in Ed2; [exact Ed2|].
  all: symmetry; apply nth_error_nth; pose proof (nth_error_all_indices [k0] [j] ltac:(repeat constructor; lia)) as Ei;
    replace (rowmajor [k0] [j]) with j in Ei by (simpl; lia); exact Ei.
Qed.

(** * The loop *)

Section Loop.
Context (cs : list con) (sizes : list Z).
Context (Hsm : forall c, In c cs -> csmall c) (Himp : implied cs sizes) (Hfit : fits sizes) (Hnn : forall c, In c cs -> nonneg c).
Context (H61 : forall c, In c cs -> c_total c < 2 ^ 61) (H2 : (2 <= length sizes)%nat) (H63 : Z.of_nat (length sizes) < 2 ^ 63).
Context (fuel : nat) (seed : list Z -> double) (Hgood : good cs sizes fuel).
Context (Hseed : forall i, index_in sizes i -> nnb (seed i) = true).

(** a state that is zero in the seed, or whose cell of some marginal is zero *)
Definition zstate_at (i : list Z) : Prop :=
  d_eqb (seed i) d_zero = true \/ exists c, In c cs /\ c_at c (proj (c_dims c) i) = 0.

(** a solution with no negative entry, and nothing but zero and NaN at the states of [P] *)
Definition zinvp (P : list Z -> Prop) (f : list Z -> double) : Prop :=
  (forall i, index_in sizes i -> nnb (f i) = true) /\ (forall i, index_in sizes i -> P i -> zn (f i) = true).
Definition zinv := zinvp zstate_at.

Lemma step_zinv P c f : well_indexed sizes c -> (forall k, index_in (g_sizes c) k -> 0 <= g_at c k) -> zinvp P f ->
  zinvp P (step (DblScale d_ofZ) d_add sizes c f).
Proof.
  intros Hw Hm [Hf Hz]. split; intros i Hi; unfold step, scaled; cbn [sc_num DblScale n_eqb n_zero DblOps sc_scale].
  - destruct (d_eqb _ d_zero) eqn:E; [reflexivity|]. apply d_mul_nn; auto. apply d_div_nn; auto.
    + apply d_ofZ_nn, Hm. destruct Hw as (_ & _ & Hv & _ & ->). now apply index_in_valid_proj.
    + apply fold_add_nn; [reflexivity|]. intros x Hx. apply in_map_iff in Hx as (j & <- & Hj). apply filter_In in Hj as [Hj _].
      apply Hf. now apply in_all_indices.
  - intros Hs. specialize (Hz i Hi Hs). destruct (d_eqb (gmargin _ _ _ _ _ _) d_zero) eqn:E; [reflexivity|]. now apply zn_mul.
Qed.

Lemma zn_mul_r x y : zn y = true -> zn (d_mul x y) = true.
Proof. destruct y as [sx|sx| |sx mx ex Bx]; try discriminate; intros _; destruct x as [sy|sy| |sy my ey By]; reflexivity. Qed.
Lemma zn_div x y : zn x = true -> zn (d_div x y) = true.
Proof. destruct x as [sx|sx| |sx mx ex Bx]; try discriminate; intros _; destruct y as [sy|sy| |sy my ey By]; reflexivity. Qed.

(** a step by a constraint makes the states of its zero cells zero or NaN *)
Lemma step_zero (c : gcon Z) f i : g_at c (proj (g_dims c) i) = 0 -> zn (step (DblScale d_ofZ) d_add sizes c f i) = true.
Proof.
  intros H. unfold step, scaled. cbn [sc_num DblScale n_eqb n_zero DblOps sc_scale]. destruct (d_eqb _ d_zero); [reflexivity|].
  rewrite H. apply zn_mul_r, zn_div. vm_compute. reflexivity.
Qed.

(** and so does a sweep *)
Lemma sweep_zero (P : list Z -> Prop) (l : list (gcon Z)) : forall f, (forall c, In c l -> well_indexed sizes c) ->
  (forall c k, In c l -> index_in (g_sizes c) k -> 0 <= g_at c k) -> zinvp P f ->
  zinvp (fun i => P i \/ exists c, In c l /\ g_at c (proj (g_dims c) i) = 0) (sweep (DblScale d_ofZ) d_add sizes l f).
Proof.
  unfold sweep. revert P. induction l as [|c l IH]; intros P f Hw Hm Hf; cbn [fold_left].
  - destruct Hf as [H1 Hf]. split; auto. intros i Hi [H|(c & [] & _)]. auto.
  - pose proof (step_zinv P c f (Hw c (or_introl eq_refl)) (fun k => Hm c k (or_introl eq_refl)) Hf) as [S1 S2].
    destruct (IH (fun i => P i \/ g_at c (proj (g_dims c) i) = 0) (step (DblScale d_ofZ) d_add sizes c f)) as [R1 R2].
    { intros. apply Hw. now right. } { intros. apply Hm; auto. now right. }
    { split; auto. intros i Hi [H|H]; auto. now apply step_zero. }
    split; auto. intros i Hi H. apply R2; auto. destruct H as [H|(c' & [<-|Hc'] & H)]; [auto|auto|]. right. eauto.
Qed.

Lemma recompute_zinv r t h a : (forall i, index_in sizes i -> zstate_at i -> r i = 0) -> counts sizes t r -> t < 2 ^ 32 ->
  recompute_ipf fuel (map c_dims cs) (rems cs sizes r) (mk sizes seed) (mkp sizes h) = Ok a -> exists f, a = mk sizes f /\ zinv f.
Proof.
  intros Hr0 Hc Hb E. unfold recompute_ipf in E.
  assert (rems cs sizes r = map nd_of (map (rcon sizes r) cs)) as Em by (unfold rems; now rewrite map_map).
  assert (map c_dims cs = map c_dims (map (rcon sizes r) cs)) as Ed by now rewrite map_map.
  destruct (micro_new_spec (T := double) (map (rcon sizes r) cs)) as [(s & Hv & E1)|[_ (e & E1)]].
  { intros c Hin. apply in_map_iff in Hin as (c' & <- & Hin). now apply (rcon_small cs sizes Hsm Himp Hnn H61 H2 r t). }
  { intros s Hs. apply implied_rcon in Hs. rewrite (implied_unique _ _ _ Hs Himp). now apply fits_prod. }
  2:{ rewrite <- Em, <- Ed in E1. rewrite E1 in E. discriminate. }
  destruct Hv as (_ & Hi & _ & Hng & _). apply implied_rcon in Hi. pose proof (implied_unique _ _ _ Hi Himp) as ->. clear Hi.
  rewrite <- Em, <- Ed in E1. rewrite E1 in E. cbn [bind] in E. clear E1.
  revert E. set (pop := pop_of _). clearbody pop. rewrite Em, Ed, !map_map.
  change (map (fun x => c_dims (rcon sizes r x)) cs) with (map (fun x => g_dims (gc sizes r x)) cs). rewrite <- (map_map (gc sizes r) g_dims).
  change (map (fun x => nd_of (rcon sizes r x)) cs) with (map (fun x => gnd (gc sizes r x)) cs). rewrite <- (map_map (gc sizes r) gnd).
  assert (forall c, In c (map (gc sizes r) cs) -> well_indexed sizes c) as Hwi.
  { destruct Hgood as [Hp _]. intros c Hin. apply in_map_iff in Hin as (c' & <- & Hin). destruct (Hp c' Hin) as [Hnd Hlt].
    pose proof (cdims cs sizes Himp c' Hin). pose proof (csizes cs sizes Himp c' Hin) as Hs. pose proof (clen cs sizes Himp c' Hin) as Hlc.
    destruct (Hsm c' Hin) as ((Hne & _) & _). split; [|now auto]. cbn [gc g_dims]. intros E0. rewrite E0 in Hlc.
    destruct (c_sizes c'); [now apply Hne|discriminate]. }
  rewrite (ipf_solve_ok (DblScale d_ofZ) DblErr d_add); auto; [|now destruct Hgood].
  destruct (sweeps _ _ _ _ _ _ _ _) as [f' n'] eqn:Es. cbn [bind is_arr]. rewrite nd_copy_same by auto.
  intros [= <-]. exists f'. split; auto.
  assert (forall c k, In c (map (gc sizes r) cs) -> index_in (g_sizes c) k -> 0 <= g_at c k) as Hat.
  { intros c k Hin. apply in_map_iff in Hin as (c' & <- & Hin). cbn [gc g_sizes g_at]. intros Hk. apply (Hng (rcon sizes r c') (in_map _ _ _ Hin) k Hk). }
  assert (zinv (sweep (DblScale d_ofZ) d_add sizes (map (gc sizes r) cs) seed)) as Hsw.
  { destruct (sweep_zero (fun i => d_eqb (seed i) d_zero = true) (map (gc sizes r) cs) seed Hwi Hat) as [S1 S2].
    { split; auto. intros i Hi Hz. apply zn_cases. auto. }
    split; auto. intros i Hi Hz. apply S2; auto. destruct Hz as [Hz|(c & Hin & Hz)]; auto. right. exists (gc sizes r c). split; [now apply in_map|].
    cbn [gc g_at g_dims]. unfold rem. rewrite Hz. unfold margin, sum_where. rewrite (sumZ_map_ext _ (fun _ => 0)); [rewrite sumZ_map_const; lia|].
    intros j Hj. apply filter_In in Hj as [Hj Ej]. apply in_all_indices in Hj. apply idx_eqb_true in Ej. apply Hr0; auto. right. exists c. rewrite Ej. auto. }
  revert Es. change (Z.to_nat 1000) with (S 999). generalize 999%nat as left. intros left Es. cbn [sweeps] in Es.
  destruct (converged _ _ _ _ _ _); [now inversion Es; subst|].
  apply (sweeps_inv (DblScale d_ofZ) DblErr d_add sizes (map (gc sizes r) cs) zinv) in Es; auto.
  apply sweep_inv. intros f c Hin. apply step_zinv; auto.
Qed.

Context (cols : list (list N)) (Hcols : length cols = length sizes) (Hdir : Forall valid_directions cols).

Definition zstate (t : Z) (s : istate) : Prop :=
  exists r v f, view_of cols v (i_sobol s) /\ v_n v = Z.to_N t /\ counts sizes t r /\ i_margs s = rems cs sizes r /\
    i_arr s = mk sizes r /\ i_sol s = mk sizes f /\ length (i_main s) = length sizes /\ zinv f /\
    (forall i, index_in sizes i -> zstate_at i -> r i = 0).

Lemma qisi_step_zero t s s' : 0 <= t -> zstate t s -> qisi_step fuel (map c_dims cs) (mk sizes seed) s = Ok s' -> zstate (t + 1) s'.
Proof.
  intros Ht0 (r & v & f & Hv & Hn & Hc & Em & Ea & Ef & Hl & Hz & Hr) E. unfold qisi_step in E.
  pose proof (view_n_le _ _ _ Hv) as Hle. destruct (N.eq_dec (v_n v) limit) as [El|Nl].
  { rewrite (sobol_buf_end cols v _ Hv El) in E. discriminate. }
  destruct (sobol_buf_ok cols v _ Hdir Hv) as (sb & Eb & Hv'); [lia|]. rewrite Eb in E. cbn [bind] in E.
  assert (0 <= t < 2 ^ 32 - 1) as Hb by (unfold limit in *; lia).
  assert (length (point_of cols (v_n v + 1)) = length sizes) as Hlp by (rewrite <- Hcols; unfold point_of; now rewrite map_length).
  rewrite Ef, sizes_mk in E.
  destruct (get_index_cases sizes f (point_of cols (v_n v + 1)) (i_main s) Hfit H2 H63 Hlp Hl) as [(e & Eg)|(main & Eg & Hm)];
    rewrite Eg in E; cbn [bind] in E; [discriminate|].
  apply get_index_nz in Eg as (Hlm & _ & Hz1); auto; try lia. 2:{ apply Hz. }
  rewrite firstn_all2 in Hz1 by lia.
  rewrite Ea, (increment_ok sizes Hfit r t main) in E by (auto; lia). cbn [bind] in E. rewrite Em in E.
  destruct (decrement_ok cs sizes Hsm Himp Hnn r t main (i_conv s) Hc ltac:(lia) Hm) as (conv' & Edc & Hcv). rewrite Edc in E. cbn [bind] in E.
  rewrite nd_get_mk in E by auto. cbn [bind] in E. rewrite nd_set_mk in E by auto. cbn [bind] in E. rewrite nd_get_mk in E by auto. cbn [bind] in E.
  pose proof (counts_inc sizes t r main Hm Hc) as Hc'.
  assert (~ zstate_at main) as Hns by (intros Ez; apply (proj2 Hz main Hm) in Ez; congruence).
  assert (forall i, index_in sizes i -> zstate_at i -> inc r main i = 0) as Hr'.
  { intros i Hi Hzi. unfold inc, fupd. destruct (idx_eqb i main) eqn:Ei; [|auto]. apply idx_eqb_true in Ei. subst. contradiction. }
  assert (forall sol f', sol = mk sizes f' -> zinv f' -> zstate (t + 1) (QIS sb main (rems cs sizes (inc r main)) (mk sizes (inc r main)) conv' sol)) as Hfin.
  { intros sol f' -> Hz'. exists (inc r main), (SV (v_n v + 1) (v_n v + 1) (v_pos v)), f'. cbn [i_sobol i_margs i_arr i_conv i_sol i_main v_n].
    split; auto. split; [rewrite Hn, Z2N.inj_add by lia; lia|]. split; auto. split; auto. split; auto. split; auto. split; [now apply index_in_length|]. split; auto. }
  destruct (d_ltb _ d_zero) eqn:Ey.
  - destruct (recompute_ipf _ _ _ _ _) as [sol| | |] eqn:Er; cbn [bind] in E; try discriminate. injection E as <-.
    apply (recompute_zinv (inc r main) (t + 1)) in Er as (f' & -> & Hz'); auto; [|lia]. eapply Hfin; eauto.
  - cbn [bind] in E. injection E as <-. eapply Hfin; [reflexivity|]. destruct Hz as [Hz0 Hzz]. split.
    + intros i Hi. unfold fupd in *. destruct (idx_eqb i main) eqn:Ei; [|auto]. apply idx_eqb_true in Ei. subst i.
      rewrite idx_eqb_refl in Ey. rewrite nnb_ltb in Ey. now apply negb_false_iff in Ey.
    + intros i Hi Hs. unfold fupd. destruct (idx_eqb i main) eqn:Ei; [|auto]. apply idx_eqb_true in Ei. subst i. contradiction.
Qed.

Lemma qisi_loop_zero n : forall t s s', 0 <= t -> zstate t s ->
  foldM (fun (_ : unit) s => qisi_step fuel (map c_dims cs) (mk sizes seed) s) (repeat tt n) s = Ok s' -> zstate (t + Z.of_nat n) s'.
Proof.
  induction n as [|n IH]; intros t s s' Ht Hi E.
  - simpl in E. injection E as <-. now rewrite Z.add_0_r.
  - simpl repeat in E. cbn [foldM] in E. destruct (qisi_step _ _ _ s) as [s1| | |] eqn:E1; cbn [bind] in E; try discriminate.
    apply (qisi_step_zero t) in E1; auto. replace (t + Z.of_nat (S n)) with (t + 1 + Z.of_nat n) by lia. apply (IH (t + 1) s1); auto; lia.
Qed.

End Loop.

(** * Construction and solve *)

Lemma qisi_core_zero L fuel seed cs skips pop st exn x : (forall c, In c cs -> csmall c) -> (forall sizes, implied cs sizes -> prodZ sizes < 2 ^ 60) ->
  (forall c, In c cs -> c_total c < 2 ^ 61) -> wf_array seed -> prodZ (shape seed) < 2 ^ 60 -> let sizes := shape seed in
  (forall c, In c cs -> proper (length sizes) (c_dims c)) -> prodZ sizes < Z.of_nat fuel ->
  (forall i, index_in sizes i -> nnb (entry d_zero seed i) = true) ->
  qisi_core L fuel seed cs skips = Ok (pop, (st, exn, x)) ->
  exists r, i_arr st = mk sizes r /\ forall i, index_in sizes i -> zstate_at cs (entry d_zero seed) i -> r i = 0.
Proof.
  intros Hsm Hprod H61 Hw Hs60 sizes Hprop Hfu Hsd. unfold qisi_core, qisi_new.
  destruct (micro_new_spec (T := Z) cs Hsm Hprod) as [(s & Hvc & E)|[Hno (e & E)]]; rewrite E; cbn [bind]; [|discriminate]. clear E.
  pose proof Hvc as (Hl2 & Himp & Hd2 & Hnn & Hpop & Hag).
  assert (fits s) as Hfit by (apply (implied_fits cs); auto). cbn [ms_sizes].
  set (pop' := pop_of (c_total (hd con0 cs))) in *.
  destruct (Nat.le_gt_cases (length s) 1111) as [Hdim|Hdim].
  2:{ unfold sobol_new. destruct (N.ltb_spec (N.of_nat (length s)) 1); [lia|].
      destruct (N.ltb_spec 1111 (N.of_nat (length s))); [|lia]. cbn [orb bind]. discriminate. }
  destruct (sobol_new_ok (N.of_nat (length s)) 0 (Nat.max fuel 32) ltac:(lia) ltac:(lia) ltac:(lia)) as (cols & s0 & Es & Htab & Hdir & Him & Hview).
  rewrite Nat2N.id in Htab. cbn [N.ltb N.compare] in Hview.
  assert (sobol_new fuel (N.of_nat (length s)) 0 = Ok s0) as Es'.
  { unfold sobol_new in *. destruct ((N.of_nat (length s) <? 1)%N || (1111 <? N.of_nat (length s))%N)%bool; auto. }
  rewrite Es'. cbn [bind].
  destruct (sobol_do_skip _ _ _) as [sb| | |]; cbn [bind]; try discriminate.
  rewrite (as_nd_ok d_zero) by auto. cbn [bind]. unfold qisi_solve. cbn [qi_ms ms_array ms_indices ms_sizes ms_pop].
  rewrite sizes_mk, sizes_mkp. fold sizes.
  destruct (check_seed_cases sizes s) as [[Esz Ec]|[_ (e & Ec)]]; rewrite Ec; cbn [bind]; [|discriminate]. subst s. clear Ec.
  rewrite !nd_new_ok by auto. cbn [bind]. assert (length cols = length sizes) as Hlc by (destruct Htab; auto).
  assert (counts sizes 0 (fun _ => 0)) as Hc0 by (split; [lia|]; unfold total; rewrite sumZ_map_const; lia).
  pose proof (recompute_zinv cs sizes Hsm Himp Hfit Hnn H61 Hd2 fuel (entry d_zero seed) (conj Hprop Hfu) Hsd (fun _ => 0) 0 (fun _ => None)) as Hrc.
  rewrite rems_zero in Hrc. fold sizes in Hrc |- *.
  destruct (recompute_ipf fuel (map c_dims cs) (map nd_of cs) (mk sizes (entry d_zero seed)) (mkp sizes (fun _ => None))) as [sol|e|w|]; cbn [bind]; try discriminate.
  destruct (Hrc sol ltac:(auto) Hc0 ltac:(lia) eq_refl) as (f & -> & Hz). rewrite nd_copy_same by auto. cbn [bind]. rewrite index_new_ok by auto. cbn [bind].
  rewrite make_mappings_ok by auto. cbn [bind]. rewrite nd_assign_mkp by auto. cbn [bind]. rewrite Es'. cbn [bind ix_idx].
  assert (zstate cs sizes (entry d_zero seed) cols 0 (QIS s0 (repeat 0 (length sizes)) (map nd_of cs) (mk sizes (fun _ => 0)) true (mk sizes f))) as Hi0.
  { exists (fun _ => 0), (SV 0 0 (N.of_nat (length sizes))), f. cbn [i_sobol i_main i_margs i_arr i_conv i_sol v_n].
    split; auto. split; auto. split; auto. split; [now rewrite rems_zero|]. split; auto. split; [auto|]. split; [apply repeat_length|]. split; auto. }
  unfold repeatM. fold pop'.
  match goal with |- context [foldM ?F ?l ?x] => change (foldM F l x) with (foldM (fun (_ : unit) s => qisi_step fuel (map c_dims cs) (mk sizes (entry d_zero seed)) s) l x) end.
  destruct (foldM _ (repeat tt (Z.to_nat pop')) _) as [st'|e|w|] eqn:Ef; cbn [bind]; try discriminate.
  apply (qisi_loop_zero cs sizes Hsm Himp Hfit Hnn H61 Hd2 ltac:(lia) fuel (entry d_zero seed) (conj Hprop Hfu) Hsd cols Hlc Hdir _ 0) in Ef; auto; [|lia].
  destruct Ef as (r & v & f' & _ & _ & _ & _ & Ea & _ & _ & _ & Hr).
  destruct (chisq _ _); cbn [bind]; try discriminate. destruct (dof _); cbn [bind]; try discriminate. destruct (degeneracy _ _); cbn [bind]; try discriminate.
  intros [= _ <- _ _]. exists r. auto.
Qed.

Lemma qisi_zero_claim L fuel seed ilist mlist skips res : qisi_range ilist mlist seed -> qisi_good fuel ilist mlist seed ->
  (forall i, index_in (shape seed) i -> d_ltb (entry d_zero seed i) d_zero = false) ->
  py_qisi L fuel seed ilist mlist skips = Ok res ->
  forall i, index_in (shape seed) i ->
  (d_eqb (entry d_zero seed i) d_zero = true \/ exists c, In c (cons_of ilist mlist) /\ c_at c (proj (c_dims c) i) = 0) ->
  entry 0 (qr_pop_array res) i = 0.
Proof.
  intros (Hr & H61 & Hw & Hs60) [Hp Hfu] Hsd E. set (cs := cons_of ilist mlist) in *.
  assert (forall c, In c cs -> csmall c) as Hsm by (intros c; now apply range_small).
  destruct (py_lists_cases ilist mlist Hr) as [[Hv _]|[Hv (e & E')]].
  2:{ unfold py_qisi in E. rewrite E' in E. discriminate. }
  pose proof (qisi_cases L fuel seed ilist mlist skips (conj Hr (conj H61 (conj Hw Hs60)))) as Hcs. cbv zeta in Hcs. rewrite E in Hcs.
  destruct Hcs as (_ & _ & Hfit & _).
  rewrite py_qisi_core in E by auto. fold cs in E. pose proof Hr as [_ Hprod]. fold cs in Hprod.
  destruct (qisi_core L fuel seed cs skips) as [[pop [[st exn] [[c p] g]]]|e|w|] eqn:Ec; cbn [bind] in E; try discriminate.
  apply qisi_core_zero in Ec as (r & Ea & Hz); auto.
  2:{ intros i Hi. specialize (Hsd i Hi). rewrite nnb_ltb in Hsd. now apply negb_false_iff in Hsd. }
  rewrite Ea in E. destruct (from_nd exn) as [ex| | |]; cbn [bind] in E; try discriminate. rewrite from_nd_mk in E by auto. cbn [bind] in E.
  injection E as <-. cbn [qr_pop_array]. intros i Hi Hs. rewrite entry_NDA_map by auto. auto.
Qed.
