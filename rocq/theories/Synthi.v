(** qisi samples the individuals described in SynthiSpec.v (C66). *)
From Coq Require Import Lia.
From Flocq Require Import IEEE754.BinarySingleNaN.
From Verif Require Import Base Spec SpecFacts NDArray IndexProofs Float64 FloatProofs ArrayOps ArrayProofs Bind BindProofs
  SobolTable SobolSpec Sobol SobolTableProofs SobolProofs SobolClaims Micro Stat Qis SynthSpec MicroProofs PickProofs SampleProofs
  SplitProofs QisProofs QisClaims Ipf IpfSpec IpfProofs MicroDbl IpfClaims Qisi QisiProofs QisiClaims IpfFitSpec IpfFit QuantSpec QuantProofs
  QisiZeros SynthiSpec.
From Verif Require IntegeriseRound.
Open Scope Z_scope.

(** * Picking *)

Lemma unit_of_lit u : unit_of u = d_mul (d_ofZ (Z.of_N u)) (d_lit 1 (-32)).
Proof. unfold unit_of. f_equal. apply B2SF_inj. vm_compute. reflexivity. Qed.

Lemma dpick_loop_first x : forall dist i run j, dpick_loop dist x i run = Ok j ->
  i <= j < i + Z.of_nat (length dist) /\ d_ltb x (fold_left d_add (firstn (Z.to_nat (j - i + 1)) dist) run) = true /\
  forall j', i <= j' < j -> d_ltb x (fold_left d_add (firstn (Z.to_nat (j' - i + 1)) dist) run) = false.
Proof.
  induction dist as [|y l IH]; intros i run j E; cbn [dpick_loop] in E; [discriminate|].
  simpl length. destruct (d_ltb x (d_add run y)) eqn:El.
  - injection E as <-. split; [lia|]. split; [|intros; lia]. replace (Z.to_nat (i - i + 1)) with 1%nat by lia. exact El.
  - apply IH in E as (H1 & H2 & H3). split; [lia|]. split.
    + replace (Z.to_nat (j - i + 1)) with (S (Z.to_nat (j - (i + 1) + 1))) by lia. exact H2.
    + intros j' Hj. replace (Z.to_nat (j' - i + 1)) with (S (Z.to_nat (j' - i))) by lia. cbn [firstn fold_left].
      destruct (Z.eq_dec j' i) as [->|Hn]; [rewrite Z.sub_diag; exact El|].
      replace (j' - i) with (j' - (i + 1) + 1) by lia. apply H3. lia.
Qed.

Lemma firstn_zrange j n : 0 <= j <= n -> firstn (Z.to_nat j) (zrange n) = zrange j.
Proof.
  intros H. rewrite (zrange_split n j) by auto. rewrite firstn_app, length_zrange, Nat.sub_diag. cbn [firstn]. rewrite app_nil_r.
  apply firstn_all2. rewrite length_zrange. lia.
Qed.

Lemma dpick_selects w n u k : 0 <= n -> dpick (map w (zrange n)) (unit_of u) = Ok k -> selectsD w n u k.
Proof.
  intros Hn E. unfold dpick in E. apply dpick_loop_first in E as (H1 & H2 & H3). rewrite map_length, length_zrange in H1.
  rewrite unit_of_lit in H2, H3. unfold selectsD. split; [lia|]. rewrite firstn_map in H2. replace (k - 0 + 1) with (k + 1) in H2 by lia.
  rewrite firstn_zrange in H2 by lia. split; [exact H2|]. intros j Hj. specialize (H3 j ltac:(lia)). rewrite firstn_map in H3.
  replace (j - 0 + 1) with (j + 1) in H3 by lia. rewrite firstn_zrange in H3 by lia. exact H3.
Qed.

Lemma all_indices_snoc s n : all_indices (s ++ [n]) = flat_map (fun c => map (fun j => c ++ [j]) (zrange n)) (all_indices s).
Proof. rewrite all_indices_app. apply flat_map_ext. intros c. now rewrite all_indices_1, map_map. Qed.

Lemma filter_snoc s n i (p : list Z -> bool) (q : list Z -> bool) : 0 <= i < n ->
  (forall c j, index_in s c -> p (c ++ [j]) = q c && (j =? i)) ->
  filter p (all_indices (s ++ [n])) = map (fun c => c ++ [i]) (filter q (all_indices s)).
Proof.
  intros Hi Hp. rewrite all_indices_snoc.
  assert (forall l, (forall c, In c l -> index_in s c) ->
    filter p (flat_map (fun c => map (fun j => c ++ [j]) (zrange n)) l) = map (fun c => c ++ [i]) (filter q l)) as G.
  { induction l as [|c l IH]; intros Hl; [reflexivity|]. cbn [flat_map filter]. rewrite filter_app, IH by (intros; apply Hl; now right).
    rewrite IntegeriseRound.filter_map. rewrite (filter_ext _ (fun j => q c && (j =? i))) by (intros j; apply Hp; apply Hl; now left).
    destruct (q c); cbn [andb map].
    - rewrite (IntegeriseRound.filter_single Z.eqb (zrange n) i); [reflexivity|intros; apply Z.eqb_eq|apply NoDup_zrange|now apply in_zrange].
    - assert (forall l' : list Z, filter (fun _ => false) l' = []) as -> by (induction l'; auto). reflexivity. }
  apply G. intros c Hc. now apply in_all_indices.
Qed.

Lemma idx_eqb_snoc a b x y : idx_eqb (a ++ [x]) (b ++ [y]) = idx_eqb a b && (x =? y).
Proof.
  apply Bool.eq_iff_eq_true. rewrite Bool.andb_true_iff, !idx_eqb_true, Z.eqb_eq. split.
  - intros H. apply app_inj_tail in H. tauto.
  - now intros [-> ->].
Qed.

Lemma skipn_snoc {A} k (l : list A) x : (k <= length l)%nat -> skipn k (l ++ [x]) = skipn k l ++ [x].
Proof. intros H. rewrite skipn_app. replace (k - length l)%nat with 0%nat by lia. reflexivity. Qed.

Lemma tail_sum_snoc s n f i k rest : 0 <= i < n -> (k <= length s)%nat ->
  tail_sum (s ++ [n]) f k (rest ++ [i]) = tail_sum s (fun c => f (c ++ [i])) k rest.
Proof.
  intros Hi Hk. destruct k as [|k]; [reflexivity|]. cbn [tail_sum].
  rewrite (filter_snoc s n i _ (fun c => idx_eqb (skipn (S k) c) rest) Hi); [now rewrite map_map|].
  intros c j Hc. apply index_in_length in Hc. rewrite skipn_snoc by lia. apply idx_eqb_snoc.
Qed.

Lemma selectsD_ext w w' n u k : (forall v, 0 <= v < n -> w v = w' v) -> selectsD w n u k -> selectsD w' n u k.
Proof.
  intros Hw (H1 & H2 & H3). unfold selectsD.
  assert (forall j, 0 <= j <= n -> map w' (zrange j) = map w (zrange j)) as E.
  { intros j Hj. apply map_ext_in. intros v Hv. apply in_zrange in Hv. symmetry. apply Hw. lia. }
  split; auto. rewrite !E by lia. split; auto. intros j Hj. rewrite !E by lia. auto.
Qed.

Lemma selected_snoc s n f p x i : 0 <= i < n -> selected s (fun c => f (c ++ [i])) p x ->
  selectsD (fun v => tail_sum (s ++ [n]) f (length s) [v]) n (nth (length s) p 0%N) i -> selected (s ++ [n]) f p (x ++ [i]).
Proof.
  intros Hi [Hl H] Hs. split; [rewrite !app_length; simpl; lia|]. intros k Hk. rewrite app_length in Hk. simpl in Hk.
  destruct (Nat.eq_dec k (length s)) as [->|Hn].
  - rewrite nth_mid, <- Hl, nth_mid, Hl. rewrite skipn_all2 by (rewrite app_length; simpl; lia). exact Hs.
  - rewrite !app_nth1 by lia. eapply selectsD_ext; [|apply H; lia]. intros v _. rewrite skipn_snoc by lia.
    change (v :: skipn (S k) x ++ [i]) with ((v :: skipn (S k) x) ++ [i]). now rewrite tail_sum_snoc by lia.
Qed.

Lemma reduce1_tail s n f : s <> [] -> fits (s ++ [n]) -> Z.of_nat (length s) < 2 ^ 63 ->
  reduce1 DblOps (mk (s ++ [n]) f) (Z.of_nat (length s)) = Ok (map (fun v => tail_sum (s ++ [n]) f (length s) [v]) (zrange n)).
Proof.
  intros Hne Hf H63. rewrite (reduce1_mk DblOps (s ++ [n]) f (Z.of_nat (length s)) (fun v => tail_sum (s ++ [n]) f (length s) [v])); auto; try lia.
  - now rewrite Nat2Z.id, nth_mid.
  - rewrite app_length. simpl. lia.
  - intros v Hv. rewrite (vec_sum_add DblOps d_add) by reflexivity. f_equal. unfold tail_sum.
    destruct (length s) as [|m] eqn:El; [destruct s; [easy|discriminate]|]. rewrite <- El. cbn [DblOps n_zero].
    f_equal. f_equal. apply filter_ext_in. intros c Hc. apply in_all_indices in Hc. rewrite Nat2Z.id.
    apply index_in_length in Hc. rewrite app_length in Hc. simpl in Hc.
    destruct (@exists_last _ c) as (c' & y & ->); [intros ->; simpl in Hc; lia|]. rewrite app_length in Hc. simpl in Hc.
    assert (length c' = length s) as E by lia. rewrite <- E, nth_mid. rewrite skipn_app, Nat.sub_diag, skipn_all. cbn [app skipn].
    destruct (Z.eqb_spec y v) as [->|N]; [now rewrite idx_eqb_refl|]. destruct (idx_eqb [y] [v]) eqn:Ey; auto.
    apply idx_eqb_true in Ey. congruence.
Qed.

Lemma get_index_selected u : forall n s f index index', (2 <= length s)%nat -> fits s -> Z.of_nat (length index) < 2 ^ 63 ->
  length u = length index -> (length s <= length index)%nat -> get_index n (mk s f) u index = Ok index' ->
  length index' = length index /\ (forall k, (length s <= k)%nat -> nth k index' 0 = nth k index 0) /\
  selected s f u (firstn (length s) index').
Proof.
  induction n as [|n IH]; intros s f index index' H2 Hf H63 Hu Hle E.
  all: destruct (@exists_last _ s) as (s' & k & ->); [intros ->; simpl in H2; lia|].
  all: rewrite app_length in H2, Hle; simpl in H2, Hle.
  all: assert (s' <> []) as Hne by (destruct s'; [simpl in H2; lia|discriminate]).
  all: destruct (fits_app_l s' k Hne Hf) as [Hf' Hk].
  all: assert (Z.of_nat (length (s' ++ [k])) = Z.of_nat (length s') + 1) as El by (rewrite app_length; simpl; lia).
  all: cbn [get_index] in E; rewrite sizes_mk, El in E; destruct (Z.ltb_spec 2 (Z.of_nat (length s') + 1)) as [H3|H3].
  all: try (replace (Z.of_nat (length s') + 1 - 1) with (Z.of_nat (length s')) in E by lia).
  1: { exfalso. destruct (reduce1 _ _ _); cbn [bind] in E; try discriminate. destruct (vec_get _ _); cbn [bind] in E; try discriminate.
       destruct (dpick _ _); cbn [bind] in E; try discriminate. destruct (vec_set _ _ _); cbn [bind] in E; try discriminate.
       destruct (slice _ _); cbn [bind] in E; discriminate. }
  2: { rewrite reduce1_tail in E by (auto; lia). cbn [bind] in E. rewrite (vec_get_ok _ _ 0%N) in E by lia. cbn [bind] in E. rewrite Nat2Z.id in E.
       destruct (dpick _ _) as [i| | |] eqn:Ed; cbn [bind] in E; try discriminate.
       apply dpick_selects in Ed; [|lia]. pose proof Ed as [Hi _].
       rewrite vec_set_ok in E by lia. cbn [bind] in E. rewrite Nat2Z.id in E.
       rewrite slice_last in E by (auto; lia). cbn [bind] in E.
       apply IH in E; auto; try (rewrite length_upd; auto; lia); try lia.
       rewrite length_upd in E. destruct E as (E1 & E2 & E3). split; auto. split.
       - intros q Hq. rewrite app_length in Hq. simpl in Hq. rewrite E2 by lia. rewrite nth_upd by lia. destruct (Nat.eqb_spec q (length s')); [lia|auto].
       - rewrite app_length. simpl length. rewrite Nat.add_1_r. rewrite (firstn_upd_skip index' (length s') i 0); [|lia|].
         + now apply selected_snoc.
         + rewrite E2 by lia. rewrite nth_upd by lia. now rewrite Nat.eqb_refl. }
  all: destruct s' as [|k0 [|? ?]]; [easy| |simpl in H3; lia]; 
    pose proof (reduce1_tail [k0] k f Hne Hf ltac:(simpl; lia)) as Er; cbn [length] in Er; change (Z.of_nat 1) with 1 in Er; rewrite Er in E; cbn [bind] in E;
    simpl length in *; rewrite (vec_get_ok _ _ 0%N) in E by lia; cbn [bind] in E; change (Z.to_nat 1) with 1%nat in E;
    destruct (dpick _ _) as [i| | |] eqn:Ed in E; cbn [bind] in E; try discriminate;
    apply dpick_selects in Ed; [|lia]; pose proof Ed as [Hi _];
    rewrite vec_set_ok in E by lia; cbn [bind] in E;
    pose proof (slice_last [k0] k f i ltac:(discriminate) Hf ltac:(simpl; lia) Hi) as Es; cbn [length] in Es;
    change (Z.of_nat 1) with 1 in Es; rewrite Es in E; cbn [bind] in E;
    rewrite nd_values_mk in E by auto; cbn [bind] in E; rewrite (vec_get_ok _ _ 0%N) in E by lia; cbn [bind] in E;
    rewrite all_indices_1, map_map in E; cbn [app] in E; change (Z.to_nat 0) with 0%nat in E;
    destruct (dpick _ _) as [j| | |] eqn:Ed2 in E; cbn [bind] in E; try discriminate;
    assert (0 <= k0) as Hk0 by (destruct Hf' as (_ & Hp & _); inversion Hp; lia);
    apply dpick_selects in Ed2; [|lia]; pose proof Ed2 as [Hj _];
    rewrite vec_set_ok in E by (rewrite length_upd; lia); injection E as <-.
  all: change (Z.to_nat 1) with 1%nat; change (Z.to_nat 0) with 0%nat; rewrite !length_upd; split; [reflexivity|]; split;
    [intros q Hq; rewrite !nth_upd by (rewrite ?length_upd; lia); destruct q as [|[|q]]; try lia; reflexivity|].
  all: destruct index as [|a [|b index]]; simpl in Hle; try lia; cbn [upd firstn].
  all: apply (selected_snoc [k0] k f u [j] i Hi); [|exact Ed]; split; [reflexivity|]; intros q Hq; simpl in Hq; assert (q = 0)%nat as -> by lia; exact Ed2.
Qed.

(** * Fitting again *)

Definition gcd (c : gcon Z) : gcon double := GC (g_dims c) (g_sizes c) (fun k => d_ofZ (g_at c k)).

Lemma sweep_conv sizes cs : forall f, sweep (DblScale d_ofZ) d_add sizes cs f = sweep DS d_add sizes (map gcd cs) f.
Proof. unfold sweep. induction cs as [|c cs IH]; intros f; cbn [map fold_left]; auto. Qed.

Lemma converged_conv sizes cs f : converged (DblScale d_ofZ) DblErr d_add sizes cs f = conv sizes (map gcd cs) f.
Proof.
  unfold converged. f_equal. unfold max_error. generalize (e_lowest DblErr) as m. induction cs as [|c cs IH]; intros m; cbn [map fold_left]; auto.
Qed.

Lemma sweeps_conv sizes cs : forall left f n,
  sweeps (DblScale d_ofZ) DblErr d_add sizes cs left f n = sweeps DS DblErr d_add sizes (map gcd cs) left f n.
Proof.
  induction left as [|left IH]; intros f n; cbn [sweeps]; auto. rewrite sweep_conv, converged_conv, IH. reflexivity.
Qed.

Section Loop.
Context (cs : list con) (sizes : list Z).
Context (Hsm : forall c, In c cs -> csmall c) (Himp : implied cs sizes) (Hfit : fits sizes) (Hnn : forall c, In c cs -> nonneg c).
Context (H61 : forall c, In c cs -> c_total c < 2 ^ 61) (H2 : (2 <= length sizes)%nat) (H63 : Z.of_nat (length sizes) < 2 ^ 63).
Context (fuel : nat) (seed : list Z -> double) (Hgood : good cs sizes fuel).

Notation occ people := (fun x => occurrences x people).

Lemma refit_ext rest rest' g : (forall c k, In c cs -> rest c k = rest' c k) -> refit cs sizes seed rest g -> refit cs sizes seed rest' g.
Proof.
  intros H. unfold refit. 
  assert (map (fun c => GC (c_dims c) (c_sizes c) (fun k => d_ofZ (rest' c k))) cs = map (fun c => GC (c_dims c) (c_sizes c) (fun k => d_ofZ (rest c k))) cs) as ->.
  { apply map_ext_in. intros c Hc. f_equal. apply FunctionalExtensionality.functional_extensionality. intros k. now rewrite H. }
  intros [H1 H3]. split; auto. intros c k Hc Hk. rewrite <- H by auto. auto.
Qed.

Lemma recompute_refit r t h a : counts sizes t r -> t < 2 ^ 32 ->
  recompute_ipf fuel (map c_dims cs) (rems cs sizes r) (mk sizes seed) (mkp sizes h) = Ok a ->
  exists f, a = mk sizes f /\ refit cs sizes seed (fun c => rem sizes c r) f.
Proof.
  intros Hc Hb E. unfold recompute_ipf in E.
  assert (rems cs sizes r = map nd_of (map (rcon sizes r) cs)) as Em by (unfold rems; now rewrite map_map).
  assert (map c_dims cs = map c_dims (map (rcon sizes r) cs)) as Ed by now rewrite map_map.
  destruct (micro_new_spec (T := double) (map (rcon sizes r) cs)) as [(s & Hv & E1)|[_ (e & E1)]].
  { intros c Hin. apply in_map_iff in Hin as (c' & <- & Hin). now apply (rcon_small cs sizes Hsm Himp Hnn H61 H2 r t). }
  { intros s Hs. apply implied_rcon in Hs. rewrite (implied_unique _ _ _ Hs Himp). now apply fits_prod. }
  2:{ rewrite <- Em, <- Ed in E1. rewrite E1 in E. discriminate. }
  destruct Hv as (_ & Hi & _ & Hng & _). apply implied_rcon in Hi. pose proof (implied_unique _ _ _ Hi Himp) as ->. clear Hi.
  rewrite <- Em, <- Ed in E1. rewrite E1 in E. cbn [bind] in E. clear E1.
  revert E. set (pop := pop_of _). clearbody pop. rewrite Em, Ed, !map_map.
  change (map (fun x => c_dims (rcon sizes r x)) cs) with (map (fun x => g_dims (gc sizes r x)) cs). rewrite <- (map_map (gc sizes r) g_dims).
  change (map (fun x => nd_of (rcon sizes r x)) cs) with (map (fun x => gnd (gc sizes r x)) cs). rewrite <- (map_map (gc sizes r) gnd).
  assert (forall c, In c (map (gc sizes r) cs) -> well_indexed sizes c) as Hwi.
  { destruct Hgood as [Hp _]. intros c Hin. apply in_map_iff in Hin as (c' & <- & Hin). destruct (Hp c' Hin) as [Hnd Hlt].
    pose proof (cdims cs sizes Himp c' Hin). pose proof (csizes cs sizes Himp c' Hin) as Hs. pose proof (clen cs sizes Himp c' Hin) as Hlc.
    destruct (Hsm c' Hin) as ((Hne & _) & _). split; [|now auto]. cbn [gc g_dims]. intros E0. rewrite E0 in Hlc.
    destruct (c_sizes c'); [now apply Hne|discriminate]. }
  rewrite (ipf_solve_ok (DblScale d_ofZ) DblErr d_add); auto; [|now destruct Hgood].
  rewrite sweeps_conv. destruct (sweeps _ _ _ _ _ _ _ _) as [f' n'] eqn:Es. cbn [bind is_arr]. rewrite nd_copy_same by auto.
  intros [= <-]. exists f'. split; auto. split.
  { intros c k Hin Hk. apply (Hng (rcon sizes r c) (in_map _ _ _ Hin) k Hk). }
  rewrite map_map in Es. change (fun x => gcd (gc sizes r x)) with (fun c => GC (c_dims c) (c_sizes c) (fun k => d_ofZ (rem sizes c r k))) in Es.
  set (ds := map (fun c => GC (c_dims c) (c_sizes c) (fun k => d_ofZ (rem sizes c r k))) cs) in *.
  change 0 with (Z.of_nat 0) in Es. change seed with (fitted sizes ds seed 0) in Es at 1.
  apply sweeps_fitted in Es as (n & _ & -> & L1 & L2 & L3 & L4). exists n.
  assert (Z.to_nat 1000 = 1000%nat) as E1000 by reflexivity. rewrite E1000 in *. clear E1000.
  split; [lia|]. split; [|split; [|auto]].
  - intros j Hj Hfa. apply conv_fits in Hfa. rewrite L3 in Hfa; [discriminate|lia].
  - destruct L4 as [L4|L4]; [left; now apply conv_fits|right; lia].
Qed.

Lemma rem_left people c k : Forall (index_in sizes) people -> rem sizes c (occ people) k = left_of people c k.
Proof. intros Hp. unfold rem, left_of. now rewrite margin_occ. Qed.

Context (cols : list (list N)) (Hcols : length cols = length sizes) (Hdir : Forall valid_directions cols).

Definition points (t : nat) : list N := point_of cols (N.of_nat t + 1).

Definition sinv (people : list (list Z)) (s : istate) : Prop :=
  Forall (index_in sizes) people /\
  exists v f, view_of cols v (i_sobol s) /\ v_n v = N.of_nat (length people) /\ i_margs s = rems cs sizes (occ people) /\
    i_arr s = mk sizes (occ people) /\ i_sol s = mk sizes f /\ length (i_main s) = length sizes /\
    synthesised cs sizes seed points people f.

Lemma qisi_step_people people s s' : sinv people s -> qisi_step fuel (map c_dims cs) (mk sizes seed) s = Ok s' ->
  exists x, sinv (people ++ [x]) s'.
Proof.
  intros (Hp & v & f & Hv & Hn & Em & Ea & Ef & Hl & Hsy) E. unfold qisi_step in E.
  pose proof (occ_counts sizes cols Hcols people Hp) as Hc. set (r := occ people) in *. set (t := Z.of_nat (length people)) in *.
  pose proof (view_n_le _ _ _ Hv) as Hle. destruct (N.eq_dec (v_n v) limit) as [El|Nl].
  { rewrite (sobol_buf_end cols v _ Hv El) in E. discriminate. }
  destruct (sobol_buf_ok cols v _ Hdir Hv) as (sb & Eb & Hv'); [lia|]. rewrite Eb in E. cbn [bind] in E.
  assert (0 <= t < 2 ^ 32 - 1) as Hb by (unfold limit in *; lia).
  assert (length (point_of cols (v_n v + 1)) = length sizes) as Hlp by (rewrite <- Hcols; unfold point_of; now rewrite map_length).
  rewrite Ef, sizes_mk in E.
  destruct (get_index_cases sizes f (point_of cols (v_n v + 1)) (i_main s) Hfit H2 H63 Hlp Hl) as [(e & Eg)|(main & Eg & Hm)];
    rewrite Eg in E; cbn [bind] in E; [discriminate|].
  apply get_index_selected in Eg as (Hlm & _ & Hsel); auto; try lia.
  rewrite firstn_all2 in Hsel by lia. rewrite Hn in Hsel. change (point_of cols (N.of_nat (length people) + 1)) with (points (length people)) in Hsel.
  rewrite Ea, (increment_ok sizes Hfit r t main) in E by (auto; lia). cbn [bind] in E. rewrite Em in E.
  destruct (decrement_ok cs sizes Hsm Himp Hnn r t main (i_conv s) Hc ltac:(lia) Hm) as (conv' & Edc & Hcv). rewrite Edc in E. cbn [bind] in E.
  rewrite nd_get_mk in E by auto. cbn [bind] in E. rewrite nd_set_mk in E by auto. cbn [bind] in E. rewrite nd_get_mk in E by auto. cbn [bind] in E.
  pose proof (counts_inc sizes t r main Hm Hc) as Hc'. exists main.
  assert (Forall (index_in sizes) (people ++ [main])) as Hp' by (apply Forall_app; auto).
  assert (forall sol f', sol = mk sizes f' -> synthesised cs sizes seed points (people ++ [main]) f' ->
    sinv (people ++ [main]) (QIS sb main (rems cs sizes (inc r main)) (mk sizes (inc r main)) conv' sol)) as Hfin.
  { intros sol f' -> Hz'. split; auto. exists (SV (v_n v + 1) (v_n v + 1) (v_pos v)), f'. cbn [i_sobol i_margs i_arr i_conv i_sol i_main v_n].
    split; auto. split; [rewrite Hn, app_length; simpl; lia|]. split.
    { unfold rems. apply map_ext_in. intros c Hin. apply mk_ext. intros k _. unfold rem. f_equal. apply margin_ext. intros; symmetry; apply occ_snoc. }
    split; [apply mk_ext; intros k _; symmetry; apply occ_snoc|]. split; auto. split; auto. now apply index_in_length. }
  assert (fupd f main (d_sub (f main) d_one) main = d_sub (f main) d_one) as Eu by (unfold fupd; now rewrite idx_eqb_refl).
  rewrite Eu in E. destruct (d_ltb (d_sub (f main) d_one) d_zero) eqn:Ey.
  - destruct (recompute_ipf _ _ _ _ _) as [sol| | |] eqn:Er; cbn [bind] in E; try discriminate. injection E as <-.
    apply (recompute_refit (inc r main) (t + 1)) in Er as (f' & -> & Hz'); auto; [|lia]. eapply Hfin; [reflexivity|].
    eapply syn_refit; eauto. eapply refit_ext; [|exact Hz']. intros c k Hin. rewrite <- rem_left by auto. unfold rem. f_equal.
    apply margin_ext. intros; symmetry; apply occ_snoc.
  - cbn [bind] in E. injection E as <-. eapply Hfin; [reflexivity|]. eapply syn_keep; eauto.
Qed.

Lemma qisi_loop_people n : forall people s s', sinv people s ->
  foldM (fun (_ : unit) s => qisi_step fuel (map c_dims cs) (mk sizes seed) s) (repeat tt n) s = Ok s' ->
  exists people', sinv people' s' /\ length people' = (length people + n)%nat.
Proof.
  induction n as [|n IH]; intros people s s' Hi E.
  - simpl in E. injection E as <-. exists people. split; auto; lia.
  - simpl repeat in E. cbn [foldM] in E. destruct (qisi_step _ _ _ s) as [s1| | |] eqn:E1; cbn [bind] in E; try discriminate.
    destruct (qisi_step_people people s s1 Hi E1) as (x & Hi1). destruct (IH _ _ _ Hi1 E) as (people' & H1 & H3).
    exists people'. split; auto. rewrite H3, app_length. simpl. lia.
Qed.
End Loop.

(** * Construction and solve *)

Lemma qisi_core_people L fuel seed cs skips pop st exn x : (forall c, In c cs -> csmall c) -> (forall sizes, implied cs sizes -> prodZ sizes < 2 ^ 60) ->
  (forall c, In c cs -> c_total c < 2 ^ 61) -> wf_array seed -> prodZ (shape seed) < 2 ^ 60 -> let sizes := shape seed in
  (forall c, In c cs -> proper (length sizes) (c_dims c)) -> prodZ sizes < Z.of_nat fuel ->
  qisi_core L fuel seed cs skips = Ok (pop, (st, exn, x)) ->
  fits sizes /\ exists cols people f0 g, length people = Z.to_nat pop /\
    (forall t, (t < length people)%nat -> nth_draw (N.of_nat (length sizes)) (N.of_nat t + 1) = Ok (points cols t)) /\
    exn = mk sizes f0 /\ refit cs sizes (entry d_zero seed) (left_of []) f0 /\
    synthesised cs sizes (entry d_zero seed) (points cols) people g /\ i_arr st = mk sizes (fun i => occurrences i people).
Proof.
  intros Hsm Hprod H61 Hw Hs60 sizes Hprop Hfu. unfold qisi_core, qisi_new.
  destruct (micro_new_spec (T := Z) cs Hsm Hprod) as [(s & Hvc & E)|[Hno (e & E)]]; rewrite E; cbn [bind]; [|discriminate]. clear E.
  pose proof Hvc as (Hl2 & Himp & Hd2 & Hnn & Hpop & Hag).
  assert (fits s) as Hfit by (apply (implied_fits cs); auto). cbn [ms_sizes].
  set (pop' := pop_of (c_total (hd con0 cs))) in *.
  destruct (Nat.le_gt_cases (length s) 1111) as [Hdim|Hdim].
  2:{ unfold sobol_new. destruct (N.ltb_spec (N.of_nat (length s)) 1); [lia|].
      destruct (N.ltb_spec 1111 (N.of_nat (length s))); [|lia]. cbn [orb bind]. discriminate. }
  destruct (sobol_new_ok (N.of_nat (length s)) 0 (Nat.max fuel 32) ltac:(lia) ltac:(lia) ltac:(lia)) as (cols & s0 & Es & Htab & Hdir & Him & Hview).
  rewrite Nat2N.id in Htab. cbn [N.ltb N.compare] in Hview.
  assert (sobol_new fuel (N.of_nat (length s)) 0 = Ok s0) as Es'.
  { unfold sobol_new in *. destruct ((N.of_nat (length s) <? 1)%N || (1111 <? N.of_nat (length s))%N)%bool; auto. }
  rewrite Es'. cbn [bind].
  destruct (sobol_do_skip _ _ _) as [sb| | |]; cbn [bind]; try discriminate.
  rewrite (as_nd_ok d_zero) by auto. cbn [bind]. unfold qisi_solve. cbn [qi_ms ms_array ms_indices ms_sizes ms_pop].
  rewrite sizes_mk, sizes_mkp. fold sizes.
  destruct (check_seed_cases sizes s) as [[Esz Ec]|[_ (e & Ec)]]; rewrite Ec; cbn [bind]; [|discriminate]. subst s. clear Ec.
  rewrite !nd_new_ok by auto. cbn [bind]. assert (length cols = length sizes) as Hlc by (destruct Htab; auto).
  assert (counts sizes 0 (fun _ => 0)) as Hc0 by (split; [lia|]; unfold total; rewrite sumZ_map_const; lia).
  pose proof (recompute_refit cs sizes Hsm Himp Hfit Hnn H61 Hd2 fuel (entry d_zero seed) (conj Hprop Hfu) (fun _ => 0) 0 (fun _ => None)) as Hrc.
  rewrite rems_zero in Hrc. fold sizes in Hrc |- *.
  destruct (recompute_ipf fuel (map c_dims cs) (map nd_of cs) (mk sizes (entry d_zero seed)) (mkp sizes (fun _ => None))) as [sol|e|w|]; cbn [bind]; try discriminate.
  destruct (Hrc sol Hc0 ltac:(lia) eq_refl) as (f & -> & Hz). rewrite nd_copy_same by auto. cbn [bind]. rewrite index_new_ok by auto. cbn [bind].
  rewrite make_mappings_ok by auto. cbn [bind]. rewrite nd_assign_mkp by auto. cbn [bind]. rewrite Es'. cbn [bind ix_idx].
  assert (refit cs sizes (entry d_zero seed) (left_of []) f) as Hz'.
  { eapply refit_ext; [|exact Hz]. intros c k Hin. unfold rem, left_of, tally, margin, sum_where. simpl. rewrite sumZ_map_const. lia. }
  assert (sinv cs sizes (entry d_zero seed) cols [] (QIS s0 (repeat 0 (length sizes)) (map nd_of cs) (mk sizes (fun _ => 0)) true (mk sizes f))) as Hi0.
  { split; [constructor|]. exists (SV 0 0 (N.of_nat (length sizes))), f. cbn [i_sobol i_main i_margs i_arr i_conv i_sol v_n].
    split; auto. split; auto. split; [now rewrite <- (rems_zero cs sizes)|]. split; [reflexivity|]. split; [auto|].
    split; [apply repeat_length|]. now constructor. }
  unfold repeatM. fold pop'.
  match goal with |- context [foldM ?F ?l ?x] => change (foldM F l x) with (foldM (fun (_ : unit) s => qisi_step fuel (map c_dims cs) (mk sizes (entry d_zero seed)) s) l x) end.
  destruct (foldM _ (repeat tt (Z.to_nat pop')) _) as [st'|e|w|] eqn:Ef; cbn [bind]; try discriminate.
  apply (qisi_loop_people cs sizes Hsm Himp Hfit Hnn H61 Hd2 ltac:(lia) fuel (entry d_zero seed) (conj Hprop Hfu) cols Hlc Hdir _ []) in Ef; auto.
  destruct Ef as (people & (_ & v & f' & Hv & Hvn & _ & Ea & _ & _ & Hsy) & Hlen).
  destruct (chisq _ _); cbn [bind]; try discriminate. destruct (dof _); cbn [bind]; try discriminate. destruct (degeneracy _ _); cbn [bind]; try discriminate.
  intros [= <- <- <- _]. split; auto. exists cols, people, f, f'. split.
  { exact Hlen. }
  split; [|auto].
  intros t Ht. pose proof (view_n_le _ _ _ Hv) as Hle.
  destruct (nth_draw_ok (N.of_nat (length sizes)) (N.of_nat t + 1) ltac:(lia) ltac:(lia)) as (cols' & Edr & Ht' & _).
  rewrite Nat2N.id in Ht'. assert (cols' = cols) as -> by (symmetry; eapply table_unique; eauto). exact Edr.
Qed.

Lemma synthi_claim L fuel seed ilist mlist skips res : qisi_range ilist mlist seed -> qisi_good fuel ilist mlist seed ->
  py_qisi L fuel seed ilist mlist skips = Ok res ->
  let cs := cons_of ilist mlist in let sizes := shape seed in let s := entry d_zero seed in
  exists points people g, Z.of_nat (length people) = qr_pop res /\
    (forall t, (t < length people)%nat -> nth_draw (N.of_nat (length sizes)) (N.of_nat t + 1) = Ok (points t)) /\
    refit cs sizes s (left_of []) (entry d_zero (qr_expectation res)) /\ synthesised cs sizes s points people g /\
    (forall i, index_in sizes i -> entry 0 (qr_pop_array res) i = occurrences i people).
Proof.
  intros (Hr & H61 & Hw & Hs60) [Hp Hfu] E cs sizes s.
  assert (forall c, In c cs -> csmall c) as Hsm by (intros c; now apply range_small).
  destruct (py_lists_cases ilist mlist Hr) as [[Hv _]|[Hv (e & E')]].
  2:{ unfold py_qisi in E. rewrite E' in E. discriminate. }
  pose proof (qisi_cases L fuel seed ilist mlist skips (conj Hr (conj H61 (conj Hw Hs60)))) as Hcs. cbv zeta in Hcs. rewrite E in Hcs.
  destruct Hcs as (_ & _ & _ & _ & _ & _ & r & [Hrn Hrt] & _). apply (total_nonneg (shape seed)) in Hrn. rewrite Hrt in Hrn. clear r Hrt.
  rewrite py_qisi_core in E by auto. fold cs in E. pose proof Hr as [_ Hprod]. fold cs in Hprod.
  destruct (qisi_core L fuel seed cs skips) as [[pop [[st exn] [[c p] g]]]|e|w|] eqn:Ec; cbn [bind] in E; try discriminate.
  apply qisi_core_people in Ec as (Hfit & cols & people & f0 & g' & Hlen & Hdr & -> & Hre & Hsy & Ea); auto. fold sizes in Hfit, E.
  rewrite Ea in E. fold sizes in E. rewrite !from_nd_mk in E by auto. cbn [bind] in E.
  injection E as <-. cbn [qr_pop_array qr_pop qr_expectation] in *. exists (points cols), people, g'. split; [lia|]. split; auto. split; [|split; auto].
  - destruct Hre as [H0 (n & H1 & H3 & H4 & H5)]. split; auto. exists n. split; auto. split; auto. split; auto.
    intros i Hi. rewrite entry_NDA_map by auto. auto.
  - intros i Hi. now rewrite entry_NDA_map.
Qed.

(** * The relation determines the population *)

Lemma selectsD_unique w n u k k' : selectsD w n u k -> selectsD w n u k' -> k = k'.
Proof.
  intros (H1 & H2 & H3) (H1' & H2' & H3'). destruct (Z.lt_trichotomy k k') as [L|[L|L]]; auto.
  - rewrite H3' in H2 by lia. discriminate.
  - rewrite H3 in H2' by lia. discriminate.
Qed.

Lemma tail_sum_ext sizes f g k rest : (forall i, index_in sizes i -> f i = g i) -> (k = 0%nat -> index_in sizes rest) ->
  tail_sum sizes f k rest = tail_sum sizes g k rest.
Proof.
  intros H H0. destruct k as [|k]; cbn [tail_sum]; auto. f_equal. apply map_ext_in. intros i Hi.
  apply filter_In in Hi as [Hi _]. apply H. now apply in_all_indices.
Qed.

Lemma selected_index sizes f p x : selected sizes f p x -> index_in sizes x.
Proof. intros [Hl H]. apply index_in_nth. split; auto. intros k Hk. destruct (H k ltac:(lia)) as [Hi _]. exact Hi. Qed.

Lemma selected_unique sizes f g p x y : (forall i, index_in sizes i -> f i = g i) -> selected sizes f p x -> selected sizes g p y -> x = y.
Proof.
  intros Hfg Hx Hy. pose proof (selected_index _ _ _ _ Hx) as Ix. pose proof (selected_index _ _ _ _ Hy) as Iy.
  destruct Hx as [Lx Hx], Hy as [Ly Hy].
  assert (forall m, (m <= length sizes)%nat -> skipn (length sizes - m) x = skipn (length sizes - m) y) as G.
  { induction m as [|m IH]; intros Hm.
    - rewrite !skipn_all2 by lia. reflexivity.
    - set (k := (length sizes - S m)%nat) in *. replace (length sizes - m)%nat with (S k) in IH by lia. specialize (IH ltac:(lia)).
      assert (nth k x 0 = nth k y 0) as E.
      { specialize (Hx k ltac:(lia)). specialize (Hy k ltac:(lia)). eapply selectsD_unique; [exact Hx|]. rewrite IH.
        eapply selectsD_ext; [|exact Hy]. intros v Hv. cbn beta. symmetry. apply tail_sum_ext; auto.
        intros K0. rewrite K0 in *. destruct y as [|y0 y]; [simpl in Ly; lia|]. cbn [skipn]. destruct sizes as [|n ns]; [simpl in Ly; lia|].
        inversion Iy; subst. constructor; auto. }
      assert (forall z : list Z, (k < length z)%nat -> skipn k z = nth k z 0 :: skipn (S k) z) as S1.
      { clear. induction k as [|k IH]; intros [|a z] Hz; simpl in Hz; try lia; [reflexivity|]. cbn [skipn nth]. rewrite IH by lia. reflexivity. }
      rewrite !S1 by lia. now rewrite E, IH. }
  specialize (G (length sizes) ltac:(lia)). now rewrite Nat.sub_diag in G.
Qed.

Lemma refit_unique cs sizes seed rest g g' : refit cs sizes seed rest g -> refit cs sizes seed rest g' -> forall i, index_in sizes i -> g i = g' i.
Proof.
  intros [_ (n & H1 & H2 & H3 & H4)] [_ (n' & H1' & H2' & H3' & H4')] i Hi. rewrite H4, H4' by auto.
  destruct (Nat.lt_trichotomy n n') as [L|[->|L]]; auto.
  - destruct H3 as [H3|H3]; [|lia]. exfalso. apply (H2' n); auto. lia.
  - destruct H3' as [H3'|H3']; [|lia]. exfalso. apply (H2 n'); auto. lia.
Qed.

Lemma synthesised_unique cs sizes seed points people g : synthesised cs sizes seed points people g ->
  forall people' g', synthesised cs sizes seed points people' g' -> length people = length people' ->
  people = people' /\ forall i, index_in sizes i -> g i = g' i.
Proof.
  induction 1 as [g Hr|people g x g1 Hs IH Hx Hn Hg|people g x g1 Hs IH Hx Hn Hr]; intros people' g' H' Hl;
    destruct H' as [g' Hr'|people' g2 x' g' Hs' Hx' Hn' Hg'|people' g2 x' g' Hs' Hx' Hn' Hr']; rewrite ?app_length in Hl; simpl in Hl; try lia.
  { split; auto. eapply refit_unique; eauto. }
  all: destruct (IH _ _ Hs' ltac:(lia)) as [<- Hgg]; pose proof (selected_unique _ _ _ _ _ _ Hgg Hx Hx') as <-;
    pose proof (selected_index _ _ _ _ Hx) as Ix; rewrite (Hgg x Ix) in Hn; try congruence; split; auto.
  - intros i Hi. rewrite Hg, Hg' by auto. rewrite (Hgg x Ix), (Hgg i Hi). reflexivity.
  - eapply refit_unique; eauto.
Qed.
