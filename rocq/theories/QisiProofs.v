(** Proofs about qisi: the index picked is a state, recomputing the IPF solution keeps its shape, and the loop keeps
    the counts. *)
From Verif Require Import Base Spec SpecFacts NDArray IndexProofs Float64 FloatProofs ArrayOps ArrayProofs Bind BindProofs
  SobolTable SobolSpec Sobol SobolTableProofs SobolProofs SobolClaims Micro Stat Qis SynthSpec MicroProofs PickProofs SampleProofs
  SplitProofs QisProofs QisClaims Ipf IpfSpec IpfProofs MicroDbl IpfClaims Qisi.
Open Scope Z_scope.

(** * Picking *)

Lemma dpick_cases dist r : (exists e, dpick dist r = Throw e) \/ (exists i, dpick dist r = Ok i /\ 0 <= i < Z.of_nat (length dist)).
Proof.
  unfold dpick. generalize (d_mul r (fold_left d_add dist d_zero)) as x. generalize d_zero as run. intros run x.
  assert (forall i, (exists e, dpick_loop dist x i run = Throw e) \/ (exists j, dpick_loop dist x i run = Ok j /\ i <= j < i + Z.of_nat (length dist))) as G.
  { revert run. induction dist as [|y l IH]; intros run i; cbn [dpick_loop]; [left; eauto|].
    destruct (d_ltb x (d_add run y)); [right; exists i; split; auto; simpl length; lia|].
    destruct (IH (d_add run y) (i + 1)) as [H|(j & E & H)]; [now left|]. right. exists j. split; auto. simpl length. lia. }
  destruct (G 0) as [H|(j & E & H)]; [now left|]. right. exists j. auto.
Qed.

Lemma reduce1_len sizes (f : list Z -> double) d : fits sizes -> 0 <= d < Z.of_nat (length sizes) -> d < 2 ^ 64 ->
  exists v, reduce1 DblOps (mk sizes f) d = Ok v /\ Z.of_nat (length v) = nth (Z.to_nat d) sizes 0.
Proof.
  intros Hf Hd H64. eexists. split.
  - apply reduce1_mk with (g := fun k => fold_left d_add (map f (filter (fun i => nth (Z.to_nat d) i 0 =? k) (all_indices sizes))) (n_zero DblOps)); auto.
    intros k Hk. now apply vec_sum_add.
  - rewrite map_length, length_zrange. rewrite Z2Nat.id; auto.
    destruct Hf as (_ & Hp & _). unfold positive in Hp. rewrite Forall_forall in Hp.
    assert (In (nth (Z.to_nat d) sizes 0) sizes) as Hin by (apply nth_In; lia). specialize (Hp _ Hin). lia.
Qed.

Lemma nth_mid {A} (l : list A) x l' d : nth (length l) (l ++ x :: l') d = x.
Proof. rewrite app_nth2, Nat.sub_diag by lia. reflexivity. Qed.

(** the index vector agrees with a state on the dimensions not in [s] *)
Definition picked (s rest : list Z) (index : list Z) : Prop :=
  length index = length (s ++ rest) /\ forall k, (length s <= k < length (s ++ rest))%nat -> 0 <= nth k index 0 < nth k (s ++ rest) 0.

Lemma picked_all rest index : picked [] rest index -> index_in rest index.
Proof. intros [Hl H]. apply index_in_nth. split; auto. intros k Hk. apply H. simpl. lia. Qed.

Lemma picked_set s n rest index i : picked (s ++ [n]) rest index -> 0 <= i < n ->
  vec_set index (Z.of_nat (length s)) i = Ok (upd index (length s) i) /\ picked s (n :: rest) (upd index (length s) i).
Proof.
  intros [Hl H] Hi. rewrite !app_length in Hl. simpl in Hl. split.
  - rewrite vec_set_ok by lia. now rewrite Nat2Z.id.
  - split; [rewrite length_upd, app_length; simpl; lia|]. intros k Hk. rewrite app_length in Hk. simpl in Hk.
    rewrite nth_upd by lia. destruct (Nat.eqb_spec k (length s)) as [->|Hne]; [now rewrite nth_mid|].
    specialize (H k). rewrite <- app_assoc in H. simpl in H. apply H. rewrite !app_length. simpl. lia.
Qed.

Lemma fits_app_l s n : s <> [] -> fits (s ++ [n]) -> fits s /\ 0 < n.
Proof.
  intros Hne (_ & Hp & Hb). unfold positive in Hp. apply Forall_app in Hp as [Hp Hn]. inversion Hn; subst.
  assert (prodZ (s ++ [n]) = prodZ s * n) as E.
  { clear. induction s as [|x s IH]; simpl; [lia|]. rewrite IH. lia. }
  pose proof (prodZ_pos s Hp). split; auto. split; auto. split; auto. rewrite E in Hb. nia.
Qed.

Lemma get_index_gen u : forall n s rest f index, (length s <= n)%nat -> (2 <= length s)%nat -> fits s ->
  Z.of_nat (length (s ++ rest)) < 2 ^ 63 -> length u = length (s ++ rest) -> picked s rest index ->
  (exists e, get_index n (mk s f) u index = Throw e) \/
  (exists index', get_index n (mk s f) u index = Ok index' /\ index_in (s ++ rest) index').
Proof.
  induction n as [|n IH]; intros s rest f index Hn H2 Hf H63 Hu Hp; [lia|].
  rewrite app_length in Hu, H63.
  destruct (@exists_last _ s) as (s' & k & ->). { intros ->. simpl in H2. lia. }
  rewrite app_length in H2, Hn, Hu, H63. simpl in H2, Hn, Hu, H63.
  assert (s' <> []) as Hne by (destruct s'; [simpl in H2; lia|discriminate]).
  destruct (fits_app_l s' k Hne Hf) as [Hf' Hk].
  assert (Z.of_nat (length (s' ++ [k])) = Z.of_nat (length s') + 1) as El by (rewrite app_length; simpl; lia).
  cbn [get_index]. rewrite sizes_mk, El. destruct (Z.ltb_spec 2 (Z.of_nat (length s') + 1)) as [H3|H3].
  - replace (Z.of_nat (length s') + 1 - 1) with (Z.of_nat (length s')) by lia.
    destruct (reduce1_len (s' ++ [k]) f (Z.of_nat (length s')) Hf ltac:(lia) ltac:(lia)) as (m & -> & Em). cbn [bind].
    rewrite Nat2Z.id, nth_mid in Em. rewrite (vec_get_ok _ _ 0%N) by lia. cbn [bind].
    destruct (dpick_cases m (unit_of (nth (Z.to_nat (Z.of_nat (length s'))) u 0%N))) as [(e & ->)|(i & -> & Hi)]; cbn [bind]; [left; eauto|].
    rewrite Em in Hi. destruct (picked_set s' k rest index i Hp Hi) as [-> Hp']. cbn [bind].
    rewrite slice_last by (auto; lia). cbn [bind]. rewrite <- app_assoc. simpl ([k] ++ rest).
    apply (IH s' (k :: rest)); auto; try lia; rewrite app_length; simpl; lia.
  - destruct s' as [|k0 [|? ?]]; [easy| |simpl in H3; lia]. cbn [app] in *.
    destruct (reduce1_len [k0; k] f 1 Hf ltac:(simpl; lia) ltac:(lia)) as (m & -> & Em). cbn [bind].
    change (nth (Z.to_nat 1) [k0; k] 0) with k in Em. simpl length in Hu. rewrite (vec_get_ok _ _ 0%N) by lia. cbn [bind].
    destruct (dpick_cases m (unit_of (nth (Z.to_nat 1) u 0%N))) as [(e & ->)|(i & -> & Hi)]; cbn [bind]; [left; eauto|].
    rewrite Em in Hi. destruct (picked_set [k0] k rest index i Hp Hi) as [E Hp']. change (Z.of_nat (length [k0])) with 1 in E. rewrite E. cbn [bind].
    pose proof (slice_last [k0] k f i ltac:(discriminate) Hf ltac:(simpl; lia) Hi) as Es. cbn [app length] in Es.
    change (Z.of_nat 1) with 1 in Es. rewrite Es. cbn [bind].
    rewrite nd_values_mk by auto. cbn [bind]. rewrite (vec_get_ok _ _ 0%N) by lia. cbn [bind].
    match goal with |- context [dpick ?d ?x] => destruct (dpick_cases d x) as [(e & ->)|(j & -> & Hj)] end; cbn [bind]; [left; eauto|].
    rewrite map_length, length_all_indices in Hj by (apply positive_nonneg; auto). simpl prodZ in Hj.
    destruct (picked_set [] k0 (k :: rest) (upd index 1 i) j Hp' ltac:(lia)) as [E0 Hp0]. cbn [length] in E0. change (Z.of_nat 0) with 0 in E0.
    right. eexists. split; [exact E0|]. apply picked_all in Hp0. exact Hp0.
Qed.

Lemma get_index_cases sizes f u index : fits sizes -> (2 <= length sizes)%nat -> Z.of_nat (length sizes) < 2 ^ 63 ->
  length u = length sizes -> length index = length sizes ->
  (exists e, get_index (length sizes) (mk sizes f) u index = Throw e) \/
  (exists index', get_index (length sizes) (mk sizes f) u index = Ok index' /\ index_in sizes index').
Proof.
  intros Hf H2 H63 Hu Hi. pose proof (get_index_gen u (length sizes) sizes [] f index) as G. rewrite app_nil_r in G. apply G; auto.
  split; rewrite app_nil_r; auto. intros k Hk. lia.
Qed.

(** * Whatever the code writes to an array, its shape stays *)

Section Shape.
Context {T : Type} (sizes : list Z) (Hf : fits sizes).

Definition full (a : nd T) : Prop := exists f, a = mk sizes f.

Lemma full_of_list (l : list T) : Z.of_nat (length l) = prodZ sizes -> full (ND sizes (strides sizes) (prodZ sizes) (map Some l)).
Proof.
  intros Hl. destruct l as [|x l]. { pose proof (fits_prod _ Hf). simpl in Hl. lia. }
  exists (entry x (NDA sizes (x :: l))). unfold mk, mkp. f_equal. rewrite <- (map_map (entry x (NDA sizes (x :: l))) Some). f_equal.
  symmetry. apply (map_entry x (NDA sizes (x :: l))). split; [now apply fits_ne|]. split; auto.
Qed.

Lemma full_set a idx v a' : full a -> nd_set a idx v = Ok a' -> full a'.
Proof.
  intros [f ->] E. unfold nd_set in E. destruct (nd_offset (mk sizes f) idx) as [o| | |]; cbn [bind] in E; try discriminate.
  destruct (_ <? _); [|discriminate]. injection E as <-.
  assert (forall (l : list T) n, upd (map Some l) n (Some v) = map Some (upd l n v)) as U.
  { induction l as [|x l IH]; intros [|n]; simpl; auto. now rewrite IH. }
  cbn [mk mkp nd_sizes nd_offs nd_storage nd_data]. rewrite <- (map_map f Some), U. apply full_of_list.
  rewrite length_upd, map_length. apply length_all_indices. apply positive_nonneg. auto.
Qed.

Lemma mindex_loop_full fuel (body : list Z -> nd T -> outcome (nd T)) : (forall m a a', full a -> body m a = Ok a' -> full a') ->
  forall mi main a main' a', full a -> mindex_loop fuel body mi main a = Ok (main', a') -> full a'.
Proof.
  intros Hb. induction fuel as [|fuel IH]; intros mi main a main' a' Ha E; cbn [mindex_loop] in E; [discriminate|].
  destruct (mi_end mi); [injection E as <- <-; auto|]. destruct (body main a) as [a1| | |] eqn:E1; cbn [bind] in E; try discriminate.
  destruct (mindex_next mi main) as [[m1 main1]| | |]; cbn [bind] in E; try discriminate. eapply IH; [|exact E]. eapply Hb; eauto.
Qed.

Lemma mindex_loop_m_full {M : Type} fuel (body : list Z -> nd T -> outcome (list Z * nd T)) : (forall m a m' a', full a -> body m a = Ok (m', a') -> full a') ->
  forall mi main a main' a', full a -> mindex_loop_m fuel body mi main a = Ok (main', a') -> full a'.
Proof.
  intros Hb. induction fuel as [|fuel IH]; intros mi main a main' a' Ha E; cbn [mindex_loop_m] in E; [discriminate|].
  destruct (mi_end mi); [injection E as <- <-; auto|]. destruct (body main a) as [[mn1 a1]| | |] eqn:E1; cbn [bind] in E; try discriminate.
  destruct (mindex_next mi mn1) as [[m1 main1]| | |]; cbn [bind] in E; try discriminate. eapply IH; [|exact E]. eapply Hb; eauto.
Qed.

Lemma rscale_full {M : Type} (SO : ScaleOps M T) fuel indices margs a a' : full a -> rscale SO fuel indices margs a = Ok a' -> full a'.
Proof.
  unfold rscale. generalize (numbered 0 indices) as l. intros l. revert a.
  induction l as [|[k ix] l IH]; intros a Ha E; cbn [foldM] in E; [injection E as <-; auto|].
  destruct (vec_get margs k) as [m| | |]; cbn [bind] in E; try discriminate.
  destruct (rscale_step SO fuel ix m a) as [a1| | |] eqn:E1; cbn [bind] in E; try discriminate. apply (IH a1); auto. clear E IH.
  unfold rscale_step in E1. destruct (reduce _ a ix) as [r| | |]; cbn [bind] in E1; try discriminate.
  destruct (index_new _) as [mi| | |]; cbn [bind] in E1; try discriminate. destruct (invert _ ix) as [inv| | |]; cbn [bind] in E1; try discriminate.
  destruct (mindex_new mi inv) as [oi| | |]; cbn [bind] in E1; try discriminate.
  match type of E1 with bind ?x _ = _ => destruct x as [[mn a2]| | |] eqn:E2; cbn [bind] in E1; try discriminate end. injection E1 as <-.
  refine (mindex_loop_m_full (M := M) _ _ _ _ _ _ _ _ Ha E2). clear - Hf. intros m0 a m' a' Ha E.
  destruct (mindex_new _ ix) as [ii| | |]; cbn [bind] in E; try discriminate.
  refine (mindex_loop_full _ _ _ _ _ _ _ _ Ha E). clear - Hf. intros mn a a' Ha E. unfold rscale_cell in E.
  destruct (mapM _ ix) as [idx| | |]; cbn [bind] in E; try discriminate. destruct (nd_get r idx) as [rv| | |]; cbn [bind] in E; try discriminate.
  destruct (negb _); [|eapply full_set; eauto]. destruct (nd_get m idx) as [mv| | |]; cbn [bind] in E; try discriminate.
  destruct (nd_get a mn) as [av| | |]; cbn [bind] in E; try discriminate. eapply full_set; eauto.
Qed.

Lemma ipf_loop_full {M : Type} (SO : ScaleOps M T) (EO : ErrOps T) fuel left indices margs : forall a diffs errs mx conv n st,
  full a -> ipf_loop SO EO fuel left indices margs a diffs errs mx conv n = Ok st -> full (is_arr st).
Proof.
  induction left as [|left IH]; intros a diffs errs mx conv n st Ha E; cbn [ipf_loop] in E.
  - destruct mx; [|discriminate]. injection E as <-. auto.
  - destruct conv; [destruct mx; [|discriminate]; injection E as <-; auto|].
    destruct (rscale _ _ _ _ a) as [a1| | |] eqn:E1; cbn [bind] in E; try discriminate.
    destruct (rdiff _ _ _ _ _) as [d1| | |]; cbn [bind] in E; try discriminate.
    destruct (compute_errors _ _ _ _) as [[[e1 m1] c1]| | |]; cbn [bind] in E; try discriminate.
    eapply IH; [|exact E]. eapply rscale_full; eauto.
Qed.

Lemma ipf_solve_full {M : Type} (SO : ScaleOps M T) (EO : ErrOps T) fuel ix pop h margs f st :
  ipf_solve SO EO fuel (MS sizes ix pop (mkp sizes h)) margs (mk sizes f) = Ok st -> full (is_arr st).
Proof.
  intros E. unfold ipf_solve in E. cbn [ms_array ms_indices] in E.
  destruct (check_seed _ _); cbn [bind] in E; try discriminate. destruct (index_new _); cbn [bind] in E; try discriminate.
  destruct (make_mappings _ _); cbn [bind] in E; try discriminate. rewrite copy_seed_ok in E by auto. cbn [bind] in E.
  destruct (mapM _ margs); cbn [bind] in E; try discriminate.
  eapply ipf_loop_full; [|exact E]. now exists f.
Qed.

Lemma nd_copy_same (f : list Z -> T) h : nd_copy (mk sizes f) (mkp sizes h) = Ok (mk sizes f).
Proof.
  pose proof (nd_copy_mk sizes f Hf) as E. unfold nd_copy in *. rewrite sizes_mk in *.
  unfold nd_resize in *. destruct (storage_size sizes) as [st| | |] eqn:Es; cbn [bind] in *; try discriminate.
  assert (st = prodZ sizes) as ->.
  { destruct (_ <? st); [destruct (allocate st)|]; cbn [bind] in E; try discriminate;
      (destruct (compute_offs st sizes); cbn [bind] in E; try discriminate; rewrite nd_values_mk in E by auto; cbn [bind] in E;
       destruct (_ <=? _); [|discriminate]; cbn [nd_storage nd_sizes nd_offs nd_data] in E; injection E; auto). }
  cbn [mkp nd_storage nd_data]. rewrite Z.ltb_irrefl. cbn [bind].
  destruct (_ <? _); [destruct (allocate _)|]; cbn [bind] in E; try discriminate;
  (destruct (compute_offs _ _) as [os| | |]; cbn [bind] in *; try discriminate; rewrite nd_values_mk in * by auto; cbn [bind nd_data nd_sizes nd_offs nd_storage] in *;
   destruct (_ <=? _) in E; [|discriminate]; injection E as E1 E2; subst os;
   rewrite !map_length, Z.leb_refl, skipn_all2 by (rewrite !map_length; lia); rewrite app_nil_r, map_map; reflexivity).
Qed.

End Shape.

(** * The loop *)

Section Loop.
Context (cs : list con) (sizes : list Z).
Context (Hsm : forall c, In c cs -> csmall c) (Himp : implied cs sizes) (Hfit : fits sizes) (Hnn : forall c, In c cs -> nonneg c).
Context (H61 : forall c, In c cs -> c_total c < 2 ^ 61) (H2 : (2 <= length sizes)%nat) (H63 : Z.of_nat (length sizes) < 2 ^ 63).
Context (fuel : nat) (seed : list Z -> double).

(** what makes the recomputation return or raise *)
Definition good : Prop := (forall c, In c cs -> proper (length sizes) (c_dims c)) /\ prodZ sizes < Z.of_nat fuel.

(** what is left of the constraint when [r] has been sampled *)
Definition rcon (r : list Z -> Z) (c : con) : con := CON (c_dims c) (c_sizes c) (rem sizes c r).

Lemma rcon_small r t c : In c cs -> counts sizes t r -> t < 2 ^ 32 -> csmall (rcon r c).
Proof.
  intros Hc [Hr Ht] Hb. destruct (Hsm c Hc) as (Hf & Hl & _). split; auto. split; auto. cbn [rcon c_sizes c_at].
  assert (total (c_sizes c) (fun k => Z.abs (rem sizes c r k)) <=
    total (c_sizes c) (c_at c) + total (c_sizes c) (fun k => margin sizes (c_dims c) k r)) as H.
  { unfold total. rewrite <- sumZ_map_add. apply sumZ_map_le. intros k Hk. apply in_all_indices in Hk. unfold rem.
    pose proof (margin_le_total sizes (c_dims c) k r Hr). pose proof (Hnn c Hc k Hk). lia. }
  rewrite <- (csizes cs sizes Himp c Hc) in H at 3. rewrite total_margin in H by now apply (cdims cs sizes Himp c Hc).
  specialize (H61 c Hc). unfold c_total in H61. lia.
Qed.

Lemma implied_rcon r s : implied (map (rcon r) cs) s <-> implied cs s.
Proof.
  unfold implied. split.
  - intros [H1 H3]. split.
    + intros d. rewrite <- H1. split.
      * intros (c & Hc & Hd). exists (rcon r c). split; auto. now apply in_map.
      * intros (c & Hc & Hd). apply in_map_iff in Hc as (c' & <- & Hc'). now exists c'.
    + intros c Hc. apply (H3 (rcon r c)). now apply in_map.
  - intros [H1 H3]. split.
    + intros d. rewrite <- H1. split.
      * intros (c & Hc & Hd). apply in_map_iff in Hc as (c' & <- & Hc'). now exists c'.
      * intros (c & Hc & Hd). exists (rcon r c). split; auto. now apply in_map.
    + intros c Hc. apply in_map_iff in Hc as (c' & <- & Hc'). apply (H3 c' Hc').
Qed.

Definition gc (r : list Z -> Z) (c : con) : gcon Z := GC (c_dims c) (c_sizes c) (rem sizes c r).

Lemma recompute_cases r t h : counts sizes t r -> t < 2 ^ 32 ->
  match recompute_ipf fuel (map c_dims cs) (rems cs sizes r) (mk sizes seed) (mkp sizes h) with
  | Ok a => full sizes a | Throw _ => True | UB _ | Diverge => ~ good
  end.
Proof.
  intros Hc Hb. unfold recompute_ipf.
  assert (rems cs sizes r = map nd_of (map (rcon r) cs)) as Em by (unfold rems; now rewrite map_map).
  assert (map c_dims cs = map c_dims (map (rcon r) cs)) as Ed by now rewrite map_map.
  destruct (micro_new_spec (T := double) (map (rcon r) cs)) as [(s & Hv & E)|[_ (e & E)]].
  { intros c Hin. apply in_map_iff in Hin as (c' & <- & Hin). now apply (rcon_small r t). }
  { intros s Hs. apply implied_rcon in Hs. rewrite (implied_unique _ _ _ Hs Himp). now apply fits_prod. }
  2:{ rewrite Em, Ed, E. exact I. }
  destruct Hv as (_ & Hi & _). apply implied_rcon in Hi. pose proof (implied_unique _ _ _ Hi Himp) as ->. clear Hi.
  rewrite <- Em, <- Ed in E. rewrite E. cbn [bind]. clear E.
  set (pop := pop_of _). clearbody pop.
  set (o := ipf_solve (DblScale d_ofZ) DblErr fuel (MS sizes (map c_dims cs) pop (mkp sizes (fun _ => None))) (rems cs sizes r) (mk sizes seed)).
  assert (good -> exists st, o = Ok st) as Hg.
  { intros [Hp Hfu]. unfold o. rewrite Em, Ed, !map_map.
    change (map (fun x => c_dims (rcon r x)) cs) with (map (fun x => g_dims (gc r x)) cs). rewrite <- (map_map (gc r) g_dims).
    change (map (fun x => nd_of (rcon r x)) cs) with (map (fun x => gnd (gc r x)) cs). rewrite <- (map_map (gc r) gnd).
    rewrite (ipf_solve_ok (DblScale d_ofZ) DblErr d_add); auto.
    - destruct (sweeps _ _ _ _ _ _ _ _). eauto.
    - intros c Hin. apply in_map_iff in Hin as (c' & <- & Hin). destruct (Hp c' Hin) as [Hnd Hlt].
      pose proof (cdims cs sizes Himp c' Hin). pose proof (csizes cs sizes Himp c' Hin) as Hs. pose proof (clen cs sizes Himp c' Hin) as Hlc.
      destruct (Hsm c' Hin) as ((Hne & _) & _). split; [|now auto]. cbn [gc g_dims]. intros E0. rewrite E0 in Hlc.
      destruct (c_sizes c'); [now apply Hne|discriminate]. }
  destruct o as [st|e|w|] eqn:Es; cbn [bind]; auto.
  - destruct (ipf_solve_full sizes Hfit _ _ _ _ _ _ _ _ _ Es) as [f ->]. rewrite nd_copy_same by auto. now exists f.
  - intros G. destruct (Hg G). discriminate.
  - intros G. destruct (Hg G). discriminate.
Qed.

Context (cols : list (list N)) (Hcols : length cols = length sizes) (Hdir : Forall valid_directions cols).

Definition iinv (t : Z) (s : istate) : Prop :=
  exists r v f, view_of cols v (i_sobol s) /\ v_n v = Z.to_N t /\ counts sizes t r /\ i_margs s = rems cs sizes r /\
    i_arr s = mk sizes r /\ (i_conv s = true <-> left_ok cs sizes r) /\ i_sol s = mk sizes f /\ length (i_main s) = length sizes.

Lemma qisi_step_cases t s : 0 <= t -> iinv t s ->
  match qisi_step fuel (map c_dims cs) (mk sizes seed) s with
  | Ok s' => iinv (t + 1) s' | Throw _ => True | UB _ | Diverge => ~ good
  end.
Proof.
  intros Ht0 (r & v & f & Hv & Hn & Hc & Em & Ea & Ecv & Ef & Hl). unfold qisi_step.
  pose proof (view_n_le _ _ _ Hv) as Hle. destruct (N.eq_dec (v_n v) limit) as [El|Nl].
  - rewrite (sobol_buf_end cols v _ Hv El). exact I.
  - destruct (sobol_buf_ok cols v _ Hdir Hv) as (sb & Eb & Hv'); [lia|]. rewrite Eb. cbn [bind].
    assert (0 <= t < 2 ^ 32 - 1) as Hb by (unfold limit in *; lia).
    assert (length (point_of cols (v_n v + 1)) = length sizes) as Hlp by (rewrite <- Hcols; unfold point_of; now rewrite map_length).
    rewrite Ef, sizes_mk.
    destruct (get_index_cases sizes f (point_of cols (v_n v + 1)) (i_main s) Hfit H2 H63 Hlp Hl) as [(e & ->)|(main & -> & Hm)]; cbn [bind]; auto.
    rewrite Ea, (increment_ok sizes Hfit r t main) by (auto; lia). cbn [bind]. rewrite Em.
    destruct (decrement_ok cs sizes Hsm Himp Hnn r t main (i_conv s) Hc ltac:(lia) Hm) as (conv' & -> & Hcv). cbn [bind].
    rewrite nd_get_mk by auto. cbn [bind]. rewrite nd_set_mk by auto. cbn [bind]. rewrite nd_get_mk by auto. cbn [bind].
    pose proof (counts_inc sizes t r main Hm Hc) as Hc'.
    assert (forall sol, full sizes sol -> iinv (t + 1) (QIS sb main (rems cs sizes (inc r main)) (mk sizes (inc r main)) conv' sol)) as Hfin.
    { intros sol [f' ->]. exists (inc r main), (SV (v_n v + 1) (v_n v + 1) (v_pos v)), f'. cbn [i_sobol i_margs i_arr i_conv i_sol i_main v_n].
      split; auto. split; [rewrite Hn, Z2N.inj_add by lia; lia|]. split; auto. split; auto. split; auto. split; [|split; auto].
      - eapply (left_ok_inc cs sizes Himp); eauto.
      - now apply index_in_length. }
    destruct (d_ltb _ d_zero).
    + pose proof (recompute_cases (inc r main) (t + 1) (fun i => Some (fupd f main (d_sub (f main) d_one) i)) Hc' ltac:(lia)) as Hrc.
      fold (mk sizes (fupd f main (d_sub (f main) d_one))) in Hrc.
      destruct (recompute_ipf _ _ _ _ _) as [sol| | |]; cbn [bind]; auto.
    + cbn [bind]. apply Hfin. eexists; reflexivity.
Qed.

Lemma qisi_loop_cases n : forall t s, 0 <= t -> iinv t s ->
  match foldM (fun (_ : unit) s => qisi_step fuel (map c_dims cs) (mk sizes seed) s) (repeat tt n) s with
  | Ok s' => iinv (t + Z.of_nat n) s' | Throw _ => True | UB _ | Diverge => ~ good
  end.
Proof.
  induction n as [|n IH]; intros t s Ht Hi.
  - simpl. now rewrite Z.add_0_r.
  - simpl repeat. cbn [foldM]. pose proof (qisi_step_cases t s Ht Hi) as H. destruct (qisi_step _ _ _ s) as [s1| | |]; cbn [bind]; auto.
    specialize (IH (t + 1) s1 ltac:(lia) H). replace (t + Z.of_nat (S n)) with (t + 1 + Z.of_nat n) by lia. exact IH.
Qed.

End Loop.
