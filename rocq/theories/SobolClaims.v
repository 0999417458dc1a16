(** Closing lemmas for PropSobol.v. *)
From Coq Require Import Reals.
From Verif Require Import Base SpecFacts Float64 FloatProofs SobolTable Sobol SobolSpec SobolTableProofs SobolProofs.
Open Scope N_scope.
#[local] Arguments N.pow : simpl never.

(** the object after construction without skips and n draws *)
Definition after_draws (dim n : N) : outcome sobol :=
  N.iter n (fun o => let* s := o in let* '(s', _) := sobol_buf s in Ok s') (sobol_new 64 dim 0).
(** the n-th point: the content of the buffer after n draws (all zero for n = 0) *)
Definition nth_draw (dim n : N) : outcome (list N) := let* s := after_draws dim n in Ok (s_buf s).

(** objects a Python user can hold *)
Inductive py_reach (dim : N) : sobol -> Prop :=
| py_new fuel nskip s : nskip < 2 ^ 32 -> sobol_generator fuel dim nskip = Ok s -> py_reach dim s
| py_next s s' l : py_reach dim s -> generator_next s = Ok (s', l) -> py_reach dim s'.

Lemma table_unique dim cols cols' : (dim <= 1111)%nat -> is_table dim cols -> is_table dim cols' -> cols = cols'.
Proof.
  intros Hd [L H] [L' H']. apply (nth_ext _ _ [] []); [congruence|]. intros i Hi. rewrite L in Hi.
  apply (is_directions_unique i); auto; try lia. all: auto.
Qed.

Lemma after_draws_ok dim n : 1 <= dim <= 1111 -> n <= limit ->
  exists cols s, after_draws dim n = Ok s /\ is_table (N.to_nat dim) cols /\ Forall valid_directions cols /\
    init_m dim = Ok cols /\ view_of cols (SV n n dim) s.
Proof.
  intros Hd. destruct (sobol_new_ok dim 0 64 Hd ltac:(lia) ltac:(lia)) as (cols & s0 & E0 & Ht & Hv & Ei & H0).
  cbn [N.ltb N.compare] in H0. intros Hn. exists cols.
  unfold after_draws. rewrite E0.
  induction n as [|n IH] using N.peano_ind.
  - exists s0. auto.
  - destruct IH as (s & E & _ & _ & _ & Hs); [lia|]. rewrite N.iter_succ, E. cbn [bind].
    destruct (sobol_buf_ok cols (SV n n dim) s Hv Hs) as (s' & E' & Hs'); [cbn; lia|]. rewrite E'. cbn [bind].
    exists s'. cbn [v_n v_pos] in Hs'. rewrite <- N.add_1_r. auto.
Qed.

Lemma nth_draw_ok dim n : 1 <= dim <= 1111 -> n <= limit ->
  exists cols, nth_draw dim n = Ok (point_of cols n) /\ is_table (N.to_nat dim) cols /\ Forall valid_directions cols.
Proof.
  intros Hd Hn. destruct (after_draws_ok dim n Hd Hn) as (cols & s & E & Ht & Hv & _ & Hs). exists cols.
  unfold nth_draw. rewrite E. cbn [bind]. destruct Hs as (_ & _ & Hb & _). cbn in Hb. rewrite Hb. auto.
Qed.

Lemma nth_point_of cols i n : (i < length cols)%nat -> nth i (point_of cols n) 0 = coord (nth i cols []) n.
Proof.
  intros Hi. unfold point_of. rewrite (nth_indep _ 0 (coord [] n)) by now rewrite map_length.
  apply (map_nth (fun m => coord m n)).
Qed.

Lemma nth_valid cols i : Forall valid_directions cols -> (i < length cols)%nat -> valid_directions (nth i cols []).
Proof. intros H Hi. rewrite Forall_forall in H. apply H, nth_In, Hi. Qed.

(** C25 *)
Lemma stratified_claim dim i k t v : 1 <= dim <= 1111 -> (i < N.to_nat dim)%nat -> k <= 32 ->
  (t + 1) * 2 ^ k <= 2 ^ 32 -> v < 2 ^ k ->
  exists! n, t * 2 ^ k <= n < (t + 1) * 2 ^ k /\
    exists p, nth_draw dim n = Ok p /\ v * 2 ^ (32 - k) <= nth i p 0 < (v + 1) * 2 ^ (32 - k).
Proof.
  intros Hd Hi Hk Ht Hvk. destruct (init_m_ok dim Hd) as (cols & _ & Htab & Hval). pose proof Htab as [Hl _].
  assert (forall n, n < 2 ^ 32 -> nth_draw dim n = Ok (point_of cols n)) as Hdraw.
  { intros n Hn. destruct (nth_draw_ok dim n Hd) as (cols' & E & Ht' & _); [unfold limit; lia|].
    rewrite E. f_equal. f_equal. apply (table_unique (N.to_nat dim)); auto; lia. }
  pose proof (N.pow_nonzero 2 (32 - k) ltac:(lia)) as Hz.
  assert (forall x, v * 2 ^ (32 - k) <= x < (v + 1) * 2 ^ (32 - k) <-> N.shiftr x (32 - k) = v) as Hint.
  { intros x. rewrite N.shiftr_div_pow2. generalize dependent (2 ^ (32 - k)). intros w Hz. rewrite N.mul_add_distr_r, N.mul_1_l. clear Ht Hvk. split.
    - intros [H1 H2]. symmetry. apply N.div_unique with (r := x - v * w); [lia|]. rewrite (N.mul_comm w). lia.
    - intros E. pose proof (N.div_mod x _ Hz) as H1. pose proof (N.mod_lt x _ Hz) as H2. rewrite E in H1.
      rewrite (N.mul_comm v). generalize dependent (x mod w). intros r H1 H2. lia. }
  assert ((t + 1) * 2 ^ k = t * 2 ^ k + 2 ^ k) as Hd1 by now rewrite N.mul_add_distr_r, N.mul_1_l.
  assert (i < length cols)%nat as Hil by lia.
  destruct (coord_block (nth i cols []) k t v (nth_valid _ _ Hval Hil) Hk Ht Hvk) as (r & [Hr Er] & Hu).
  rewrite Hd1 in *. exists (t * 2 ^ k + r). split.
  - split; [lia|]. exists (point_of cols (t * 2 ^ k + r)). split; [apply Hdraw; lia|].
    rewrite nth_point_of by lia. now apply Hint.
  - intros n [Hn (p & Ep & Hp)]. rewrite Hdraw in Ep by lia. injection Ep as <-. rewrite nth_point_of in Hp by lia.
    apply Hint in Hp. rewrite (Hu (n - t * 2 ^ k)); [lia|]. split; [lia|].
    replace (t * 2 ^ k + (n - t * 2 ^ k)) with n by lia. exact Hp.
Qed.

(** C26 *)
Lemma distinct_claim dim i n n' p p' : 1 <= dim <= 1111 -> (i < N.to_nat dim)%nat -> n <= limit -> n' <= limit ->
  nth_draw dim n = Ok p -> nth_draw dim n' = Ok p' -> nth i p 0 = nth i p' 0 -> n = n'.
Proof.
  intros Hd Hi Hn Hn' E E' Heq. destruct (nth_draw_ok dim n Hd Hn) as (cols & En & Ht & Hv).
  destruct (nth_draw_ok dim n' Hd Hn') as (cols' & En' & Ht' & _).
  assert (cols' = cols) as -> by (apply (table_unique (N.to_nat dim)); auto; lia). pose proof Ht as [Hl _].
  rewrite En in E. injection E as <-. rewrite En' in E'. injection E' as <-.
  rewrite !nth_point_of in Heq by lia. unfold limit in *.
  apply (coord_inj (nth i cols [])); auto; try lia. apply nth_valid; auto. lia.
Qed.

(** C29 *)
Lemma point_claim dim n : 1 <= dim <= 1111 -> n <= 2 ^ 32 - 1 ->
  exists p, nth_draw dim n = Ok p /\ length p = N.to_nat dim /\
    forall i m, (i < N.to_nat dim)%nat -> is_directions i m -> nth i p 0 = coord m n.
Proof.
  intros Hd Hn. destruct (nth_draw_ok dim n Hd Hn) as (cols & E & [Hl Ht] & Hv).
  exists (point_of cols n). split; auto. split; [unfold point_of; now rewrite map_length|].
  intros i m Hi Hm. rewrite nth_point_of by lia. f_equal. apply (is_directions_unique i); auto. lia.
Qed.

Lemma skip_count_more fuel fuel' k n r : skip_count fuel k n = Ok r -> (fuel <= fuel')%nat -> skip_count fuel' k n = Ok r.
Proof.
  revert fuel' k. induction fuel as [|f IH]; intros [|f'] k H Hle; cbn [skip_count] in *; try discriminate; try lia.
  destruct (w32 (k * 2) <? n); auto. apply IH; auto. lia.
Qed.

Lemma new_inv fuel dim nskip s : nskip < 2 ^ 32 -> sobol_new fuel dim nskip = Ok s ->
  1 <= dim <= 1111 /\ (nskip = 0 \/ nskip <= 2 ^ 31) /\ sobol_new (Nat.max fuel 32) dim nskip = Ok s.
Proof.
  intros Hn. unfold sobol_new. destruct (N.ltb_spec dim 1); [discriminate|].
  destruct (N.ltb_spec 1111 dim); [discriminate|]. cbn [orb]. intros E. split; [lia|].
  destruct (sobol_create dim) as [[sd|]| | |]; cbn [bind] in *; try discriminate.
  destruct (N.ltb_spec 0 nskip); [|split; auto; lia].
  unfold sobol_do_skip, sobol_skip in *. cbn [s_sd s_buf s_dim s_pos] in *.
  destruct (skip_count fuel 1 nskip) as [k| | |] eqn:Ek; cbn [bind] in *; try discriminate.
  rewrite (skip_count_more fuel (Nat.max fuel 32) 1 nskip k Ek) by lia. split; auto.
  right. destruct (N.le_gt_cases nskip (2 ^ 31)); auto. rewrite skip_count_div in Ek by auto. discriminate.
Qed.

(** the points consumed by the constructor *)
Definition start (nskip : N) : N := if 0 <? nskip then skipped nskip else 0.
Lemma skipped_le n : n <= 2 ^ 31 -> skipped n <= 2 ^ 31.
Proof.
  intros Hn. unfold skipped. destruct (N.leb_spec n 2); [lia|].
  apply N.le_trans with (n - 1); [|lia]. now apply N.log2_spec; lia.
Qed.

Lemma new_view fuel dim nskip s : nskip < 2 ^ 32 -> sobol_new fuel dim nskip = Ok s ->
  exists cols v, is_table (N.to_nat dim) cols /\ Forall valid_directions cols /\ init_m dim = Ok cols /\ view_of cols v s /\
    v_n v = start nskip /\ 1 <= dim <= 1111.
Proof.
  intros Hn E. destruct (new_inv fuel dim nskip s Hn E) as (Hd & Hs & E').
  destruct (sobol_new_ok dim nskip (Nat.max fuel 32) Hd ltac:(destruct Hs; lia) ltac:(lia)) as (cols & s' & E'' & Ht & Hv & Hi & Hview).
  rewrite E' in E''. injection E'' as <-. exists cols. eexists. split; [exact Ht|]. split; auto. split; auto. split; [exact Hview|].
  split; auto. unfold start, view_skip. cbn [v_n]. destruct (N.ltb_spec 0 nskip); auto. cbn [v_n].
  pose proof (skipped_le nskip ltac:(destruct Hs; lia)). unfold limit. lia.
Qed.

Lemma next_inv s s' l : generator_next s = Ok (s', l) -> exists b, sobol_buf s = Ok (s', b) /\
  l = map (fun i => d_mul (d_ofZ (Z.of_N i)) sobol_SCALE) b.
Proof.
  unfold generator_next. destruct (sobol_buf s) as [[s1 b]|e| |]; try discriminate.
  - intros [= <- <-]. eauto.
  - destruct e; discriminate.
Qed.

Lemma buf_inv cols v s s' b : Forall valid_directions cols -> view_of cols v s -> sobol_buf s = Ok (s', b) ->
  v_n v < limit /\ b = point_of cols (v_n v + 1) /\ view_of cols (SV (v_n v + 1) (v_n v + 1) (v_pos v)) s'.
Proof.
  intros Hv Hs E. pose proof (view_n_le _ _ _ Hs). destruct (N.eq_dec (v_n v) limit) as [En|].
  - rewrite (sobol_buf_end cols v s Hs En) in E. discriminate.
  - destruct (sobol_buf_ok cols v s Hv Hs) as (s1 & E1 & H1); [lia|]. rewrite E1 in E. injection E as <- <-.
    split; [lia|auto].
Qed.

Lemma reach_view dim s : py_reach dim s -> exists cols v, is_table (N.to_nat dim) cols /\ Forall valid_directions cols /\
  view_of cols v s /\ 1 <= dim <= 1111.
Proof.
  induction 1 as [fuel nskip s Hn E|s s' l _ (cols & v & Ht & Hv & Hs & Hd) E].
  - destruct (new_view fuel dim nskip s Hn E) as (cols & v & Ht & Hv & Hi & Hs & _ & Hd). exists cols, v. auto.
  - destruct (next_inv _ _ _ E) as (b & Eb & _). destruct (buf_inv cols v s s' b Hv Hs Eb) as (_ & _ & Hs'). eauto 10.
Qed.

Lemma unit_claim dim s s' l : py_reach dim s -> generator_next s = Ok (s', l) ->
  length l = N.to_nat dim /\ Forall (fun v => d_ltb d_zero v = true /\ d_ltb v d_one = true) l.
Proof.
  intros Hr E. destruct (reach_view dim s Hr) as (cols & v & [Hl Ht] & Hv & Hs & Hd).
  destruct (next_inv _ _ _ E) as (b & Eb & ->). destruct (buf_inv cols v s s' b Hv Hs Eb) as (Hn & -> & _).
  split; [unfold point_of; rewrite !map_length; lia|]. unfold point_of. rewrite map_map, Forall_map.
  unfold limit in Hn. eapply Forall_impl; [|exact Hv]. intros m Hm.
  pose proof (coord_lt m (v_n v + 1) Hm). pose proof (coord_nonzero m (v_n v + 1) Hm ltac:(lia) ltac:(lia)).
  set (u := coord m (v_n v + 1)) in *.
  assert (0 <= Z.of_N u < 2 ^ 32)%Z as Hu by (change (2 ^ 32)%Z with (Z.of_N (2 ^ 32)); lia).
  pose proof (scale32 (Z.of_N u) Hu) as Hf. pose proof (scale32_bounds (Z.of_N u) Hu) as [_ Hb]. split.
  - apply (d_ltb_true _ _ _ _ fin_zero Hf). apply Rmult_lt_0_compat; [|apply Flocq.Core.Raux.bpow_gt_0]. apply IZR_lt. lia.
  - apply (d_ltb_true _ _ _ _ Hf fin_one). exact Hb.
Qed.

Lemma value_claim s s' l : generator_next s = Ok (s', l) ->
  exists b, sobol_buf s = Ok (s', b) /\ Forall2 (fun u v => u < 2 ^ 32 ->
    Flocq.IEEE754.BinarySingleNaN.is_finite v = true /\
    Flocq.IEEE754.BinarySingleNaN.B2R v = (IZR (Z.of_N u) / IZR (2 ^ 32))%R) b l.
Proof.
  intros E. destruct (next_inv _ _ _ E) as (b & Eb & ->). exists b. split; auto.
  clear. induction b as [|u b IH]; constructor; auto. intros Hu.
  assert (0 <= Z.of_N u < 2 ^ 32)%Z as Hu' by (change (2 ^ 32)%Z with (Z.of_N (2 ^ 32)); lia).
  destruct (scale32 (Z.of_N u) Hu') as [F V]. split; auto.
Qed.

(** C27 *)
Lemma exhausted_claim dim : 1 <= dim <= 1111 ->
  exists s, after_draws dim (2 ^ 32 - 1) = Ok s /\
    generator_next s = Throw (OutOfRange "Exceeded generation limit (2^32-1)").
Proof.
  intros Hd. destruct (after_draws_ok dim limit Hd ltac:(lia)) as (cols & s & E & Ht & Hv & Hi & Hs).
  exists s. split; auto. unfold generator_next. now rewrite (sobol_buf_end cols _ _ Hs).
Qed.

(** C28 *)
Lemma skip_claim dim nskip fuel : 1 <= dim <= 1111 -> nskip <= 2 ^ 31 -> (32 <= fuel)%nat ->
  exists k s s' l p, k = (if nskip =? 0 then 0 else if nskip <=? 2 then 1 else 2 ^ N.log2 (nskip - 1)) /\
    (2 < nskip -> k < nskip /\ nskip <= 2 * k) /\
    sobol_generator fuel dim nskip = Ok s /\ generator_next s = Ok (s', l) /\
    nth_draw dim (k + 1) = Ok p /\ l = map (fun i => d_mul (d_ofZ (Z.of_N i)) sobol_SCALE) p.
Proof.
  intros Hd Hn Hf. destruct (sobol_new_ok dim nskip fuel Hd Hn Hf) as (cols & s & E & Ht & Hv & Hi & Hs).
  destruct (new_view fuel dim nskip s ltac:(lia) E) as (cols' & v & Ht' & _ & Hi' & Hs' & Hvn & _).
  rewrite Hi in Hi'. injection Hi' as <-.
  assert (start nskip <= 2 ^ 31) as Hst.
  { unfold start. destruct (N.ltb_spec 0 nskip); [now apply skipped_le|lia]. }
  destruct (sobol_buf_ok cols v s Hv Hs') as (s1 & E1 & H1); [unfold limit; lia|].
  destruct (nth_draw_ok dim (start nskip + 1) Hd) as (cols2 & E2 & Ht2 & _); [unfold limit; lia|].
  assert (cols2 = cols) as -> by (apply (table_unique (N.to_nat dim)); auto; lia).
  exists (start nskip), s, s1. exists (map (fun i => d_mul (d_ofZ (Z.of_N i)) sobol_SCALE) (point_of cols (start nskip + 1))).
  exists (point_of cols (start nskip + 1)). split.
  { unfold start, skipped. destruct (N.eqb_spec nskip 0) as [->|]; [reflexivity|].
    now rewrite (proj2 (N.ltb_lt 0 nskip)) by lia. }
  split.
  { intros H2. unfold start. rewrite (proj2 (N.ltb_lt 0 nskip)) by lia. unfold skipped.
    destruct (N.leb_spec nskip 2); [lia|]. pose proof (N.log2_spec (nskip - 1) ltac:(lia)) as [HA HB].
    rewrite N.pow_succ_r' in HB. lia. }
  split; [exact E|]. split; [|auto]. unfold generator_next. now rewrite E1, Hvn.
Qed.

Lemma skip_hang_claim dim nskip fuel : 1 <= dim <= 1111 -> 2 ^ 31 < nskip -> nskip < 2 ^ 32 ->
  sobol_generator fuel dim nskip = Diverge.
Proof.
  intros Hd H1 H2. unfold sobol_generator, sobol_new. destruct (N.ltb_spec dim 1); [lia|].
  destruct (N.ltb_spec 1111 dim); [lia|]. cbn [orb].
  destruct (sobol_create_ok dim Hd) as (cols & sd & E & _). rewrite E. cbn [bind].
  rewrite (proj2 (N.ltb_lt 0 nskip)) by lia. unfold sobol_do_skip, sobol_skip. rewrite skip_count_div by auto. reflexivity.
Qed.

(** C30 *)
Lemma directions_claim i : (i < 1111)%nat ->
  exists m, is_directions i m /\ (forall m', is_directions i m' -> m' = m) /\
    (forall j, (j < 32)%nat -> N.odd (m_at m j) = true /\ m_at m j < 2 ^ N.of_nat (j + 1)) /\
    forall dim cols, (i < N.to_nat dim)%nat -> dim <= 1111 -> init_m dim = Ok cols -> nth i cols [] = m.
Proof.
  intros Hi. destruct (init_m_ok 1111 ltac:(lia)) as (cols & _ & [Hl Ht] & Hv).
  exists (nth i cols []). split; [apply Ht; lia|]. split.
  - intros m' Hm'. apply (is_directions_unique i); auto; apply Ht; lia.
  - split.
    + apply nth_valid; auto. lia.
    + intros dim cols' Hid Hd E. destruct (init_m_ok dim ltac:(lia)) as (cols2 & E2 & [Hl2 Ht2] & _).
      rewrite E in E2. injection E2 as <-. apply (is_directions_unique i); auto; apply Ht; lia.
Qed.

Lemma polynomials_claim : length sobol_a = 1110%nat /\ NoDup sobol_a /\ Forall primitive sobol_a.
Proof.
  split; [reflexivity|]. split; [exact polynomials_distinct|]. apply Forall_forall. intros p Hp.
  apply primitive_b_ok. pose proof all_primitive as H. rewrite forallb_forall in H. auto.
Qed.

(** C45 *)
Lemma history_claim dim nskip fuel ops : 1 <= dim <= 1111 -> nskip <= 2 ^ 31 -> (32 <= fuel)%nat ->
  Forall (fun op => match op with Skip n | Reset n => n <= 2 ^ 31 | _ => True end) ops ->
  exists cols s, is_table (N.to_nat dim) cols /\ sobol_new fuel dim nskip = Ok s /\
    model_run fuel ops s = Ok (view_run cols ops (if 0 <? nskip then view_skip (skipped nskip) (SV 0 0 dim) else SV 0 0 dim)).
Proof.
  intros Hd Hn Hf Hops. destruct (sobol_new_ok dim nskip fuel Hd Hn Hf) as (cols & s & E & Ht & Hv & Hi & Hs).
  exists cols, s. split; auto. split; auto. eapply model_run_ok; eauto. apply Ht.
Qed.

Lemma view_scalars cols k n pos : (0 < length cols)%nat -> N.of_nat pos <= N.of_nat (length cols) ->
  n + (N.of_nat pos + N.of_nat k) / N.of_nat (length cols) <= limit ->
  view_run cols (repeat DrawScalar k) (SV n n (N.of_nat pos)) =
  map (fun j => let q := (N.of_nat pos + N.of_nat j) in
                let d := N.of_nat (length cols) in
                RScalar (nth (N.to_nat (q mod d)) (point_of cols (n + q / d)) 0)) (seq 0 k).
Proof.
  intros Hd. revert n pos. induction k as [|k IH]; intros n pos Hp Hlim; [reflexivity|].
  set (d := N.of_nat (length cols)) in *. assert (d <> 0) as Hd0 by lia.
  cbn [repeat view_run view_step v_n v_held v_pos]. fold d.
  rewrite <- cons_seq, <- seq_shift. cbn [map]. rewrite map_map.
  destruct (N.eqb_spec (N.of_nat pos) d) as [Ep|Np].
  - rewrite Ep in *.
    assert (n < limit) as Hn.
    { assert (1 <= (d + N.of_nat (S k)) / d); [|lia]. apply N.div_le_lower_bound; lia. }
    rewrite (proj2 (N.ltb_lt n limit)) by auto. f_equal.
    + f_equal. rewrite N.add_0_r, N.mod_same, N.div_same by auto. reflexivity.
    + change 1 with (N.of_nat 1) at 3. rewrite IH; auto; try lia.
      * apply map_ext. intros j. cbv zeta.
        replace (d + N.of_nat (S j)) with (N.of_nat 1 + N.of_nat j + 1 * d) by lia.
        rewrite N.mod_add, N.div_add by auto. f_equal. f_equal. f_equal. lia.
      * replace (d + N.of_nat (S k)) with (N.of_nat 1 + N.of_nat k + 1 * d) in Hlim by lia. rewrite N.div_add in Hlim by auto. fold d. lia.
  - assert (N.of_nat pos < d) as Hlt by lia. f_equal.
    + rewrite N.add_0_r, N.mod_small, N.div_small, N.add_0_r by auto. reflexivity.
    + replace (N.of_nat pos + 1) with (N.of_nat (S pos)) by lia. rewrite IH; auto; try lia.
      * apply map_ext. intros j. cbv zeta. replace (N.of_nat (S pos) + N.of_nat j) with (N.of_nat pos + N.of_nat (S j)) by lia. reflexivity.
      * fold d. replace (N.of_nat (S pos) + N.of_nat k) with (N.of_nat pos + N.of_nat (S k)) by lia. exact Hlim.
Qed.

Lemma scalars_claim dim fuel k : 1 <= dim <= 1111 -> (32 <= fuel)%nat -> 1 + N.of_nat k / dim <= 2 ^ 32 - 1 ->
  exists cols s, is_table (N.to_nat dim) cols /\ sobol_new fuel dim 0 = Ok s /\
    model_run fuel (repeat DrawScalar k) s =
    Ok (map (fun j => RScalar (coord (nth (N.to_nat (N.of_nat j mod dim)) cols []) (N.of_nat j / dim + 1))) (seq 0 k)).
Proof.
  intros Hd Hf Hk. destruct (history_claim dim 0 fuel (repeat DrawScalar k) Hd ltac:(lia) Hf) as (cols & s & Ht & E & R).
  { apply Forall_forall. intros op Hop. apply repeat_spec in Hop. now subst. }
  exists cols, s. split; auto. split; auto. rewrite R. pose proof Ht as [Hl _]. change (0 <? 0) with false. cbv iota.
  assert (dim = N.of_nat (length cols)) as Ed by lia.
  replace (SV 0 0 dim) with (SV 0 0 (N.of_nat (length cols))) by congruence.
  rewrite view_scalars; auto; try lia.
  - f_equal. apply map_ext. intros j. cbv zeta. rewrite <- Ed.
    replace (dim + N.of_nat j) with (N.of_nat j + 1 * dim) by lia. rewrite N.mod_add, N.div_add by lia.
    f_equal. rewrite nth_point_of by (pose proof (N.mod_lt (N.of_nat j) dim ltac:(lia)); lia). f_equal. 
  - unfold limit. rewrite <- Ed. replace (dim + N.of_nat k) with (N.of_nat k + 1 * dim) by lia. rewrite N.div_add by lia. lia.
Qed.

(** after any history, a reset makes point draws restart *)
Lemma view_run_app cols ops ops' v : exists v', view_run cols (ops ++ ops') v = view_run cols ops v ++ view_run cols ops' v'.
Proof.
  revert v. induction ops as [|op ops IH]; intros v; [exists v; reflexivity|].
  cbn [app view_run]. destruct (view_step cols op v) as [v1 r]. destruct (IH v1) as (v' & E). exists v'. now rewrite E.
Qed.

Lemma length_view_run cols ops v : length (view_run cols ops v) = length ops.
Proof.
  revert v. induction ops as [|op ops IH]; intros v; cbn [view_run]; auto.
  destruct (view_step cols op v) as [v1 r]. simpl. now rewrite IH.
Qed.

Lemma view_points cols k n h pos : n + N.of_nat k <= limit ->
  view_run cols (repeat DrawPoint k) (SV n h pos) = map (fun j => RPoint (point_of cols (n + N.of_nat j + 1))) (seq 0 k).
Proof.
  revert n h. induction k as [|k IH]; intros n h Hk; [reflexivity|].
  cbn [repeat view_run view_step v_n v_held v_pos]. rewrite (proj2 (N.ltb_lt n limit)) by lia.
  rewrite <- cons_seq, <- seq_shift. cbn [map]. rewrite map_map. f_equal.
  - f_equal. f_equal. lia.
  - rewrite IH by lia. apply map_ext. intros j. f_equal. f_equal. lia.
Qed.

Lemma reset_points_claim dim nskip fuel ops k : 1 <= dim <= 1111 -> nskip <= 2 ^ 31 -> (32 <= fuel)%nat ->
  Forall (fun op => match op with Skip n | Reset n => n <= 2 ^ 31 | _ => True end) ops -> N.of_nat k <= 2 ^ 32 - 1 ->
  exists cols s rs, is_table (N.to_nat dim) cols /\ sobol_new fuel dim nskip = Ok s /\ length rs = length ops /\
    model_run fuel (ops ++ Reset 0 :: repeat DrawPoint k) s =
    Ok (rs ++ RDone :: map (fun j => RPoint (map (fun m => coord m (N.of_nat j + 1)) cols)) (seq 0 k)).
Proof.
  intros Hd Hn Hf Hops Hk.
  destruct (history_claim dim nskip fuel (ops ++ Reset 0 :: repeat DrawPoint k) Hd Hn Hf) as (cols & s & Ht & E & R).
  { apply Forall_app. split; auto. constructor; [lia|]. apply Forall_forall. intros op Hop. apply repeat_spec in Hop. now subst. }
  set (v := if 0 <? nskip then _ else _) in R. exists cols, s, (view_run cols ops v). split; auto. split; auto.
  split; [apply length_view_run|]. rewrite R. f_equal.
  destruct (view_run_app cols ops (Reset 0 :: repeat DrawPoint k) v) as (v' & ->). f_equal.
  cbn [view_run view_step]. change (0 <? 0) with false. cbv iota. f_equal.
  rewrite view_points by (unfold limit; lia). apply map_ext. intros j. reflexivity.
Qed.
