(** Proofs about the population loop of src/QIS.cpp. *)
From Verif Require Import Base Spec SpecFacts NDArray IndexProofs Float64 FloatProofs ArrayOps ArrayProofs Bind BindProofs
  SobolTable SobolSpec Sobol SobolTableProofs SobolProofs SobolClaims Micro Stat Qis SynthSpec MicroProofs PickProofs SampleProofs SplitProofs.
Open Scope Z_scope.

(** * Counting *)

Definition inc (r : list Z -> Z) (i : list Z) : list Z -> Z := fupd r i (r i + 1).

Lemma sum_inc (p : list Z -> bool) r i l : NoDup l -> In i l ->
  sumZ (map (fun x => if p x then inc r i x else 0) l) = sumZ (map (fun x => if p x then r x else 0) l) + (if p i then 1 else 0).
Proof.
  intros Hn Hi. rewrite <- (sum_one (list_eq_dec Z.eq_dec) i (if p i then 1 else 0) l Hn Hi), <- sumZ_map_add.
  apply sumZ_map_ext. intros x _. unfold inc, fupd, idx_eqb. destruct (list_eq_dec Z.eq_dec x i) as [->|]; destruct (p _); lia.
Qed.

Lemma margin_inc sizes dims k r i : index_in sizes i ->
  margin sizes dims k (inc r i) = margin sizes dims k r + (if idx_eqb (proj dims i) k then 1 else 0).
Proof.
  intros Hi. unfold margin, sum_where. rewrite !sum_filter.
  apply (sum_inc (fun x => idx_eqb (proj dims x) k)); [apply NoDup_all_indices|now apply in_all_indices].
Qed.

Lemma total_inc sizes r i : index_in sizes i -> total sizes (inc r i) = total sizes r + 1.
Proof.
  intros Hi. unfold total. rewrite <- (sumZ_map_ext (fun x => if (fun _ => true) x then inc r i x else 0)) by auto.
  rewrite (sum_inc (fun _ => true)); [|apply NoDup_all_indices|now apply in_all_indices]. reflexivity.
Qed.

(** margins of margins *)
Lemma margin_margin sizes dims js vs r : valid_dims (length sizes) dims -> valid_dims (length dims) js ->
  margin (proj dims sizes) js vs (fun k => margin sizes dims k r) = margin sizes (proj js dims) vs r.
Proof.
  intros Hd Hj. unfold margin at 1, sum_where. rewrite sum_filter.
  assert (margin sizes (proj js dims) vs r = margin sizes dims [] (fun _ => 0) +
    total sizes (fun i => if idx_eqb (proj js (proj dims i)) vs then r i else 0)) as ->.
  { replace (margin sizes dims [] (fun _ => 0)) with 0.
    - unfold margin, sum_where, total. rewrite sum_filter. simpl. apply sumZ_map_ext. intros i _.
      rewrite (proj_proj js dims i) by auto. reflexivity.
    - unfold margin, sum_where. rewrite sumZ_map_const. lia. }
  replace (margin sizes dims [] (fun _ => 0)) with 0 by (unfold margin, sum_where; rewrite sumZ_map_const; lia).
  rewrite <- (total_margin sizes dims) by auto. unfold total. simpl. apply sumZ_map_ext. intros k _.
  unfold margin, sum_where. rewrite !sum_filter. destruct (idx_eqb (proj js k) vs) eqn:E.
  - apply sumZ_map_ext. intros i _. destruct (idx_eqb (proj dims i) k) eqn:E'; auto. apply idx_eqb_true in E'. now rewrite E', E.
  - symmetry. rewrite (sumZ_map_ext _ (fun _ => 0)); [rewrite sumZ_map_const; lia|]. intros i _.
    destruct (idx_eqb (proj dims i) k) eqn:E'; auto. apply idx_eqb_true in E'. now rewrite E', E.
Qed.

Lemma margin_le_total sizes dims k r : (forall i, index_in sizes i -> 0 <= r i) -> 0 <= margin sizes dims k r <= total sizes r.
Proof.
  intros Hr. unfold margin, sum_where, total. split.
  - apply sumZ_nonneg. intros x Hx. apply in_map_iff in Hx as (i & <- & Hi). apply filter_In in Hi as [Hi _]. apply Hr. now apply in_all_indices.
  - apply sum_filter_le. intros i Hi. apply Hr. now apply in_all_indices.
Qed.

Lemma all_set sizes main : index_in sizes main -> existsb (fun v => v <? 0) main = false.
Proof.
  unfold index_in. induction 1 as [|n i ns is Hi H IH]; simpl; auto. rewrite IH. destruct (Z.ltb_spec i 0); [lia|reflexivity].
Qed.

(** * The state of the loop *)

Section Loop.
Context (cs : list con) (sizes : list Z).
Context (Hsm : forall c, In c cs -> csmall c) (Himp : implied cs sizes) (Hfit : fits sizes) (Hnn : forall c, In c cs -> nonneg c).

(** what is left of constraint [c] when the individuals [r] have been sampled *)
Definition rem (c : con) (r : list Z -> Z) (k : list Z) : Z := c_at c k - margin sizes (c_dims c) k r.
Definition rems (r : list Z -> Z) : list (nd Z) := map (fun c => mk (c_sizes c) (rem c r)) cs.

Definition counts (t : Z) (r : list Z -> Z) : Prop := (forall i, index_in sizes i -> 0 <= r i) /\ total sizes r = t.

Lemma cfit c : In c cs -> fits (c_sizes c). Proof. intros H. apply (Hsm c H). Qed.
Lemma cdims c : In c cs -> valid_dims (length sizes) (c_dims c). Proof. now apply implied_valid_dims. Qed.
Lemma csizes c : In c cs -> proj (c_dims c) sizes = c_sizes c. Proof. intros H. now apply Himp. Qed.
Lemma clen c : In c cs -> length (c_dims c) = length (c_sizes c). Proof. intros H. now apply Himp. Qed.

Lemma proj_in c i : In c cs -> index_in sizes i -> index_in (c_sizes c) (proj (c_dims c) i).
Proof. intros Hc Hi. rewrite <- (csizes c Hc). apply index_in_proj; auto. now apply cdims. Qed.

Lemma rem_inc c r i k : index_in sizes i -> rem c (inc r i) k = rem c r k - (if idx_eqb (proj (c_dims c) i) k then 1 else 0).
Proof. intros Hi. unfold rem. rewrite margin_inc by auto. lia. Qed.

Lemma total_rem c r t : In c cs -> counts t r -> total (c_sizes c) (rem c r) = c_total c - t.
Proof.
  intros Hc [_ Ht]. unfold rem, total. rewrite sumZ_map_sub. fold (total (c_sizes c) (c_at c)). fold (c_total c).
  f_equal. rewrite <- Ht, <- (total_margin sizes (c_dims c)) by now apply cdims. now rewrite (csizes c Hc).
Qed.

Lemma tabs_rem c r t : In c cs -> counts t r -> t < 2 ^ 62 -> tabs (c_sizes c) (rem c r) < 2 ^ 63.
Proof.
  intros Hc [Hr Ht] Hb. destruct (Hsm c Hc) as (_ & _ & Ha). 
  assert (tabs (c_sizes c) (rem c r) <= total (c_sizes c) (fun k => Z.abs (c_at c k)) + total (c_sizes c) (fun k => margin sizes (c_dims c) k r)) as H.
  { unfold tabs, total. rewrite <- sumZ_map_add. apply sumZ_map_le. intros k _. unfold rem.
    pose proof (margin_le_total sizes (c_dims c) k r Hr). lia. }
  rewrite <- (csizes c Hc) in H at 3. rewrite total_margin in H by now apply cdims. lia.
Qed.

Lemma rem_bound c r t k : In c cs -> counts t r -> 0 <= t < 2 ^ 61 -> index_in (c_sizes c) k -> - 2 ^ 62 < rem c r k < 2 ^ 62.
Proof.
  intros Hc [Hr Ht] Hb Hk. destruct (Hsm c Hc) as (_ & _ & Ha). unfold rem.
  pose proof (margin_le_total sizes (c_dims c) k r Hr) as Hm. pose proof (Hnn c Hc k Hk).
  pose proof (le_total (c_sizes c) (fun k => Z.abs (c_at c k)) k ltac:(intros; lia) Hk). simpl in *. lia.
Qed.

(** all that is left is non-negative *)
Definition left_ok (r : list Z -> Z) : Prop := forall c k, In c cs -> index_in (c_sizes c) k -> 0 <= rem c r k.

Lemma counts_inc t r i : index_in sizes i -> counts t r -> counts (t + 1) (inc r i).
Proof.
  intros Hi [Hr Ht]. split; [|rewrite total_inc; auto; lia]. intros j Hj. unfold inc, fupd. pose proof (Hr j Hj). pose proof (Hr i Hi).
  destruct (idx_eqb j i); lia.
Qed.

Lemma decrement_gen r t main : counts t r -> 0 <= t < 2 ^ 61 -> index_in sizes main ->
  forall post pre conv, cs = pre ++ post ->
  exists conv', foldM (fun '(k, ix) '(margs, conv) =>
           let* a := vec_get margs k in
           let* idx := mapM (vec_get main) ix in
           let* x := nd_get a idx in
           let* x' := i64 (x - 1) in
           let* a' := nd_set a idx x' in
           let* margs' := vec_set margs k a' in
           let* y := nd_get a' idx in
           Ok (margs', if y <? 0 then false else conv))
        (numbered (Z.of_nat (length pre)) (map c_dims post))
        (map (fun c => mk (c_sizes c) (rem c (inc r main))) pre ++ map (fun c => mk (c_sizes c) (rem c r)) post, conv) =
   Ok (rems (inc r main), conv') /\
   (conv' = true <-> conv = true /\ forall c, In c post -> 0 <= rem c (inc r main) (proj (c_dims c) main)).
Proof.
  intros Hc Hb Hm. induction post as [|c post IH]; intros pre conv E.
  - exists conv. split; [|split; [intros; split; auto; easy|tauto]]. simpl. rewrite app_nil_r in *. unfold rems. now rewrite E.
  - assert (In c cs) as Hin by (rewrite E; apply in_app_iff; right; now left).
    set (idx := proj (c_dims c) main). pose proof (proj_in c main Hin Hm) as Hidx. fold idx in Hidx.
    cbn [map numbered foldM].
    rewrite (vec_get_ok _ _ (nd_of con0)) by (rewrite app_length, !map_length; simpl; lia).
    rewrite app_nth2; rewrite map_length, Nat2Z.id; [|lia]. rewrite Nat.sub_diag. cbn [nth bind].
    rewrite mapM_vec_get_proj by (rewrite (index_in_length _ _ Hm); now apply cdims). cbn [bind]. fold idx.
    rewrite nd_get_mk by (auto; now apply cfit). cbn [bind].
    pose proof (rem_bound c r t idx Hin Hc Hb Hidx) as Hrb. rewrite i64_ok by lia. cbn [bind].
    rewrite nd_set_mk by (auto; now apply cfit). cbn [bind].
    rewrite vec_set_ok by (rewrite app_length, !map_length; simpl; lia). cbn [bind].
    rewrite nd_get_mk by (auto; now apply cfit). cbn [bind]. unfold fupd at 2. rewrite idx_eqb_refl.
    assert (mk (c_sizes c) (fupd (rem c r) idx (rem c r idx - 1)) = mk (c_sizes c) (rem c (inc r main))) as ->.
    { apply mk_ext. intros k Hk. rewrite rem_inc by auto. fold idx. unfold fupd. rewrite (idx_eqb_sym idx k).
      destruct (idx_eqb k idx) eqn:Ek; [|lia]. apply idx_eqb_true in Ek. now subst. }
    assert (upd (map (fun c0 => mk (c_sizes c0) (rem c0 (inc r main))) pre ++ mk (c_sizes c) (rem c r) :: map (fun c0 => mk (c_sizes c0) (rem c0 r)) post)
      (Z.to_nat (Z.of_nat (length pre))) (mk (c_sizes c) (rem c (inc r main))) =
      map (fun c0 => mk (c_sizes c0) (rem c0 (inc r main))) (pre ++ [c]) ++ map (fun c0 => mk (c_sizes c0) (rem c0 r)) post) as ->.
    { rewrite Nat2Z.id, map_app, <- app_assoc. simpl.
      assert (forall {A} (l l' : list A) x y n, n = length l -> upd (l ++ x :: l') n y = l ++ y :: l') as U.
      { clear. induction l as [|z l IH]; intros l' x y n ->; simpl; auto. f_equal. now apply IH. }
      apply U. now rewrite map_length. }
    assert (rem c r idx - 1 = rem c (inc r main) (proj (c_dims c) main)) as ->.
    { rewrite rem_inc by auto. fold idx. rewrite idx_eqb_refl. reflexivity. }
    destruct (IH (pre ++ [c]) (if rem c (inc r main) (proj (c_dims c) main) <? 0 then false else conv)) as (conv' & E' & Hcv).
    { now rewrite <- app_assoc. }
    exists conv'. rewrite app_length in E'. simpl length in E'. replace (Z.of_nat (length pre) + 1) with (Z.of_nat (length pre + 1)) by lia.
    split; [exact E'|]. rewrite Hcv. destruct (Z.ltb_spec (rem c (inc r main) (proj (c_dims c) main)) 0).
    + split; [intros [[=] _]|]. intros [_ H1]. specialize (H1 c (or_introl eq_refl)). lia.
    + split; intros [H1 H2]; split; auto.
      * intros c' [<-|Hc']; auto.
      * intros c' Hc'. apply H2. now right.
Qed.

Lemma decrement_ok r t main conv : counts t r -> 0 <= t < 2 ^ 61 -> index_in sizes main ->
  exists conv', decrement (map c_dims cs) main (rems r) conv = Ok (rems (inc r main), conv') /\
   (conv' = true <-> conv = true /\ forall c, In c cs -> 0 <= rem c (inc r main) (proj (c_dims c) main)).
Proof. intros Hc Hb Hm. exact (decrement_gen r t main Hc Hb Hm cs [] conv eq_refl). Qed.

Lemma left_ok_inc r main conv conv' : index_in sizes main -> (conv = true <-> left_ok r) ->
  (conv' = true <-> conv = true /\ forall c, In c cs -> 0 <= rem c (inc r main) (proj (c_dims c) main)) ->
  (conv' = true <-> left_ok (inc r main)).
Proof.
  intros Hm Hl ->. rewrite Hl. unfold left_ok. split.
  - intros [H1 H2] c k Hc Hk. rewrite rem_inc by auto. specialize (H1 c k Hc Hk). specialize (H2 c Hc). rewrite rem_inc, idx_eqb_refl in H2 by auto.
    destruct (idx_eqb (proj (c_dims c) main) k) eqn:E; [|lia]. apply idx_eqb_true in E. subst k. lia.
  - intros H. split.
    + intros c k Hc Hk. specialize (H c k Hc Hk). rewrite rem_inc in H by auto. destruct (idx_eqb (proj (c_dims c) main) k); lia.
    + intros c Hc. apply H; auto. now apply proj_in.
Qed.

Lemma increment_ok r t main : counts t r -> 0 <= t < 2 ^ 61 -> index_in sizes main -> increment (mk sizes r) main = Ok (mk sizes (inc r main)).
Proof.
  intros [Hr Ht] Hb Hm. unfold increment. rewrite nd_get_mk by auto. cbn [bind].
  pose proof (le_total sizes r main Hr Hm). pose proof (Hr main Hm). rewrite i64_ok by lia. cbn [bind]. now apply nd_set_mk.
Qed.

(** * Sampling one individual *)

Definition touched (pre : list con) (d : nat) : Prop := exists c, In c pre /\ In (Z.of_nat d) (c_dims c).

Definition draw (r : list Z -> Z) (seq : list N) (main0 : list Z) : outcome (list Z) :=
  foldM (fun '(k, ix) main => let* a := vec_get (rems r) k in sample ix seq a main) (numbered 0 (map c_dims cs)) main0.

Definition trail (pre : list con) (main : list Z) : Prop :=
  partial_index sizes main /\ (forall d, (d < length sizes)%nat -> (assigned main d <-> touched pre d)).

Lemma trail_nil : trail [] (repeat (-1) (length sizes)).
Proof.
  split; [split; [apply repeat_length|]|].
  - intros d Hd. rewrite (nth_indep _ 0 (-1)) by now rewrite repeat_length. rewrite nth_repeat.
    pose proof (fits_pos _ Hfit) as Hp. unfold positive in Hp. rewrite Forall_forall in Hp. specialize (Hp (nth d sizes 0) (nth_In _ _ Hd)). lia.
  - intros d Hd. unfold assigned. rewrite (nth_indep _ 0 (-1)) by now rewrite repeat_length. rewrite nth_repeat.
    split; [lia|]. intros (c & [] & _).
Qed.

Lemma trail_all main : trail cs main -> index_in sizes main.
Proof.
  intros [[Hl Hp] Ha]. apply index_in_nth. split; auto. intros d Hd. specialize (Hp d Hd). split; [|lia].
  apply (Ha d Hd). destruct Himp as [Hd' _]. destruct (Hd' (Z.of_nat d)) as [_ H]. destruct H as (c & H1 & H2); [lia|]. now exists c.
Qed.

(** sampling from one marginal *)
Lemma sample_one r t seq c pre post main : cs = pre ++ c :: post -> counts t r -> t < 2 ^ 62 -> length seq = length sizes -> trail pre main ->
  let o := sample (c_dims c) seq (mk (c_sizes c) (rem c r)) main in
  ((exists e, o = Throw e) \/
   (exists main', o = Ok main' /\ trail (pre ++ [c]) main' /\ (forall d, assigned main d -> nth d main' 0 = nth d main 0))) /\
  (NoDup (c_dims c) -> (forall k, index_in (c_sizes c) k -> 0 <= rem c r k) -> c_total c - t <= 2 ^ 53 ->
   Forall (fun u => u < 2 ^ 32)%N seq ->
   (exists k, index_in (c_sizes c) k /\ 0 < rem c r k /\
      forall j, (j < length (c_dims c))%nat -> 0 <= nth (Z.to_nat (nth j (c_dims c) 0)) main 0 ->
        nth j k 0 = nth (Z.to_nat (nth j (c_dims c) 0)) main 0) ->
   exists main', o = Ok main' /\ 0 < rem c r (proj (c_dims c) main')).
Proof.
  intros E Hc Hb Hs [Hp Ha]. assert (In c cs) as Hin by (rewrite E; apply in_app_iff; right; now left).
  destruct (Hsm c Hin) as (Hf & Hl31 & _).
  pose proof (sample_spec sizes (c_dims c) seq (rem c r) main (cdims c Hin)) as S.
  rewrite (csizes c Hin) in S. specialize (S ltac:(rewrite (clen c Hin); auto) Hp Hs Hf (tabs_rem c r t Hin Hc Hb)).
  cbv zeta in *. destruct S as [S1 S2]. split.
  - destruct S1 as [S1|(main' & E' & Hp' & Hk & Has)]; [now left|]. right. exists main'. split; auto. split; [split; auto|].
    + intros d Hd. destruct (in_dec Z.eq_dec (Z.of_nat d) (c_dims c)) as [Hi|Hi].
      * split; [|intros _; now apply Has]. intros _. exists c. split; auto. apply in_app_iff. right. now left.
      * unfold assigned. rewrite (Hk d (or_intror Hi)). fold (assigned main d). rewrite (Ha d Hd). split.
        { intros (c' & H1 & H2). exists c'. split; auto. apply in_app_iff. now left. }
        { intros (c' & H1 & H2). apply in_app_iff in H1 as [H1|[<-|[]]]; [exists c'; auto|tauto]. }
    + intros d Hd. apply Hk. now left.
  - intros Hnd Hn Ht Hu Hex. apply S2; auto. rewrite (total_rem c r t) by auto. auto.
Qed.

Lemma vec_get_rems r pre c post : cs = pre ++ c :: post -> vec_get (rems r) (Z.of_nat (length pre)) = Ok (mk (c_sizes c) (rem c r)).
Proof.
  intros E. unfold rems. rewrite E, map_app. rewrite (vec_get_ok _ _ (nd_of con0)) by (rewrite app_length, !map_length; simpl; lia).
  rewrite app_nth2; rewrite map_length, Nat2Z.id; [|lia]. now rewrite Nat.sub_diag.
Qed.

Lemma draw_gen r t seq : counts t r -> t < 2 ^ 62 -> length seq = length sizes ->
  forall post pre main, cs = pre ++ post -> trail pre main ->
  let o := foldM (fun '(k, ix) main => let* a := vec_get (rems r) k in sample ix seq a main)
             (numbered (Z.of_nat (length pre)) (map c_dims post)) main in
  (exists e, o = Throw e) \/ (exists main', o = Ok main' /\ trail cs main').
Proof.
  intros Hc Hb Hs. induction post as [|c post IH]; intros pre main E Ht.
  - right. exists main. simpl. split; auto. rewrite E, app_nil_r. auto.
  - cbn [map numbered foldM]. rewrite (vec_get_rems r pre c post E). cbn [bind].
    destruct (sample_one r t seq c pre post main E Hc Hb Hs Ht) as [[(e & ->)|(main' & -> & Ht' & _)] _]; cbn [bind]; [left; eauto|].
    replace (Z.of_nat (length pre) + 1) with (Z.of_nat (length (pre ++ [c]))) by (rewrite app_length; simpl; lia).
    apply IH; auto. now rewrite <- app_assoc.
Qed.

Lemma draw_safe r t seq : counts t r -> t < 2 ^ 62 -> length seq = length sizes ->
  (exists e, draw r seq (repeat (-1) (length sizes)) = Throw e) \/
  (exists main, draw r seq (repeat (-1) (length sizes)) = Ok main /\ index_in sizes main).
Proof.
  intros Hc Hb Hs. destruct (draw_gen r t seq Hc Hb Hs cs [] _ eq_refl trail_nil) as [H|(main & E & Ht)]; [now left|].
  right. exists main. split; auto. now apply trail_all.
Qed.


(** when everything was handed out, non-negative rests are zero *)
Lemma left_ok_meets r t : counts t r -> (forall c, In c cs -> c_total c = t) -> (left_ok r <-> forall c, In c cs -> meets sizes r c).
Proof.
  intros Hc Ht. split.
  - intros H c Hin k Hk. pose proof (total_rem c r t Hin Hc) as Hz. rewrite (Ht c Hin), Z.sub_diag in Hz.
    pose proof (le_total (c_sizes c) (rem c r) k (fun k Hk => H c k Hin Hk) Hk). pose proof (H c k Hin Hk). unfold rem in *. lia.
  - intros H c k Hin Hk. unfold rem. rewrite (H c Hin k Hk). lia.
Qed.

(** * The loop *)
Context (cols : list (list N)) (Hcols : length cols = length sizes) (Hdir : Forall valid_directions cols).

(** the state after [t] individuals *)
Definition inv (v0 : N) (t : Z) (s : qstate) : Prop :=
  exists r v, view_of cols v (q_sobol s) /\ v_n v = (v0 + Z.to_N t)%N /\ counts t r /\
    q_margs s = rems r /\ q_arr s = mk sizes r /\ (q_conv s = true <-> left_ok r).

Lemma len_point n : length (point_of cols n) = length sizes.
Proof. unfold point_of. now rewrite map_length. Qed.

Lemma step_safe v0 t s : 0 <= t -> inv v0 t s ->
  (exists e, qis_step (length sizes) (map c_dims cs) s = Throw e) \/
  (exists s', qis_step (length sizes) (map c_dims cs) s = Ok s' /\ inv v0 (t + 1) s').
Proof.
  intros Ht0 (r & v & Hv & Hn & Hc & Em & Ea & Ecv).
  unfold qis_step. pose proof (view_n_le _ _ _ Hv) as Hle. destruct (N.eq_dec (v_n v) limit) as [El|Nl].
  - left. rewrite (sobol_buf_end cols v _ Hv El). cbn [bind]. eauto.
  - destruct (sobol_buf_ok cols v _ Hdir Hv) as (sb & Eb & Hv'); [lia|]. rewrite Eb. cbn [bind].
    assert (0 <= t < 2 ^ 32) as Hb by (unfold limit in Hle; lia).
    rewrite Em. fold (draw r (point_of cols (v_n v + 1)) (repeat (-1) (length sizes))).
    destruct (draw_safe r t (point_of cols (v_n v + 1)) Hc ltac:(lia) (len_point _)) as [(e & ->)|(main & -> & Hm)]; cbn [bind]; [left; eauto|].
    rewrite (all_set sizes) by auto. right.
    destruct (decrement_ok r t main (q_conv s) Hc ltac:(lia) Hm) as (conv' & -> & Hcv). cbn [bind].
    rewrite Ea, (increment_ok r t main) by (auto; lia). cbn [bind]. eexists. split; [reflexivity|].
    exists (inc r main), (SV (v_n v + 1) (v_n v + 1) (v_pos v)). cbn [q_sobol q_margs q_arr q_conv v_n].
    split; auto. split; [rewrite Hn; rewrite Z2N.inj_add by lia; lia|]. split; [now apply counts_inc|]. split; auto. split; auto.
    eapply left_ok_inc; eauto.
Qed.

Lemma inv_start sb arr0 v : view_of cols v sb -> arr0 = mk sizes (fun _ => 0) -> inv (v_n v) 0 (QS sb (map nd_of cs) arr0 true).
Proof.
  intros Hv ->. exists (fun _ => 0), v. cbn [q_sobol q_margs q_arr q_conv].
  assert (forall c k, rem c (fun _ => 0) k = c_at c k) as Hr.
  { intros c k. unfold rem, margin, sum_where. rewrite sumZ_map_const. lia. }
  split; auto. split; [simpl; lia|]. split; [split; [lia|]; unfold total; rewrite sumZ_map_const; lia|].
  split; [|split; auto].
  - unfold rems. apply map_ext. intros c. unfold nd_of. apply mk_ext. intros k _. auto.
  - split; auto. intros _ c k Hc Hk. rewrite Hr. apply (Hnn c Hc k Hk).
Qed.

Lemma loop_gen v0 n : forall t s, 0 <= t -> inv v0 t s ->
  (exists e, foldM (fun (_ : unit) s => qis_step (length sizes) (map c_dims cs) s) (repeat tt n) s = Throw e) \/
  (exists s', foldM (fun (_ : unit) s => qis_step (length sizes) (map c_dims cs) s) (repeat tt n) s = Ok s' /\ inv v0 (t + Z.of_nat n) s').
Proof.
  induction n as [|n IH]; intros t s Ht Hi.
  - right. exists s. split; auto. now rewrite Z.add_0_r.
  - simpl repeat. cbn [foldM]. destruct (step_safe v0 t s Ht Hi) as [(e & ->)|(s1 & -> & Hi1)]; cbn [bind]; [left; eauto|].
    destruct (IH (t + 1) s1 ltac:(lia) Hi1) as [H|(s' & E & H)]; [now left|]. right. exists s'. split; auto.
    now replace (t + Z.of_nat (S n)) with (t + 1 + Z.of_nat n) by lia.
Qed.

Lemma loop_safe v0 n s : inv v0 0 s ->
  (exists e, repeatM n (qis_step (length sizes) (map c_dims cs)) s = Throw e) \/
  (exists s', repeatM n (qis_step (length sizes) (map c_dims cs)) s = Ok s' /\ inv v0 (Z.max 0 n) s').
Proof.
  intros Hi. unfold repeatM. destruct (loop_gen v0 (Z.to_nat n) 0 s ltac:(lia) Hi) as [H|(s' & E & H)]; [now left|].
  right. exists s'. split; auto. now replace (Z.max 0 n) with (0 + Z.of_nat (Z.to_nat n)) by lia.
Qed.

(** * Progress: marginals sharing at most one dimension with their predecessors *)

Definition tree : Prop :=
  (forall c, In c cs -> NoDup (c_dims c)) /\
  (forall pre c post d d', cs = pre ++ c :: post -> In d (c_dims c) -> In d' (c_dims c) ->
     (exists c', In c' pre /\ In d (c_dims c')) -> (exists c', In c' pre /\ In d' (c_dims c')) -> d = d').

Lemma partial_rem c r j v : In c cs -> (j < length (c_dims c))%nat ->
  margin (c_sizes c) [Z.of_nat j] [v] (rem c r) = c_partial c (Z.of_nat j) v - margin sizes [nth j (c_dims c) 0] [v] r.
Proof.
  intros Hc Hj. unfold c_partial.
  assert (margin (c_sizes c) [Z.of_nat j] [v] (rem c r) =
    margin (c_sizes c) [Z.of_nat j] [v] (c_at c) - margin (c_sizes c) [Z.of_nat j] [v] (fun k => margin sizes (c_dims c) k r)) as ->.
  { unfold margin at 1 2 3, sum_where. rewrite <- sumZ_map_sub. reflexivity. }
  f_equal. rewrite <- (csizes c Hc) at 1. rewrite margin_margin; [|now apply cdims|constructor; [lia|constructor]].
  unfold proj. simpl. now rewrite Nat2Z.id.
Qed.

Lemma pos_cell s p f : 0 < sum_where s p f -> exists k, index_in s k /\ p k = true /\ 0 < f k.
Proof.
  unfold sum_where. intros H.
  assert (forall l, 0 < sumZ (map f l) -> exists k, In k l /\ 0 < f k) as G.
  { induction l as [|x l IH]; simpl; intros Hl; [lia|]. destruct (Z.lt_ge_cases 0 (f x)); [exists x; auto|].
    destruct IH as (k & H1 & H2); [lia|]. exists k. auto. }
  apply G in H as (k & Hk & Hp). apply filter_In in Hk as [Hk Hpk]. exists k. split; [now apply in_all_indices|auto].
Qed.

Lemma pos_total s f : 0 < total s f -> exists k, index_in s k /\ 0 < f k.
Proof.
  intros H. destruct (pos_cell s (fun _ => true) f) as (k & H1 & _ & H2); [|eauto].
  unfold sum_where, total in *. rewrite sum_filter. exact H.
Qed.

Lemma draw_pos r t seq : partials_agree cs -> tree -> counts t r -> t < 2 ^ 62 -> left_ok r ->
  (forall c, In c cs -> t < c_total c <= 2 ^ 53 + t) -> length seq = length sizes -> Forall (fun u => u < 2 ^ 32)%N seq ->
  forall post pre main, cs = pre ++ post -> trail pre main -> (forall c, In c pre -> 0 < rem c r (proj (c_dims c) main)) ->
  exists main', foldM (fun '(k, ix) main => let* a := vec_get (rems r) k in sample ix seq a main)
             (numbered (Z.of_nat (length pre)) (map c_dims post)) main = Ok main' /\ trail cs main' /\
     (forall c, In c cs -> 0 < rem c r (proj (c_dims c) main')).
Proof.
  intros Hag [Hnd Htree] Hc Hb Hl Htot Hs Hu. induction post as [|c post IH]; intros pre main E Ht Hpre.
  - exists main. simpl. rewrite E, app_nil_r. auto.
  - cbn [map numbered foldM]. rewrite (vec_get_rems r pre c post E). cbn [bind].
    assert (In c cs) as Hin by (rewrite E; apply in_app_iff; right; now left).
    assert (forall c', In c' pre -> In c' cs) as Hpc by (intros c' H; rewrite E; apply in_app_iff; now left).
    pose proof Ht as [Hp Ha].
    assert (exists k, index_in (c_sizes c) k /\ 0 < rem c r k /\
      forall j, (j < length (c_dims c))%nat -> 0 <= nth (Z.to_nat (nth j (c_dims c) 0)) main 0 ->
        nth j k 0 = nth (Z.to_nat (nth j (c_dims c) 0)) main 0) as Hcell.
    { pose proof (cdims c Hin) as Hvd. unfold valid_dims in Hvd. rewrite Forall_forall in Hvd.
      destruct (existsb (fun d => 0 <=? nth (Z.to_nat d) main 0) (c_dims c)) eqn:Ex.
      - apply existsb_exists in Ex as (d & Hd & Hv). apply Z.leb_le in Hv. pose proof (Hvd d Hd) as Hdv.
        assert (touched pre (Z.to_nat d)) as Htd by (apply Ha; [lia|exact Hv]).
        destruct Htd as (c' & Hc' & Hd'). rewrite Z2Nat.id in Hd' by lia.
        destruct (In_nth _ _ 0 Hd) as (j & Hj & Ej). destruct (In_nth _ _ 0 Hd') as (j' & Hj' & Ej').
        set (v := nth (Z.to_nat d) main 0) in *.
        assert (0 <= v < nth j (c_sizes c) 0) as Hvr.
        { rewrite <- (csizes c Hin), nth_proj, Ej by auto. destruct Hp as [_ Hp]. specialize (Hp (Z.to_nat d) ltac:(lia)). unfold v in *. lia. }
        (* partial sum of the rest is positive at v *)
        assert (0 < margin (c_sizes c) [Z.of_nat j] [v] (rem c r)) as Hpos.
        { rewrite partial_rem by auto. rewrite (Hag c c' j j' d v); auto; try (now apply nth_error_nth'); [|rewrite <- Ej; now apply nth_error_nth'|rewrite <- Ej'; now apply nth_error_nth'].
          rewrite Ej, <- Ej'. rewrite <- (partial_rem c' r j' v) by auto.
          assert (index_in (c_sizes c') (proj (c_dims c') main)) as Hidx.
          { rewrite <- (csizes c') by auto. apply index_in_nth. rewrite !proj_length. split; auto. intros i Hi. rewrite !nth_proj by auto.
            pose proof (cdims c' (Hpc c' Hc')) as Hvd'. unfold valid_dims in Hvd'. rewrite Forall_forall in Hvd'.
            pose proof (nth_In (c_dims c') 0 Hi) as Hini. pose proof (Hvd' _ Hini) as Hdi. destruct Hp as [_ Hp].
            specialize (Hp (Z.to_nat (nth i (c_dims c') 0)) ltac:(lia)). split; [|lia].
            apply (proj2 (Ha (Z.to_nat (nth i (c_dims c') 0)) ltac:(lia))). exists c'. split; auto. now rewrite Z2Nat.id by lia. }
          unfold margin, sum_where.
          apply Z.lt_le_trans with (rem c' r (proj (c_dims c') main)); [now apply Hpre|].
          replace (rem c' r (proj (c_dims c') main)) with (sumZ (map (rem c' r) [proj (c_dims c') main])) by (simpl; lia).
          apply sumZ_incl; [constructor; [easy|constructor]| |].
          - intros x [<-|[]]. apply filter_In. split; [now apply in_all_indices|]. apply idx_eqb_true. unfold proj at 1. simpl.
            rewrite Nat2Z.id, nth_proj, Ej' by auto. reflexivity.
          - intros x Hx. apply filter_In in Hx as [Hx _]. apply Hl; auto. now apply in_all_indices. }
        apply pos_cell in Hpos as (k & Hk & Hpk & Hkpos). exists k. split; auto. split; auto.
        intros j2 Hj2 Hset.
        assert (nth j2 (c_dims c) 0 = d) as E2.
        { pose proof (Hvd _ (nth_In (c_dims c) 0 Hj2)) as Hd2. apply (Htree pre c post _ _ E (nth_In _ _ Hj2) Hd); [|exists c'; auto].
          destruct (Ha (Z.to_nat (nth j2 (c_dims c) 0)) ltac:(lia)) as [Ha1 _]. destruct (Ha1 Hset) as (c2 & H1 & H2). rewrite Z2Nat.id in H2 by lia. eauto. }
        assert (j2 = j) as -> by (apply (proj1 (NoDup_nth (c_dims c) 0) (Hnd c Hin)); auto; congruence).
        rewrite E2. fold v. apply idx_eqb_true in Hpk. unfold proj in Hpk. simpl in Hpk. rewrite Nat2Z.id in Hpk. congruence.
      - destruct (pos_total (c_sizes c) (rem c r)) as (k & Hk & Hkp).
        { rewrite (total_rem c r t) by auto. specialize (Htot c Hin). lia. }
        exists k. split; auto. split; auto. intros j Hj Hset. exfalso.
        assert (existsb (fun d => 0 <=? nth (Z.to_nat d) main 0) (c_dims c) = true) as Ht'; [|congruence].
        apply existsb_exists. exists (nth j (c_dims c) 0). split; [now apply nth_In|]. now apply Z.leb_le. }
    destruct (sample_one r t seq c pre post main E Hc Hb Hs Ht) as [Hsafe Hposs].
    specialize (Htot c Hin). destruct (Hposs (Hnd c Hin) ltac:(intros; now apply Hl) ltac:(lia) Hu Hcell) as (main' & Eo & Hm').
    destruct Hsafe as [(e & Ee)|(main'' & Ee & Ht' & Hkeep)]; [congruence|]. assert (main'' = main') as -> by congruence. rewrite Eo. cbn [bind].
    replace (Z.of_nat (length pre) + 1) with (Z.of_nat (length (pre ++ [c]))) by (rewrite app_length; simpl; lia).
    apply IH; auto; [now rewrite <- app_assoc|]. intros c' Hc'. apply in_app_iff in Hc' as [Hc'|[<-|[]]]; auto.
    assert (proj (c_dims c') main' = proj (c_dims c') main) as ->; auto.
    unfold proj. apply map_ext_in. intros d Hd. apply Hkeep. pose proof (cdims c' (Hpc c' Hc')) as Hvd'. unfold valid_dims in Hvd'. rewrite Forall_forall in Hvd'.
    specialize (Hvd' d Hd). apply Ha; [lia|]. exists c'. split; auto. now rewrite Z2Nat.id by lia.
Qed.

Lemma step_ok v0 t s pop : partials_agree cs -> tree -> 0 <= t < pop -> pop <= 2 ^ 53 -> (forall c, In c cs -> c_total c = pop) ->
  (v0 + Z.to_N pop <= limit)%N -> inv v0 t s -> q_conv s = true ->
  exists s', qis_step (length sizes) (map c_dims cs) s = Ok s' /\ inv v0 (t + 1) s' /\ q_conv s' = true.
Proof.
  intros Hag Htr Ht Hp53 Htot Hlim Hi Hcv0. pose proof Hi as (r & v & Hv & Hn & Hc & Em & Ea & Ecv).
  assert (left_ok r) as Hl by now apply Ecv.
  assert (exists s', qis_step (length sizes) (map c_dims cs) s = Ok s' /\ q_conv s' = true) as (s' & E & Hcs).
  { unfold qis_step. destruct (sobol_buf_ok cols v _ Hdir Hv) as (sb & Eb & Hv'); [rewrite Hn; lia|]. rewrite Eb. cbn [bind]. rewrite Em.
    destruct (draw_pos r t (point_of cols (v_n v + 1)) Hag Htr Hc ltac:(lia) Hl ltac:(intros c Hin; rewrite (Htot c Hin); lia) (len_point _)) with (post := cs) (pre := @nil con) (main := repeat (-1) (length sizes)) as (main & Ed & Htm & Hpos).
    - unfold point_of. rewrite Forall_map. revert Hdir. apply Forall_impl. intros m Hm. now apply coord_lt.
    - reflexivity.
    - apply trail_nil.
    - easy.
    - change (Z.of_nat (length (@nil con))) with 0 in Ed. rewrite Ed. cbn [bind].
      pose proof (trail_all main Htm) as Hm. rewrite (all_set sizes) by auto.
      destruct (decrement_ok r t main (q_conv s) Hc ltac:(lia) Hm) as (conv' & -> & Hcv). cbn [bind].
      rewrite Ea, (increment_ok r t main) by (auto; lia). cbn [bind]. eexists. split; [reflexivity|]. cbn [q_conv].
      apply Hcv. split; auto. intros c Hin. rewrite rem_inc, idx_eqb_refl by auto. specialize (Hpos c Hin). lia. }
  destruct (step_safe v0 t s ltac:(lia) Hi) as [(e & Ee)|(s2 & E2 & Hi2)]; [congruence|].
  assert (s2 = s') as -> by congruence. exists s'. auto.
Qed.

Lemma loop_ok v0 pop s : partials_agree cs -> tree -> 0 <= pop <= 2 ^ 53 -> (forall c, In c cs -> c_total c = pop) ->
  (v0 + Z.to_N pop <= limit)%N -> inv v0 0 s -> q_conv s = true ->
  exists s', repeatM pop (qis_step (length sizes) (map c_dims cs)) s = Ok s' /\ inv v0 pop s' /\ q_conv s' = true.
Proof.
  intros Hag Htr Hp Htot Hlim. unfold repeatM.
  assert (forall n t s, 0 <= t -> t + Z.of_nat n = pop -> inv v0 t s -> q_conv s = true ->
    exists s', foldM (fun (_ : unit) s => qis_step (length sizes) (map c_dims cs) s) (repeat tt n) s = Ok s' /\ inv v0 pop s' /\ q_conv s' = true) as G.
  { induction n as [|n IH]; intros t s0 Ht0 Ht Hi Hcv.
    - exists s0. simpl. replace pop with t by lia. auto.
    - simpl repeat. cbn [foldM]. destruct (step_ok v0 t s0 pop Hag Htr ltac:(lia) ltac:(lia) Htot Hlim Hi Hcv) as (s1 & -> & Hi1 & Hcv1).
      cbn [bind]. apply (IH (t + 1)); auto; lia. }
  intros Hi Hcv. apply (G (Z.to_nat pop) 0 s); auto; lia.
Qed.

End Loop.
