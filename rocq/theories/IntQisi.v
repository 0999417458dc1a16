(** integerise of an array with two or more dimensions is qisi on its rounded one-dimensional sums. *)
From Coq Require Import ZArith Reals Lra Lia List Bool Psatz.
From Flocq Require Import Core.Core IEEE754.BinarySingleNaN.
From Verif Require Import Base Spec SpecFacts NDArray IndexProofs Float64 FloatProofs FloatExt ArrayOps ArrayProofs Bind BindProofs RealSpec
  Sobol Micro Stat Qis SynthSpec MicroProofs QisProofs QisClaims Ipf IpfSpec Qisi QisiProofs QisiClaims
  Integerise IntegeriseSpec IntegeriseRound IntegeriseDbl IntegeriseNd IntegeriseExamples QisExpect StatProofs IntQisiSpec QuantSpec SynthiSpec CoverSpec CoverClaim Fast.
Open Scope Z_scope.

Definition not_integer (x : double) : Prop := forall z, (/ 10000 < Rabs (B2R x - IZR z))%R.

Lemma round_throws x e : is_finite x = true -> (0 <= B2R x <= p2 52)%R -> checked_round x = Throw e ->
  not_integer x /\ e = RuntimeError "value is not an integer (within tolerance)".
Proof.
  intros F Hb E. split.
  - intros z. apply Rnot_le_lt. intros Hl.
    assert (- 2 ^ 53 <= z <= 2 ^ 53) as Hz.
    { apply Rabs_le_inv in Hl. assert (p2 53 = 2 * p2 52)%R as E53 by (change 53 with (1 + 52); rewrite bpow_plus; reflexivity).
      assert (1 <= p2 52)%R by (apply (bpow_le radix2 0 52); lia).
      split; apply le_IZR; rewrite ?opp_IZR, IZR_p2, E53 by lia; lra. }
    rewrite (checked_round_ok x _ z (fin_B2R _ F) Hz Hl) in E. discriminate.
  - unfold checked_round in E. destruct (d_ltb _ _); [congruence|]. exfalso. unfold d_to_i64 in E. destruct (_ && _) in E; discriminate.
Qed.

(** the sums are in the range of [round_throws] *)
Lemma slice_range a d k : nd_range a -> is_finite (slice_sum a d k) = true /\ (0 <= B2R (slice_sum a d k) <= p2 52)%R.
Proof.
  intros Ha. destruct (slice_facts a Ha d k) as (F & S0 & _ & S2). destruct (cells_ok a Ha d k) as (_ & _ & _ & HT). pose proof (T_small a Ha).
  assert (p2 52 = 4 * p2 50)%R as E by (change 52 with (2 + 50); rewrite bpow_plus; reflexivity). split; auto. split; auto. rewrite E. lra.
Qed.
Lemma sum_range a : nd_range a -> is_finite (array_sum a) = true /\ (0 <= B2R (array_sum a) <= p2 52)%R.
Proof.
  intros Ha. destruct (total_facts a Ha) as (F & S0 & _ & S2). pose proof (T_small a Ha).
  assert (p2 52 = 4 * p2 50)%R as E by (change 52 with (2 + 50); rewrite bpow_plus; reflexivity). split; auto. split; auto. rewrite E. lra.
Qed.

Section Call.
Context (a : ndarray double) (Ha : nd_range a).
Let sizes := shape a.
Let dim := Z.of_nat (length sizes).
Let m (d k : Z) : Z := match checked_round (slice_sum a d k) with Ok z => z | _ => 0 end.
Let cs : list con := map (fun d => CON [d] [nth (Z.to_nat d) sizes 0] (fun i => m d (nth 0 i 0))) (zrange dim).
Let cs' : list con := cons_of (axes dim) (axis_sums sizes m).

Lemma combine_maps {A B C} (f : A -> B) (g : A -> C) l : combine (map f l) (map g l) = map (fun x => (f x, g x)) l.
Proof. induction l as [|x l IH]; cbn; [|rewrite IH]; auto. Qed.

Lemma cs'_map : cs' = map (fun d => let n := nth (Z.to_nat d) sizes 0 in con_of (NDA [1] [d]) (NDA [n] (map (m d) (zrange n)))) (zrange dim).
Proof.
  unfold cs', cons_of, axes, axis_sums. fold dim. rewrite combine_maps, map_map. reflexivity.
Qed.

Lemma sizes_pos : positive sizes. Proof. apply fits_pos. now apply a_fits. Qed.

Lemma arr_eq d : NDA [nth (Z.to_nat d) sizes 0] (map (m d) (zrange (nth (Z.to_nat d) sizes 0))) =
  NDA [nth (Z.to_nat d) sizes 0] (map (fun i => m d (nth 0 i 0)) (all_indices [nth (Z.to_nat d) sizes 0])).
Proof. f_equal. rewrite all_indices_1, map_map. reflexivity. Qed.

Lemma same_dims : map c_dims cs' = map c_dims cs.
Proof. rewrite cs'_map. unfold cs. rewrite !map_map. reflexivity. Qed.
Lemma same_nd : map nd_of cs' = map nd_of cs.
Proof.
  rewrite cs'_map. unfold cs. rewrite !map_map. apply map_ext_in. intros d Hd. cbv zeta. rewrite arr_eq. unfold con_of, nd_of. cbn [c_sizes c_at shape flat].
  apply mk_ext. intros k Hk. now rewrite entry_NDA_map.
Qed.

Lemma in_cs' c : In c cs' -> exists c0, In c0 cs /\ c_dims c = c_dims c0 /\ c_sizes c = c_sizes c0 /\ forall k, index_in (c_sizes c) k -> c_at c k = c_at c0 k.
Proof.
  rewrite cs'_map. intros H. apply in_map_iff in H as (d & <- & Hd). cbv zeta. exists (CON [d] [nth (Z.to_nat d) sizes 0] (fun i => m d (nth 0 i 0))).
  split; [unfold cs; apply in_map_iff; eauto|]. split; [reflexivity|]. split; [reflexivity|]. cbn [con_of c_sizes c_at shape]. intros k Hk. rewrite arr_eq. now rewrite entry_NDA_map.
Qed.

Lemma implied_cs' s : implied cs' s <-> implied cs s.
Proof.
  assert (map (fun c => (c_dims c, c_sizes c)) cs' = map (fun c => (c_dims c, c_sizes c)) cs) as E.
  { rewrite cs'_map. unfold cs. rewrite !map_map. reflexivity. }
  assert (forall l l', map (fun c => (c_dims c, c_sizes c)) l = map (fun c => (c_dims c, c_sizes c)) l' -> implied l s -> implied l' s) as H.
  { intros l l' El [H1 H2].
    assert (forall c, In c l' -> exists c0, In c0 l /\ c_dims c0 = c_dims c /\ c_sizes c0 = c_sizes c) as Hb.
    { intros c Hc. apply (in_map (fun c => (c_dims c, c_sizes c))) in Hc. rewrite <- El in Hc. apply in_map_iff in Hc as (c0 & E0 & Hc). injection E0 as E1 E2. eauto. }
    assert (forall c, In c l -> exists c0, In c0 l' /\ c_dims c0 = c_dims c /\ c_sizes c0 = c_sizes c) as Hb'.
    { intros c Hc. apply (in_map (fun c => (c_dims c, c_sizes c))) in Hc. rewrite El in Hc. apply in_map_iff in Hc as (c0 & E0 & Hc). injection E0 as E1 E2. eauto. }
    split.
    - intros d. rewrite <- H1. split; intros (c & Hc & Hd).
      + destruct (Hb c Hc) as (c0 & H0 & E1 & _). exists c0. rewrite E1. auto.
      + destruct (Hb' c Hc) as (c0 & H0 & E1 & _). exists c0. rewrite E1. auto.
    - intros c Hc. destruct (Hb c Hc) as (c0 & H0 & E1 & E2). rewrite <- E1, <- E2. now apply H2. }
  split; now apply H.
Qed.

Lemma int_vectors : vectors (axes dim) (axis_sums sizes m).
Proof.
  split; [unfold axes, axis_sums; rewrite !map_length; reflexivity|]. unfold axes. apply Forall_forall. intros i Hi. apply in_map_iff in Hi as (d & <- & _). reflexivity.
Qed.

Lemma int_range : in_range (axes dim) (axis_sums sizes m).
Proof.
  pose proof Ha as (Hw & Hd2 & Hp40 & _). fold sizes in Hd2, Hp40. split.
  - apply Forall_forall. intros x Hx. unfold axis_sums in Hx. fold dim in Hx. apply in_map_iff in Hx as (d & <- & Hd). apply in_zrange in Hd. cbv zeta.
    destruct (ext_pos a Ha d Hd) as [P1 P2]. fold sizes in P1, P2. rewrite arr_eq.
    assert (positive [nth (Z.to_nat d) sizes 0]) as Hp by (constructor; auto).
    split; [apply wf_NDA_map; auto; discriminate|]. cbn [shape]. split; [cbn [prodZ fold_right]; lia|]. split; [cbn; lia|].
    unfold total. rewrite (sumZ_map_ext _ (fun i => m d (nth 0 i 0))).
    + pose proof (m_total a Ha d Hd) as [_ Hm]. pose proof (c_total_m a d) as Ec. apply Z.lt_trans with (2 ^ 52); [|lia]. eapply Z.le_lt_trans; [apply Z.eq_le_incl; exact Ec|exact Hm].
    + intros k Hk. apply in_all_indices in Hk. rewrite entry_NDA_map by auto. apply Z.abs_eq. apply (m_bounds a Ha d).
  - fold cs'. intros s Hs. apply implied_cs' in Hs. rewrite (implied_unique cs s sizes Hs (cs_implied a)). lia.
Qed.

Lemma int_call L fuel : (forall d k, 0 <= d < dim -> 0 <= k < nth (Z.to_nat d) sizes 0 -> checked_round (slice_sum a d k) = Ok (m d k)) ->
  (exists M, checked_round (array_sum a) = Ok M) ->
  py_integerise L fuel a = (let* r := py_qisi L fuel a (axes dim) (axis_sums sizes m) 0 in Ok (qr_pop_array r, qr_conv r, array_rms (qr_pop_array r) a)).
Proof.
  intros Hrd0 (M & EM). pose proof (nd_cases a Ha L fuel) as Hnd.
  pose proof (a_fits a Ha) as Hf. pose proof (fits_prod _ Hf) as Hfp. pose proof Ha as (Hw & Hd2 & Hp40 & _). fold sizes in Hd2, Hp40.
  rewrite py_qisi_core by (apply int_range || apply int_vectors). fold cs'.
  pose proof (qisi_core_cases L fuel a cs 0 (cs_small a Ha)) as H.
  specialize (H ltac:(intros s Hs; rewrite (implied_unique cs s sizes Hs (cs_implied a)); lia)).
  specialize (H ltac:(intros c Hc; apply (cs_in a) in Hc as (d & Hd & ->); rewrite (c_total_m a); pose proof (m_total a Ha d Hd); lia)).
  specialize (H Hw ltac:(fold sizes; lia)). cbv zeta in H. fold sizes in H.
  assert (qisi_core L fuel a cs' 0 = qisi_core L fuel a cs 0) as -> by (unfold qisi_core; now rewrite same_dims, same_nd).
  unfold py_integerise in Hnd |- *. unfold qisi_core in H |- *. rewrite (as_nd_ok d_zero) in H, Hnd |- * by (auto; fold sizes; lia). cbn [bind] in Hnd |- *. fold sizes in H, Hnd |- *.
  unfold integeriser_new in Hnd |- *. rewrite sizes_mk in Hnd |- *. rewrite nd_sum_dbl in Hnd |- * by auto. rewrite (a_flat a Ha : map (entry d_zero a) (all_indices sizes) = flat a) in Hnd |- *. fold (array_sum a) in Hnd |- *. cbn [bind] in Hnd |- *.
  rewrite EM in Hnd |- *. cbn [bind] in Hnd |- *. fold dim in Hnd |- *. destruct (Z.eqb_spec dim 1) as [E1|N1]; [unfold dim in E1; lia|].
  destruct (marginals_cases a Ha) as [(e & _ & d & k & Hd & Hk & E)|(E & _)]; [rewrite Hrd0 in E by auto; discriminate|].
  fold sizes dim in E. rewrite E in Hnd |- *. cbn [bind] in Hnd |- *. clear E.
  replace (map (fun d : Z => [d]) (zrange dim)) with (map c_dims cs) in Hnd |- * by (unfold cs; now rewrite map_map).
  fold m in Hnd |- *.
  change (map nd_of (map _ (zrange dim))) with (map nd_of cs) in Hnd |- *.
  destruct (qisi_new fuel (map c_dims cs) (map nd_of cs) 0) as [q|e|w|]; cbn [bind] in H, Hnd |- *; auto.
  destruct (qisi_solve L fuel q (map nd_of cs) (mk sizes (entry d_zero a))) as [[[st exn] [[c p] g]]|e|w|]; cbn [bind] in H, Hnd |- *; auto.
  destruct H as (Hvc & _ & _ & Ht & Hpop & r & ex & Hc & Hcv & Ea & Ex & _). rewrite Ea in Hnd |- *. rewrite Ex. rewrite !from_nd_mk by apply Hf. cbn [bind].
  rewrite nd_copy_mk in Hnd |- * by auto. cbn [bind] in Hnd |- *.
  destruct (index_loop _ _ _) as [ss| | |] eqn:El; cbn [bind in_result in_conv in_rmse] in Hnd |- *.
  - rewrite from_nd_mk in Hnd |- * by apply Hf. cbn [bind] in Hnd |- *. cbn [qr_pop_array qr_conv].
    destruct Hnd as (r' & Er & _ & _ & _ & _ & _ & Erm). injection Er as Er. rewrite Erm. reflexivity.
  - exfalso. rewrite index_loop_spec in El by apply Hf.
    rewrite (read_loop _ (fun i s => d_add s (d_mul (d_sub (d_ofZ (r i)) (entry d_zero a i)) (d_sub (d_ofZ (r i)) (entry d_zero a i))))) in El; [discriminate|].
    intros i s Hi. apply in_all_indices in Hi. now rewrite !nd_get_mk.
  - exfalso. rewrite index_loop_spec in El by apply Hf.
    rewrite (read_loop _ (fun i s => d_add s (d_mul (d_sub (d_ofZ (r i)) (entry d_zero a i)) (d_sub (d_ofZ (r i)) (entry d_zero a i))))) in El; [discriminate|].
    intros i s Hi. apply in_all_indices in Hi. now rewrite !nd_get_mk.
  - exfalso. rewrite index_loop_spec in El by apply Hf.
    rewrite (read_loop _ (fun i s => d_add s (d_mul (d_sub (d_ofZ (r i)) (entry d_zero a i)) (d_sub (d_ofZ (r i)) (entry d_zero a i))))) in El; [discriminate|].
    intros i s Hi. apply in_all_indices in Hi. now rewrite !nd_get_mk.
Qed.
Lemma int_qrange : qisi_range (axes dim) (axis_sums sizes m) a.
Proof.
  pose proof Ha as (Hw & Hd2 & Hp40 & _). split; [exact int_range|]. split; [|split; [exact Hw|lia]].
  intros c Hc. fold cs' in Hc. destruct (in_cs' c Hc) as (c0 & Hc0 & _ & Es & Eat).
  assert (c_total c = c_total c0) as -> by (unfold c_total; rewrite <- Es; unfold total; apply sumZ_map_ext; intros k Hk; apply Eat; now apply in_all_indices).
  apply (cs_in a) in Hc0 as (d & Hd & ->). pose proof (m_total a Ha d Hd) as [_ Hm]. pose proof (c_total_m a d) as Ec.
  apply Z.lt_trans with (2 ^ 52); [|lia]. eapply Z.le_lt_trans; [apply Z.eq_le_incl; exact Ec|exact Hm].
Qed.
Lemma int_qgood fuel : prodZ (shape a) < Z.of_nat fuel -> qisi_good fuel (axes dim) (axis_sums sizes m) a.
Proof.
  pose proof Ha as (Hw & Hd2 & Hp40 & _). intros Hfu. split; auto. intros c Hc. fold cs' in Hc. destruct (in_cs' c Hc) as (c0 & Hc0 & Ed & _).
  apply (cs_in a) in Hc0 as (d & Hd & ->). rewrite Ed. split; [repeat constructor; intros []|]. cbn [c_dims length]. lia.
Qed.
End Call.

Lemma int_qisi_claim L fuel a : nd_range a -> let n := Z.of_nat (length (shape a)) in
  (exists x, (x = array_sum a \/ exists d k, 0 <= d < n /\ 0 <= k < nth (Z.to_nat d) (shape a) 0 /\ x = slice_sum a d k) /\
     (forall z, (/ 10000 < Rabs (B2R x - IZR z))%R) /\ py_integerise L fuel a = Throw (RuntimeError "value is not an integer (within tolerance)")) \/
  (exists m, (forall d k, 0 <= d < n -> 0 <= k < nth (Z.to_nat d) (shape a) 0 -> (Rabs (B2R (slice_sum a d k) - IZR (m d k)) <= / 9998)%R) /\
     qisi_range (axes n) (axis_sums (shape a) m) a /\ (prodZ (shape a) < Z.of_nat fuel -> qisi_good fuel (axes n) (axis_sums (shape a) m) a) /\
     py_integerise L fuel a =
       (let* r := py_qisi L fuel a (axes n) (axis_sums (shape a) m) 0 in Ok (qr_pop_array r, qr_conv r, array_rms (qr_pop_array r) a))).
Proof.
  intros Ha n. pose proof (a_fits a Ha) as Hf. pose proof (fits_prod _ Hf) as Hfp. pose proof Ha as (Hw & Hd2 & Hp40 & _).
  destruct (sum_range a Ha) as [Fs Bs].
  destruct (checked_round_total a (array_sum a) Fs Bs) as [(M & EM)|(e & EM)].
  2:{ left. exists (array_sum a). split; [now left|]. destruct (round_throws _ _ Fs Bs EM) as [Hn ->]. split; auto.
      unfold py_integerise. rewrite (as_nd_ok d_zero) by (auto; lia). cbn [bind].
      unfold integeriser_new. rewrite sizes_mk. rewrite nd_sum_dbl by auto. rewrite (a_flat a Ha). fold (array_sum a). cbn [bind]. now rewrite EM. }
  destruct (marginals_cases a Ha) as [(e & E & d & k & Hd & Hk & Ek)|(_ & Hrd)].
  - left. exists (slice_sum a d k). split; [right; eauto|]. destruct (slice_range a d k Ha) as [F B]. destruct (round_throws _ _ F B Ek) as [Hn ->]. split; auto.
    unfold py_integerise. rewrite (as_nd_ok d_zero) by (auto; lia). cbn [bind].
    unfold integeriser_new. rewrite sizes_mk. rewrite nd_sum_dbl by auto. rewrite (a_flat a Ha). fold (array_sum a). cbn [bind]. rewrite EM. cbn [bind].
    destruct (Z.eqb_spec (Z.of_nat (length (shape a))) 1) as [E1|N1]; [lia|]. now rewrite E.
  - right. exists (fun d k => match checked_round (slice_sum a d k) with Ok z => z | _ => 0 end). split.
    + intros d k Hd Hk. specialize (Hrd d k Hd Hk). destruct (checked_round_inv _ _ Hrd) as (r & [_ V] & _ & Hr). rewrite V. exact Hr.
    + split; [now apply int_qrange|]. split; [now apply int_qgood|]. apply int_call; eauto.
Qed.

(** C83 for integerise *)
Lemma int_overshoots_claim L fuel a res rmse : nd_range a -> prodZ (shape a) < Z.of_nat fuel -> py_integerise L fuel a = Ok (res, false, rmse) ->
  let n := Z.of_nat (length (shape a)) in
  exists m, (forall d k, 0 <= d < n -> 0 <= k < nth (Z.to_nat d) (shape a) 0 -> (Rabs (B2R (slice_sum a d k) - IZR (m d k)) <= / 9998)%R) /\
    let cs := cons_of (axes n) (axis_sums (shape a) m) in
    exists points people g p x q t, synthesised cs (shape a) (entry d_zero a) points people g /\
    (forall i, index_in (shape a) i -> entry 0 res i = occurrences i people) /\
    people = p ++ x :: q /\ refit cs (shape a) (entry d_zero a) (left_of p) t /\ overshoots cs (shape a) (left_of p) t.
Proof.
  intros Ha Hfu E n. destruct (int_qisi_claim L fuel a Ha) as [(x & _ & _ & E')|(m & Hm & Hr & Hg & E')]; [congruence|]. fold n in Hm, Hr, Hg, E'.
  rewrite E in E'. exists m. split; auto. specialize (Hg Hfu).
  destruct (py_qisi L fuel a (axes n) (axis_sums (shape a) m) 0) as [r| | |] eqn:Er; cbn [bind] in E'; try discriminate. injection E' as E1 E2 _.
  destruct (qisi_draws L fuel a _ _ 0 r Hr Hg Er (eq_sym E2)) as (points & people & g & p & x & q & t & _ & _ & Hs & Ho & Ep & Ht & Hov).
  exists points, people, g, p, x, q, t. rewrite E1. split; [exact Hs|]. split; [exact Ho|]. split; [exact Ep|]. split; [exact Ht|exact Hov].
Qed.

(** Examples: arrays of halves *)
Definition half (k : Z) : double := d_lit k (-1).
Lemma half_R k : Z.abs k <= 2 ^ 53 -> B2R (half k) = (IZR k * / 2)%R.
Proof. intros H. destruct (d_lit_exact k (-1) H ltac:(lia) ltac:(lia)) as [_ E]. exact E. Qed.
Lemma entry_half sizes l i : forallb (fun k => Z.abs k <=? 2 ^ 53) l = true ->
  B2R (entry d_zero (NDA sizes (map half l)) i) = (IZR (entry 0%Z (NDA sizes l) i) * / 2)%R.
Proof.
  intros H. unfold entry. cbn [flat shape]. generalize (Z.to_nat (rowmajor sizes i)). induction l as [|k l IH]; intros n.
  - destruct n; cbn [map nth]; change (B2R d_zero) with 0%R; lra.
  - cbn [forallb] in H. apply andb_true_iff in H as [H1 H2]. destruct n; cbn [map nth]; [apply half_R; lia|now apply IH].
Qed.
Lemma whole_fit_by sizes l b : forallb (fun k => Z.abs k <=? 2 ^ 53) l &&
  forallb (fun i => (0 <=? b i) && (negb (entry 0 (NDA sizes l) i =? 0) || (b i =? 0))) (all_indices sizes) &&
  forallb (fun d => forallb (fun k => let slice := filter (fun i => nth (Z.to_nat d) i 0 =? k) (all_indices sizes) in
    sumZ (map (entry 0 (NDA sizes l)) slice) =? 2 * sumZ (map b slice)) (zrange (nth (Z.to_nat d) sizes 0))) (zrange (Z.of_nat (length sizes))) = true ->
  whole_fit (NDA sizes (map half l)) b.
Proof.
  rewrite !andb_true_iff. intros [[H1 H2] H3]. rewrite forallb_forall in H2, H3. split; cbn [shape].
  - intros i Hi. apply in_all_indices in Hi. specialize (H2 i Hi). apply andb_true_iff in H2 as [Hb H2]. split; [lia|]. intros E.
    rewrite entry_half in E by auto. assert (IZR (entry 0%Z (NDA sizes l) i) = 0%R) as E0 by lra. apply eq_IZR in E0. rewrite E0 in H2. cbn in H2. lia.
  - intros d k Hd Hk. set (slice := filter _ _). apply in_zrange in Hd. specialize (H3 d Hd). rewrite forallb_forall in H3. apply in_zrange in Hk. specialize (H3 k Hk).
    cbv beta zeta in H3. fold slice in H3. apply Z.eqb_eq in H3.
    rewrite (map_ext _ (fun i => IZR (entry 0%Z (NDA sizes l) i) * / 2)%R) by (intros i; now apply entry_half).
    rewrite sumR_scale, H3, mult_IZR. lra.
Qed.

Definition raised {T} (x : outcome T) : option exn := match x with Throw e => Some e | _ => None end.
Lemma raised_inv {T} (x : outcome T) e : raised x = Some e -> x = Throw e.
Proof. destruct x; try discriminate. intros E. injection E as ->. reflexivity. Qed.

Definition exR : ndarray double := NDA [2; 2; 2] (map half [0; 1; 1; 0; 1; 2; 0; 1]).
Definition exR_b : ndarray Z := NDA [2; 2; 2] [0; 0; 1; 0; 0; 2; 0; 0].
Definition exF : ndarray double := NDA [2; 2; 2] (map half [0; 1; 1; 0; 3; 2; 0; 1]).
Definition exF_b : ndarray Z := NDA [2; 2; 2] [0; 0; 1; 0; 1; 2; 0; 0].
Lemma exR_raises L : nd_range exR /\ whole_fit exR (entry 0 exR_b) /\ py_integerise L 40 exR = Throw (RuntimeError "pick failed").
Proof.
  split; [apply nd_range_by; vm_compute; reflexivity|]. split; [apply whole_fit_by; vm_compute; reflexivity|]. apply raised_inv. rewrite int_fast_eq. vm_compute. reflexivity.
Qed.
Lemma exF_false L : nd_range exF /\ whole_fit exF (entry 0 exF_b) /\ exists res rmse, py_integerise L 40 exF = Ok (res, false, rmse).
Proof.
  split; [apply nd_range_by; vm_compute; reflexivity|]. split; [apply whole_fit_by; vm_compute; reflexivity|].
  destruct (int_view_inv (py_integerise L 40 exF) [0; 1; 0; 0; 2; 1; 0; 0] false) as (res & rmse & E & _); [rewrite int_fast_eq; vm_compute; reflexivity|]. eauto.
Qed.
Lemma whole_refuted L : ~ (forall a b, nd_range a -> whole_fit a b -> exists res conv rmse, py_integerise L 40 a = Ok (res, conv, rmse)) /\
  ~ (forall a b res conv rmse, nd_range a -> whole_fit a b -> py_integerise L 40 a = Ok (res, conv, rmse) -> conv = true).
Proof.
  split; intros H.
  - destruct (exR_raises L) as (Hr & Hw & E). destruct (H _ _ Hr Hw) as (res & conv & rmse & E'). rewrite E in E'. discriminate.
  - destruct (exF_false L) as (Hr & Hw & res & rmse & E). discriminate (H _ _ _ _ _ Hr Hw E).
Qed.
