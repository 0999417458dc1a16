(** Proofs for C86: the discrepancy of the Sobol points. *)
From Coq Require Import Permutation.
From Verif Require Import Base SobolTable Sobol SobolSpec SobolClaims NetSpec NetProofs DiscSpec.
Open Scope Z_scope.

Notation MM := (2 ^ 32).

(** * Constraints (coordinate, lower end, length) *)
Definition cons3 : Type := (nat * N * N)%type.
Definition in3 (p : list N) (c : cons3) : bool := let '(i, lo, w) := c in ((lo <=? nth i p 0) && (nth i p 0 <? lo + w))%N.
Definition len3 (c : cons3) : Z := let '(_, _, w) := c in Z.of_N w.
Definition inC (cs : list cons3) (p : list N) : bool := forallb (in3 p) cs.
Definition prod (cs : list cons3) : Z := fold_right (fun c v => len3 c * v) 1 cs.
Definition cnt (L : list (list N)) (f : list N -> bool) : Z := Z.of_nat (length (filter f L)).
Definition sc (cs : list cons3) : Z := MM ^ Z.of_nat (length cs).
Definition dv (L : list (list N)) (cs : list cons3) : Z := cnt L (inC cs) * sc cs - Z.of_nat (length L) * prod cs.

Lemma sc_cons c cs : sc (c :: cs) = MM * sc cs.
Proof. unfold sc. cbn [length]. rewrite Nat2Z.inj_succ, Z.pow_succ_r by lia. reflexivity. Qed.
Lemma sc_pos cs : 0 < sc cs. Proof. unfold sc. apply Z.pow_pos_nonneg; lia. Qed.
Lemma cnt_nonneg L f : 0 <= cnt L f. Proof. unfold cnt. lia. Qed.
Lemma cnt_cons p L f : cnt (p :: L) f = (if f p then 1 else 0) + cnt L f.
Proof. unfold cnt. cbn [filter]. destruct (f p); cbn [length]; lia. Qed.
Lemma cnt_ext L f g : (forall p, f p = g p) -> cnt L f = cnt L g.
Proof. intros H. unfold cnt. now rewrite (filter_ext f g H). Qed.
Lemma cnt_le L f g : (forall p, f p = true -> g p = true) -> cnt L f <= cnt L g.
Proof.
  intros H. induction L as [|p L IH]; [reflexivity|]. rewrite !cnt_cons. specialize (H p).
  destruct (f p), (g p); try lia.
Qed.
Lemma cnt_sum L (f g h : list N -> bool) : (forall p, (if f p then 1 else 0) = (if g p then 1 else 0) + (if h p then 1 else 0)) -> cnt L f = cnt L g + cnt L h.
Proof. intros H. induction L as [|p L IH]; [reflexivity|]. rewrite !cnt_cons, IH, H. lia. Qed.

Lemma prod_cons c cs : prod (c :: cs) = len3 c * prod cs. Proof. reflexivity. Qed.
Lemma prod_nonneg cs : 0 <= prod cs.
Proof. induction cs as [|[[i lo] w] cs IH]; cbn [prod fold_right len3]; [lia|]. fold (prod cs). nia. Qed.

Lemma inC_perm cs cs' p : Permutation cs cs' -> inC cs p = inC cs' p.
Proof.
  intros H. unfold inC. induction H; cbn [forallb]; auto.
  - now rewrite IHPermutation.
  - destruct (in3 p x), (in3 p y); reflexivity.
  - congruence.
Qed.
Lemma prod_perm cs cs' : Permutation cs cs' -> prod cs = prod cs'.
Proof. intros H. unfold prod. induction H; cbn [fold_right]; auto; [now rewrite IHPermutation | lia | congruence]. Qed.
Lemma dv_perm L cs cs' : Permutation cs cs' -> dv L cs = dv L cs'.
Proof.
  intros H. unfold dv, sc. rewrite (prod_perm _ _ H), (Permutation_length H). f_equal. f_equal.
  apply cnt_ext. intros p. now apply inC_perm.
Qed.

(** adjacent intervals add up *)
Lemma dv_add L i lo l1 l2 cs : dv L ((i, lo, l1 + l2)%N :: cs) = dv L ((i, lo, l1) :: cs) + dv L ((i, (lo + l1)%N, l2) :: cs).
Proof.
  unfold dv. rewrite !sc_cons. unfold prod. cbn [fold_right len3]. fold (prod cs).
  rewrite (cnt_sum L _ (inC ((i, lo, l1) :: cs)) (inC ((i, (lo + l1)%N, l2) :: cs))); [rewrite N2Z.inj_add; ring|].
  intros p. unfold inC. cbn [forallb in3]. destruct (forallb (in3 p) cs); [|rewrite !andb_false_r; reflexivity].
  rewrite !andb_true_r.
  destruct (N.leb_spec lo (nth i p 0%N)), (N.ltb_spec (nth i p 0%N) (lo + (l1 + l2))), (N.ltb_spec (nth i p 0%N) (lo + l1)),
    (N.leb_spec (lo + l1) (nth i p 0%N)), (N.ltb_spec (nth i p 0%N) (lo + l1 + l2)); cbn; lia.
Qed.
Lemma dv_empty L i lo cs : dv L ((i, lo, 0%N) :: cs) = 0.
Proof. pose proof (dv_add L i lo 0 0 cs) as H. rewrite !N.add_0_r in H. lia. Qed.

(** a run of intervals of one length *)
Lemma dv_run L i w cs b : 0 <= b -> forall e lo, (forall c, (c < e)%N -> Z.abs (dv L ((i, (lo + c * w)%N, w) :: cs)) <= b) ->
  Z.abs (dv L ((i, lo, (e * w)%N) :: cs)) <= Z.of_N e * b.
Proof.
  intros Hb e. induction e as [|e IH] using N.peano_ind; intros lo H.
  - cbn [N.mul]. rewrite dv_empty. cbn. lia.
  - rewrite N.mul_succ_l, dv_add. specialize (IH lo (fun c Hc => H c ltac:(lia))). specialize (H e ltac:(lia)). lia.
Qed.

(** dyadic boxes as constraints *)
Definition dy (b : box) : list cons3 := map (fun '(i, k, v) => (i, (v * 2 ^ (32 - k))%N, (2 ^ (32 - k))%N)) b.
Definition anc (r : corner) : list cons3 := map (fun '(i, x) => (i, 0%N, x)) r.

Lemma in_dy b p : inC (dy b) p = true <-> in_box p b.
Proof.
  unfold inC, in_box, dy. rewrite forallb_forall. split.
  - intros H i k v Hin. specialize (H (i, v * 2 ^ (32 - k), 2 ^ (32 - k))%N).
    assert (in3 p (i, v * 2 ^ (32 - k), 2 ^ (32 - k))%N = true) as H' by (apply H, in_map_iff; exists (i, k, v); auto).
    cbn [in3] in H'. apply andb_true_iff in H'. destruct H' as [H1 H2]. apply N.leb_le in H1. apply N.ltb_lt in H2. lia.
  - intros H c Hc. apply in_map_iff in Hc. destruct Hc as ([[i k] v] & <- & Hin). specialize (H i k v Hin).
    cbn [in3]. apply andb_true_iff. split; [apply N.leb_le|apply N.ltb_lt]; lia.
Qed.

Lemma dy_prod b : (forall i k v, In (i, k, v) b -> (k <= 32)%N) -> prod (dy b) * 2 ^ Z.of_N (bits b) = sc (dy b).
Proof.
  induction b as [|[[i k] v] b IH]; intros H; [reflexivity|].
  cbn [dy map]. fold (dy b). rewrite sc_cons. unfold prod. cbn [fold_right len3]. fold (prod (dy b)).
  cbn [bits fold_right]. fold (bits b). pose proof (H i k v (or_introl eq_refl)) as Hk.
  specialize (IH (fun i k v Hin => H i k v (or_intror Hin))). rewrite <- IH, N2Z.inj_add, Z.pow_add_r by lia.
  rewrite N2Z.inj_pow, N2Z.inj_sub by lia. change (Z.of_N 2) with 2. change (Z.of_N 32) with 32.
  replace MM with (2 ^ (32 - Z.of_N k) * 2 ^ Z.of_N k); [ring|]. rewrite <- Z.pow_add_r by lia. f_equal. lia.
Qed.

(** * One block *)
(** the bound for one block of 2^m points and coordinates of the given degrees *)
Fixpoint K (m : Z) (ds : list Z) : Z :=
  match ds with [] => 0 | [d] => 2 ^ d | d :: ds' => 2 ^ d * (m / d + 1) * K m ds' end.

Lemma K_cons m d d' ds : K m (d :: d' :: ds) = 2 ^ d * (m / d + 1) * K m (d' :: ds). Proof. reflexivity. Qed.
Lemma K_pos m d ds : 0 <= m -> Forall (fun d => 0 < d) (d :: ds) -> 1 <= K m (d :: ds).
Proof.
  intros Hm. revert d. induction ds as [|d' ds IH]; intros d H; inversion H as [|? ? Hd H']; subst.
  - cbn [K]. pose proof (Z.pow_pos_nonneg 2 d). lia.
  - rewrite K_cons. specialize (IH d' H'). pose proof (Z.pow_pos_nonneg 2 d).
    assert (0 <= m / d) by (apply Z.div_pos; lia). nia.
Qed.
Lemma K_le m ds : 0 <= m -> Forall (fun d => 0 < d) ds -> ds <> [] ->
  K m ds <= 2 ^ (fold_right Z.add 0 ds) * (m + 1) ^ (Z.of_nat (length ds) - 1).
Proof.
  intros Hm. induction ds as [|d ds IH]; intros H Hne; [congruence|]. inversion H as [|? ? Hd H']; subst.
  destruct ds as [|d' ds].
  - cbn [K fold_right length]. change (Z.of_nat 1 - 1) with 0. rewrite Z.pow_0_r, Z.add_0_r. lia.
  - rewrite K_cons. specialize (IH H' ltac:(congruence)). pose proof (K_pos m d' ds Hm H') as Hk.
    assert (0 <= fold_right Z.add 0 (d' :: ds)) as Hs by (clear -H'; induction H'; cbn [fold_right]; lia).
    cbn [fold_right] in *. cbn [length] in *.
    rewrite Z.pow_add_r by lia.
    replace (Z.of_nat (S (S (length ds))) - 1) with (Z.succ (Z.of_nat (S (length ds)) - 1)) by lia.
    rewrite Z.pow_succ_r by lia.
    assert (m / d <= m) by (apply Z.div_le_upper_bound; nia). assert (0 <= m / d) by (apply Z.div_pos; lia).
    pose proof (Z.pow_pos_nonneg 2 d ltac:(lia) ltac:(lia)).
    set (k := K m (d' :: ds)) in *. set (a := 2 ^ (d' + fold_right Z.add 0 ds)) in *. set (q := (m + 1) ^ (Z.of_nat (S (length ds)) - 1)) in *.
    replace (2 ^ d * a * ((m + 1) * q)) with (2 ^ d * (m + 1) * (a * q)) by ring.
    apply Z.mul_le_mono_nonneg; nia.
Qed.

Lemma bits_dy b i k v : bits ((i, k, v) :: b) = (k + bits b)%N. Proof. reflexivity. Qed.
Lemma span_dy b i k v : span ((i, k, v) :: b) = (degree i * ((k + degree i - 1) / degree i) + span b)%N. Proof. reflexivity. Qed.
Lemma span_mult i j : (0 < degree i)%N -> (degree i * ((degree i * j + degree i - 1) / degree i) = degree i * j)%N.
Proof.
  intros H. f_equal. symmetry. apply (N.div_unique _ _ _ (degree i - 1)); lia.
Qed.

(** one constraint more can only lose points *)
Lemma inC_app cs cs' p : inC (cs ++ cs') p = inC cs p && inC cs' p.
Proof. unfold inC. now rewrite forallb_app. Qed.

Lemma prod_app cs cs' : prod (cs ++ cs') = prod cs * prod cs'.
Proof. induction cs as [|c cs IH]; [change (prod []) with 1; cbn [app]; lia|]. cbn [app]. rewrite !prod_cons, IH. ring. Qed.
Lemma sc_app cs cs' : sc (cs ++ cs') = sc cs * sc cs'.
Proof. unfold sc. rewrite app_length, Nat2Z.inj_add, Z.pow_add_r by lia. reflexivity. Qed.

Lemma anc_prod r : Forall (fun '(_, x) => (x <= 2 ^ 32)%N) r -> 0 <= prod (anc r) <= sc (anc r).
Proof.
  induction r as [|[i x] r IH]; intros H; [cbn; unfold sc; cbn; lia|]. inversion H as [|? ? Hx H']; subst.
  cbn [anc map]. fold (anc r). rewrite sc_cons. unfold prod. cbn [fold_right len3]. fold (prod (anc r)). specialize (IH H').
  assert (0 <= Z.of_N x <= MM) by lia. nia.
Qed.

Section Block.
Variable (dim : N) (L : list (list N)) (m : N).
Hypothesis Hdim : (1 <= dim <= 1111)%N.
Hypothesis Hm : (m <= 32)%N.
Hypothesis Hlen : Z.of_nat (length L) = 2 ^ Z.of_N m.
Hypothesis Hnet : forall b, is_box dim b -> (span b <= m)%N -> cnt L (inC (dy b)) = 2 ^ (Z.of_N m - Z.of_N (bits b)).

Definition names (b : box) : list nat := map (fun '(i, _, _) => i) b.

(** a part of one dyadic interval *)
Lemma dv_part i lo w k v r b : is_box dim ((i, k, v) :: b) -> (span ((i, k, v) :: b) <= m)%N -> (bits b <= span b)%N ->
  Forall (fun '(_, x) => (x <= 2 ^ 32)%N) r ->
  (v * 2 ^ (32 - k) <= lo)%N -> (lo + w <= (v + 1) * 2 ^ (32 - k))%N -> (k + bits b <= m)%N ->
  Z.abs (dv L ((i, lo, w) :: anc r ++ dy b)) <= 2 ^ (Z.of_N m - Z.of_N (k + bits b)) * sc ((i, lo, w) :: anc r ++ dy b).
Proof.
  intros Hb Hs Hbs Hr Hlo Hhi Hkm.
  assert (Hk : forall i' k' v', In (i', k', v') ((i, k, v) :: b) -> (k' <= 32)%N) by (intros ? ? ? Hin; now apply (proj2 Hb) in Hin).
  pose proof (Hk i k v (or_introl eq_refl)) as Hk0.
  unfold dv. rewrite Hlen.
  assert (H1 : cnt L (inC ((i, lo, w) :: anc r ++ dy b)) <= 2 ^ (Z.of_N m - Z.of_N (k + bits b))).
  { rewrite <- (bits_dy b i k v), <- (Hnet _ Hb Hs). apply cnt_le. intros p. unfold inC. cbn [forallb dy map]. fold (dy b).
    rewrite forallb_app. intros H. apply andb_true_iff in H. destruct H as [Ha H]. apply andb_true_iff in H. destruct H as [_ H].
    rewrite H, andb_true_r. cbn [in3] in *. apply andb_true_iff in Ha. destruct Ha as [Ha1 Ha2].
    apply N.leb_le in Ha1. apply N.ltb_lt in Ha2. apply andb_true_iff. split; [apply N.leb_le|apply N.ltb_lt]; lia. }
  assert (H2 : 2 ^ Z.of_N m * prod ((i, lo, w) :: anc r ++ dy b) <= 2 ^ (Z.of_N m - Z.of_N (k + bits b)) * sc ((i, lo, w) :: anc r ++ dy b)).
  { rewrite sc_cons. unfold prod. cbn [fold_right len3]. fold (prod (anc r ++ dy b)). rewrite prod_app, sc_app.
    pose proof (anc_prod r Hr) as [Hp0 Hp].
    rewrite <- (dy_prod b (fun i k v Hin => Hk i k v (or_intror Hin))).
    replace (2 ^ Z.of_N m) with (2 ^ (Z.of_N m - Z.of_N (k + bits b)) * 2 ^ Z.of_N k * 2 ^ Z.of_N (bits b))
      by (rewrite <- !Z.pow_add_r by lia; f_equal; lia).
    replace MM with (2 ^ (32 - Z.of_N k) * 2 ^ Z.of_N k) by (rewrite <- Z.pow_add_r by lia; f_equal; lia).
    assert (Hw : Z.of_N w <= 2 ^ (32 - Z.of_N k)).
    { replace (2 ^ (32 - Z.of_N k)) with (Z.of_N (2 ^ (32 - k))); [lia|]. rewrite N2Z.inj_pow, N2Z.inj_sub by lia. reflexivity. }
    pose proof (prod_nonneg (dy b)) as Hd0.
    set (A := 2 ^ (Z.of_N m - Z.of_N (k + bits b))). set (B := 2 ^ Z.of_N k). set (C := 2 ^ Z.of_N (bits b)).
    assert (0 < A) by (apply Z.pow_pos_nonneg; lia). assert (0 < B) by (apply Z.pow_pos_nonneg; lia). assert (0 < C) by (apply Z.pow_pos_nonneg; lia).
    set (D := 2 ^ (32 - Z.of_N k)) in *. set (P := prod (anc r)) in *. set (S := sc (anc r)) in *. set (Q := prod (dy b)) in *.
    replace (A * B * C * (Z.of_N w * (P * Q))) with (A * B * C * Q * (Z.of_N w * P)) by ring.
    replace (A * (D * B * (S * (Q * C)))) with (A * B * C * Q * (D * S)) by ring.
    apply Z.mul_le_mono_nonneg_l; [repeat apply Z.mul_nonneg_nonneg; lia|]. apply Z.mul_le_mono_nonneg; lia. }
  pose proof (cnt_nonneg L (inC ((i, lo, w) :: anc r ++ dy b))). pose proof (sc_pos ((i, lo, w) :: anc r ++ dy b)).
  pose proof (prod_nonneg ((i, lo, w) :: anc r ++ dy b)).
  pose proof (Z.pow_pos_nonneg 2 (Z.of_N m)). pose proof (Z.pow_nonneg 2 (Z.of_N m - Z.of_N (k + bits b))).
  apply Z.abs_le. split; nia.
Qed.

Definition dgs (r : corner) : list Z := map (fun '(i, _) => Z.of_N (degree i)) r.

Lemma pow_step (d j : N) : (d * (j + 1) <= 32)%N -> (2 ^ (32 - d * j) = 2 ^ d * 2 ^ (32 - d * (j + 1)))%N.
Proof. intros H. rewrite <- N.pow_add_r. f_equal. lia. Qed.

Lemma block_dev r : forall b, is_box dim b -> NoDup (map fst r ++ names b) ->
  Forall (fun '(i, x) => (i < N.to_nat dim)%nat /\ (x <= 2 ^ 32)%N) r -> (span b <= m)%N -> bits b = span b ->
  Z.abs (dv L (anc r ++ dy b)) <= K (Z.of_N m) (dgs r) * sc (anc r ++ dy b).
Proof.
  induction r as [|[i x] r IH]; intros b Hb Hnd Hr Hs Hbs.
  - cbn [anc map app dgs K]. unfold dv. rewrite Hlen, (Hnet b Hb Hs).
    assert (forall i' k' v', In (i', k', v') b -> (k' <= 32)%N) as Hk by (intros ? ? ? Hin; now apply (proj2 Hb) in Hin).
    rewrite <- (dy_prod b Hk).
    replace (2 ^ Z.of_N m) with (2 ^ (Z.of_N m - Z.of_N (bits b)) * 2 ^ Z.of_N (bits b)) by (rewrite <- Z.pow_add_r by lia; f_equal; lia).
    match goal with |- Z.abs ?e <= _ => replace e with 0 by ring end. cbn. lia.
  - inversion Hr as [|? ? Hix Hr']; subst. cbn beta iota in Hix. destruct Hix as [Hi Hx].
    assert (Hr2 : Forall (fun '(_, x) => (x <= 2 ^ 32)%N) r) by (apply (Forall_impl _ (P := fun '(i, x) => (i < N.to_nat dim)%nat /\ (x <= 2 ^ 32)%N)); [intros [? ?]; tauto | exact Hr']).
    pose proof (degree_bounds i ltac:(lia)) as Hd. set (d := degree i) in *.
    assert (Hds : Forall (fun d => 0 < d) (dgs r)).
    { clear -Hr' Hdim. unfold dgs. apply Forall_map. eapply Forall_impl; [|exact Hr']. intros [i x] [H _]. pose proof (degree_bounds i ltac:(lia)). lia. }
    cbn [anc map app]. fold (anc r).
    (* extending the box by an interval of level j *)
    assert (Hext : forall j v, (d * j + span b <= m)%N -> (v < 2 ^ (d * j))%N ->
      is_box dim ((i, d * j, v)%N :: b) /\ (span ((i, d * j, v)%N :: b) = d * j + span b)%N).
    { intros j v Hj Hv. split.
      - split.
        + cbn [map]. constructor; [|apply Hb]. cbn [map app] in Hnd. inversion Hnd as [|? ? Hn _]; subst. intros Hin. apply Hn, in_or_app. now right.
        + intros i' k' v' [E|Hin]; [inversion E; subst; repeat split; auto; lia | now apply (proj2 Hb)].
      - rewrite span_dy. rewrite span_mult by (fold d; lia). reflexivity. }
    set (B := K (Z.of_N m) (dgs r) * sc ((i, 0%N, x) :: anc r ++ dy b)).
    assert (HB0 : 0 <= K (Z.of_N m) (dgs r)).
    { destruct (dgs r) eqn:E; [cbn; lia|]. pose proof (K_pos (Z.of_N m) z l ltac:(lia) Hds). lia. }
    assert (HB : 0 <= B) by (unfold B; pose proof (sc_pos ((i, 0%N, x) :: anc r ++ dy b)); nia).
    assert (Hone : forall j v, (d * j + span b <= m)%N -> (v < 2 ^ (d * j))%N ->
      Z.abs (dv L ((i, (v * 2 ^ (32 - d * j))%N, (2 ^ (32 - d * j))%N) :: anc r ++ dy b)) <= B).
    { intros j v Hj Hv. destruct (Hext j v Hj Hv) as [Hb' Hs'].
      rewrite (dv_perm L _ (anc r ++ dy ((i, d * j, v)%N :: b))).
      2: { cbn [dy map]. fold (dy b). apply Permutation_middle. }
      eapply Z.le_trans; [apply IH; auto|].
      - cbn [names map] in *. cbn [map app fst] in Hnd. eapply Permutation_NoDup; [apply Permutation_middle|]. exact Hnd.
      - rewrite Hs'. exact Hj.
      - rewrite bits_dy, Hs', Hbs. reflexivity.
      - unfold B. apply Z.eq_le_incl. f_equal. cbn [dy map]. fold (dy b). unfold sc. cbn [length]. rewrite !app_length. cbn [length]. f_equal. f_equal. lia. }
    set (S0 := sc ((i, 0%N, x) :: anc r ++ dy b)) in *.
    assert (HS0 : 0 < S0) by apply sc_pos.
    cbn [dgs map]. fold (dgs r). fold d.
    assert (HK : K (Z.of_N m) (Z.of_N d :: dgs r) = if dgs r then 2 ^ Z.of_N d else 2 ^ Z.of_N d * (Z.of_N m / Z.of_N d + 1) * K (Z.of_N m) (dgs r))
      by (destruct (dgs r); reflexivity).
    pose proof (Z.pow_pos_nonneg 2 (Z.of_N d) ltac:(lia) ltac:(lia)) as Hp2.
    assert (0 <= Z.of_N m / Z.of_N d) as Hq0 by (apply Z.div_pos; lia).
    destruct (N.eq_dec x (2 ^ 32)) as [->|Hne].
    + (* the whole interval *)
      specialize (Hone 0%N 0%N). rewrite N.mul_0_r in Hone. cbn [N.mul N.sub] in Hone.
      eapply Z.le_trans; [apply Hone; cbn; lia|]. unfold B. apply Z.mul_le_mono_nonneg_r; [apply Z.lt_le_incl, sc_pos|]. rewrite HK.
      destruct (dgs r); [cbn [K]; lia | nia].
    + assert (x < 2 ^ 32)%N as Hx' by lia. clear Hx Hne.
      set (q := ((m - span b) / d)%N).
      assert (Hq : (d * q + span b <= m)%N) by (pose proof (N.mul_div_le (m - span b) d ltac:(lia)) as Hle; fold q in Hle; lia).
      assert (Hq' : (m < d * q + span b + d)%N) by (pose proof (N.mul_succ_div_gt (m - span b) d ltac:(lia)) as Hgt; fold q in Hgt; rewrite N.mul_succ_r in Hgt; lia).
      assert (Hlev : forall j, (d * j + span b <= m)%N ->
        Z.abs (dv L ((i, 0%N, (x / 2 ^ (32 - d * j) * 2 ^ (32 - d * j))%N) :: anc r ++ dy b)) <= Z.of_N j * (2 ^ Z.of_N d - 1) * B).
      { intros j. induction j as [|j IHj] using N.peano_ind; intros Hj.
        - rewrite N.mul_0_r, N.sub_0_r, N.div_small by exact Hx'. cbn [N.mul]. rewrite dv_empty. cbn. lia.
        - specialize (IHj ltac:(lia)). rewrite <- N.add_1_r in *. 
          set (w := (2 ^ (32 - d * (j + 1)))%N) in *. rewrite (pow_step d j) in IHj by lia. fold w in IHj.
          assert (0 < w)%N as Hw by (apply N.neq_0_lt_0, N.pow_nonzero; lia).
          assert (0 < 2 ^ d)%N as Hd2 by (apply N.neq_0_lt_0, N.pow_nonzero; lia).
          set (e := ((x / w) mod 2 ^ d)%N).
          assert (He : (x / w = 2 ^ d * (x / (2 ^ d * w)) + e)%N).
          { rewrite (N.mul_comm (2 ^ d) w), <- N.div_div by lia. apply N.div_mod. lia. }
          assert (He' : (e < 2 ^ d)%N) by (apply N.mod_lt; lia).
          set (a := (x / (2 ^ d * w))%N) in *.
          replace (x / w * w)%N with (a * (2 ^ d * w) + e * w)%N by (rewrite He; lia).
          rewrite dv_add.
          assert (Hr3 : Z.abs (dv L ((i, (0 + a * (2 ^ d * w))%N, (e * w)%N) :: anc r ++ dy b)) <= Z.of_N e * B).
          { apply dv_run; [exact HB|]. intros c Hc.
            replace (0 + a * (2 ^ d * w) + c * w)%N with ((2 ^ d * a + c) * w)%N by lia. apply Hone; [lia|].
            apply N.le_lt_trans with (x / w)%N; [lia|].
            apply N.div_lt_upper_bound; [lia|]. unfold w. rewrite <- N.pow_add_r.
            replace (32 - d * (j + 1) + d * (j + 1))%N with 32%N by lia. exact Hx'. }
          assert (Z.of_N e <= 2 ^ Z.of_N d - 1) by (assert (Z.of_N (2 ^ d) = 2 ^ Z.of_N d) by (rewrite N2Z.inj_pow; reflexivity); lia).
          rewrite N2Z.inj_add. change (Z.of_N 1) with 1. nia. }
      specialize (Hlev q Hq). set (w := (2 ^ (32 - d * q))%N) in *.
      assert (0 < w)%N as Hw by (apply N.neq_0_lt_0, N.pow_nonzero; lia).
      pose proof (N.div_mod x w ltac:(lia)) as Hdm. pose proof (N.mod_lt x w ltac:(lia)) as Hml.
      assert (Hv : (x / w < 2 ^ (d * q))%N).
      { apply N.div_lt_upper_bound; [lia|]. unfold w. rewrite <- N.pow_add_r. replace (32 - d * q + d * q)%N with 32%N by lia. exact Hx'. }
      destruct (Hext q (x / w)%N Hq Hv) as [Hb' Hs'].
      pose proof (dv_part i (x / w * w) (x mod w) (d * q) (x / w) r b Hb' ltac:(lia) ltac:(lia) Hr2 ltac:(fold w; lia) ltac:(fold w; lia) ltac:(lia)) as Hpart.
      assert (Hsc : sc ((i, (x / w * w)%N, (x mod w)%N) :: anc r ++ dy b) = S0) by reflexivity.
      rewrite Hsc in Hpart.
      assert (Hpw : 2 ^ (Z.of_N m - Z.of_N (d * q + bits b)) <= 2 ^ Z.of_N d) by (apply Z.pow_le_mono_r; lia).
      assert (Hdv : dv L ((i, 0%N, x) :: anc r ++ dy b) = dv L ((i, 0%N, (x / w * w)%N) :: anc r ++ dy b) + dv L ((i, (x / w * w)%N, (x mod w)%N) :: anc r ++ dy b)).
      { rewrite <- (N.add_0_l (x / w * w)) at 2. rewrite <- dv_add. f_equal. f_equal. f_equal. lia. }
      match goal with |- Z.abs ?e <= _ => change e with (dv L ((i, 0%N, x) :: anc r ++ dy b)) end. rewrite Hdv, HK.
      assert (Hqm : Z.of_N q <= Z.of_N m / Z.of_N d).
      { unfold q. rewrite N2Z.inj_div. apply Z.div_le_mono; lia. }
      assert (Hsum : Z.abs (dv L ((i, 0%N, (x / w * w)%N) :: anc r ++ dy b) + dv L ((i, (x / w * w)%N, (x mod w)%N) :: anc r ++ dy b))
        <= (Z.of_N q * (2 ^ Z.of_N d - 1) * K (Z.of_N m) (dgs r) + 2 ^ Z.of_N d) * S0).
      { unfold B in Hlev. fold S0 in Hlev. nia. }
      eapply Z.le_trans; [exact Hsum|]. apply Z.mul_le_mono_nonneg_r; [apply Z.lt_le_incl, sc_pos|].
      destruct (dgs r) as [|d' ds] eqn:E; [cbn [K]; lia|].
      pose proof (K_pos (Z.of_N m) d' ds ltac:(lia) Hds) as Hk1. set (k := K (Z.of_N m) (d' :: ds)) in *.
      set (P := 2 ^ Z.of_N d) in *. set (u := Z.of_N m / Z.of_N d) in *.
      assert (Z.of_N q * (P - 1) * k <= u * P * k) by (apply Z.mul_le_mono_nonneg_r; [lia|nia]). nia.
Qed.
End Block.

(** * Blocks of the sequence *)
Section Sequence.
Variable dim : N.
Hypothesis Hdim : (1 <= dim <= 1111)%N.

Definition P (n : nat) : list N := match nth_draw dim (N.of_nat n) with Ok p => p | _ => [] end.
Definition pts (a n : nat) : list (list N) := map P (seq a n).
Definition blk (m t : N) : list (list N) := pts (N.to_nat (t * 2 ^ m)) (N.to_nat (2 ^ m)).

Lemma P_ok n : (n < 2 ^ 32)%N -> nth_draw dim n = Ok (P (N.to_nat n)).
Proof.
  intros H. unfold P. rewrite N2Nat.id. destruct (point_claim dim n Hdim ltac:(lia)) as (p & E & _). now rewrite E.
Qed.

Lemma cnt_map l (g : list N -> bool) : cnt (map P l) g = Z.of_nat (length (filter (fun n => g (P n)) l)).
Proof. induction l as [|n l IH]; [reflexivity|]. cbn [map]. rewrite cnt_cons, IH. cbn [filter]. destruct (g (P n)); cbn [length]; lia. Qed.

(** a list of all the numbers of a block whose point satisfies a test determines the count *)
Lemma cnt_listed m t (g : list N -> bool) (Q : list N -> Prop) l : (forall p, g p = true <-> Q p) -> ((t + 1) * 2 ^ m <= 2 ^ 32)%N -> NoDup l ->
  (forall n, In n l <-> (t * 2 ^ m <= n < (t + 1) * 2 ^ m)%N /\ exists p, nth_draw dim n = Ok p /\ Q p) ->
  cnt (blk m t) g = Z.of_nat (length l).
Proof.
  intros Hg Ht Hnd Hl. unfold blk, pts. rewrite cnt_map. f_equal.
  rewrite <- (map_length N.of_nat (filter _ _)). apply Permutation_length, NoDup_Permutation.
  - apply FinFun.Injective_map_NoDup; [intros a b; apply Nat2N.inj|]. apply NoDup_filter, seq_NoDup.
  - exact Hnd.
  - intros n. rewrite Hl, in_map_iff. split.
    + intros (k & <- & Hk). apply filter_In in Hk. destruct Hk as [Hk Hq]. apply in_seq in Hk. split; [lia|].
      exists (P k). split; [|now apply Hg]. rewrite P_ok by lia. now rewrite Nat2N.id.
    + intros [Hn (p & E & Hq)]. exists (N.to_nat n). split; [apply N2Nat.id|]. apply filter_In. split; [apply in_seq; lia|].
      apply Hg. rewrite P_ok in E by lia. congruence.
Qed.

Lemma blk_length m t : Z.of_nat (length (blk m t)) = 2 ^ Z.of_N m.
Proof. unfold blk, pts. rewrite map_length, seq_length, N_nat_Z, N2Z.inj_pow. reflexivity. Qed.

Lemma blk_net m t b : (m <= 32)%N -> ((t + 1) * 2 ^ m <= 2 ^ 32)%N -> is_box dim b -> (span b <= m)%N ->
  cnt (blk m t) (inC (dy b)) = 2 ^ (Z.of_N m - Z.of_N (bits b)).
Proof.
  intros Hm Ht Hb Hs. destruct (net_claim dim m t b Hdim Hb Hs Hm Ht) as (l & Hnd & Hlen & Hl).
  rewrite (cnt_listed m t (inC (dy b)) (fun p => in_box p b) l (in_dy b) Ht Hnd Hl).
  assert (bits b <= m)%N as Hbm.
  { apply N.le_trans with (span b); [|exact Hs]. clear -Hb Hdim. destruct Hb as [_ Hb]. induction b as [|[[i k] v] b IH]; [reflexivity|].
    rewrite bits_dy, span_dy. specialize (IH (fun i k v Hin => Hb i k v (or_intror Hin))). destruct (Hb i k v (or_introl eq_refl)) as (Hi & _).
    pose proof (ceil_ge k (degree i)). pose proof (degree_bounds i). lia. }
  rewrite <- N2Z.inj_sub by lia. change 2 with (Z.of_N 2). rewrite <- N2Z.inj_pow. lia.
Qed.

Lemma dv_app L L' cs : dv (L ++ L') cs = dv L cs + dv L' cs.
Proof. unfold dv, cnt. rewrite filter_app, !app_length, !Nat2Z.inj_add. ring. Qed.

(** a prefix of the sequence is made of few aligned blocks *)
Lemma prefix cs k l : (forall m t, (m <= l)%N -> ((t + 1) * 2 ^ m <= 2 ^ 32)%N -> Z.abs (dv (blk m t) cs) <= k) ->
  forall n m, (m + N.log2 (N.pos n) <= l)%N -> (N.pos n * 2 ^ m <= 2 ^ 32)%N ->
  Z.abs (dv (pts 0 (N.to_nat (N.pos n * 2 ^ m))) cs) <= (Z.of_N (N.log2 (N.pos n)) + 1) * k.
Proof.
  intros Hblk. assert (Hk : forall n m, (m + N.log2 (N.pos n) <= l)%N -> (N.pos n * 2 ^ m <= 2 ^ 32)%N -> 0 <= k).
  { intros n m Hl Hn. specialize (Hblk m 0%N ltac:(lia)). pose proof (N.pow_nonzero 2 m ltac:(lia)). specialize (Hblk ltac:(nia)). lia. }
  induction n as [n IH|n IH|]; intros m Hl Hn; pose proof (Hk _ _ Hl Hn) as Hk0.
  - assert (N.log2 (N.pos n~1) = N.succ (N.log2 (N.pos n))) as El by (change (N.pos n~1) with (2 * N.pos n + 1)%N; apply N.log2_succ_double; lia).
    rewrite El in *.
    assert (E : (N.pos n~1 * 2 ^ m = N.pos n * 2 ^ (m + 1) + 2 ^ m)%N) by (rewrite N.pow_add_r; change (N.pos n~1) with (2 * N.pos n + 1)%N; lia).
    rewrite E, N2Nat.inj_add. unfold pts. rewrite seq_app, map_app, dv_app. rewrite Nat.add_0_l.
    assert (E2 : map P (seq (N.to_nat (N.pos n * 2 ^ (m + 1))) (N.to_nat (2 ^ m))) = blk m (2 * N.pos n)).
    { unfold blk, pts. do 3 f_equal. rewrite N.pow_add_r. lia. }
    rewrite E2. specialize (IH (m + 1)%N ltac:(lia) ltac:(lia)). unfold pts in IH.
    specialize (Hblk m (2 * N.pos n)%N ltac:(lia)).
    assert (((2 * N.pos n + 1) * 2 ^ m <= 2 ^ 32)%N) as Hb by (change (2 * N.pos n + 1)%N with (N.pos n~1); lia).
    specialize (Hblk Hb). lia.
  - assert (N.log2 (N.pos n~0) = N.succ (N.log2 (N.pos n))) as El by (change (N.pos n~0) with (2 * N.pos n)%N; apply N.log2_double; lia).
    rewrite El in *.
    assert (E : (N.pos n~0 * 2 ^ m = N.pos n * 2 ^ (m + 1))%N) by (rewrite N.pow_add_r; change (N.pos n~0) with (2 * N.pos n)%N; lia).
    rewrite E in *. specialize (IH (m + 1)%N ltac:(lia) ltac:(lia)). nia.
  - specialize (Hblk m 0%N ltac:(lia) ltac:(lia)). unfold blk in Hblk. change (N.to_nat (0 * 2 ^ m)) with 0%nat in Hblk.
    rewrite N.mul_1_l. change (Z.of_N (N.log2 1) + 1) with 1. lia.
Qed.

(** * The claims *)
Lemma in_anc c p : inC (anc c) p = forallb (fun '(i, x) => (nth i p 0 <? x)%N) c.
Proof.
  unfold inC, anc. induction c as [|[i x] c IH]; [reflexivity|]. cbn [map forallb in3]. rewrite IH. f_equal.
  rewrite N.add_0_l, (proj2 (N.leb_le 0 (nth i p 0%N)) (N.le_0_l _)). reflexivity.
Qed.
Lemma hits_cnt n c : (N.of_nat n < 2 ^ 32)%N -> hits dim n c * unit_of c - Z.of_nat n * volume c = dv (pts 1 n) (anc c).
Proof.
  intros Hn. unfold dv, pts. rewrite cnt_map, map_length, seq_length. unfold hits, unit_of, sc.
  assert (length (anc c) = length c) as -> by (unfold anc; apply map_length).
  assert (volume c = prod (anc c)) as ->.
  { clear. induction c as [|[i x] c IH]; [reflexivity|]. cbn [anc map]. fold (anc c). rewrite prod_cons. cbn [volume fold_right len3]. fold (volume c). now rewrite IH. }
  do 4 f_equal. apply filter_ext_in. intros j Hj. apply in_seq in Hj.
  rewrite P_ok by lia. rewrite Nat2N.id, in_anc. reflexivity.
Qed.

Lemma sc_unit c : sc (anc c) = unit_of c.
Proof. unfold sc, unit_of, anc. now rewrite map_length. Qed.

(** from all prefixes that start with point 0 to those that start with point 1 *)
Lemma drop_origin n c k : (N.of_nat n < 2 ^ 32)%N -> Forall (fun '(_, x) => (x <= 2 ^ 32)%N) c ->
  Z.abs (dv (pts 0 (S n)) (anc c)) <= k * unit_of c -> off_by dim n c (1 + k).
Proof.
  intros Hn Hc H. unfold off_by. rewrite hits_cnt by exact Hn. unfold pts in *. cbn [seq map] in H.
  change (P 0 :: map P (seq 1 n)) with ([P 0] ++ map P (seq 1 n)) in H. rewrite dv_app in H.
  pose proof (anc_prod c Hc) as Hp. rewrite sc_unit in Hp.
  assert (Z.abs (dv [P 0] (anc c)) <= unit_of c).
  { unfold dv. rewrite cnt_cons, sc_unit. cbn [length]. change (cnt [] (inC (anc c))) with 0. destruct (inC (anc c) (P 0)); lia. }
  lia.
Qed.

Lemma log_bound n : (N.of_nat n < 2 ^ 32)%N -> (N.log2 (N.of_nat n + 1) <= 32)%N.
Proof. intros H. change 32%N with (N.log2 (2 ^ 32)). apply N.log2_le_mono. lia. Qed.

Lemma from_blocks n c k : (N.of_nat n < 2 ^ 32)%N -> Forall (fun '(_, x) => (x <= 2 ^ 32)%N) c ->
  (forall m t, (m <= N.log2 (N.of_nat n + 1))%N -> ((t + 1) * 2 ^ m <= 2 ^ 32)%N -> Z.abs (dv (blk m t) (anc c)) <= k * unit_of c) ->
  off_by dim n c (1 + (Z.of_N (N.log2 (N.of_nat n + 1)) + 1) * k).
Proof.
  intros Hn Hc H. apply drop_origin; auto. pose proof (prefix (anc c) (k * unit_of c) _ H) as Hp.
  destruct (N.of_nat n + 1)%N as [|q] eqn:E; [lia|]. specialize (Hp q 0%N ltac:(lia)).
  rewrite N.pow_0_r, N.mul_1_r in Hp. specialize (Hp ltac:(lia)). rewrite <- E in Hp.
  replace (N.to_nat (N.of_nat n + 1)) with (S n) in Hp by lia. rewrite <- E. lia.
Qed.

Lemma low_discrepancy_claim n c : (N.of_nat n < 2 ^ 32)%N -> is_corner dim c ->
  off_by dim n c (1 + 2 ^ degrees c * (Z.of_N (N.log2 (N.of_nat n + 1)) + 1) ^ Z.of_nat (length c)).
Proof.
  intros Hn [Hnd Hc]. set (l := N.log2 (N.of_nat n + 1)).
  assert (Hc2 : Forall (fun '(_, x) => (x <= 2 ^ 32)%N) c) by (apply (Forall_impl _ (P := fun '(i, x) => (i < N.to_nat dim)%nat /\ (x <= 2 ^ 32)%N)); [intros [? ?]; tauto | exact Hc]).
  destruct c as [|x0 c0] eqn:Ec.
  { cbn [degrees fold_right length]. apply drop_origin; auto. unfold dv. cbn [anc map]. unfold pts. rewrite cnt_map, map_length.
    cbn [inC forallb]. replace (filter _ (seq 0 (S n))) with (seq 0 (S n)).
    - unfold sc, prod, unit_of. cbn [length fold_right]. rewrite !Z.pow_0_r. lia.
    - symmetry. clear. induction (seq 0 (S n)) as [|a l IH]; [reflexivity|]. cbn [filter]. now rewrite IH. }
  rewrite <- Ec in *. assert (Hne : dgs c <> []) by (subst c; discriminate).
  assert (Hds : Forall (fun d => 0 < d) (dgs c)).
  { unfold dgs. apply Forall_map. eapply Forall_impl; [|exact Hc]. intros [i x] [H _]. pose proof (degree_bounds i ltac:(lia)). lia. }
  assert (Hdl : length (dgs c) = length c) by apply map_length.
  assert (Hdd : fold_right Z.add 0 (dgs c) = degrees c).
  { clear. induction c as [|[i x] c IH]; [reflexivity|]. cbn [dgs map fold_right degrees]. fold (dgs c). rewrite IH. reflexivity. }
  replace ((Z.of_N l + 1) ^ Z.of_nat (length c)) with ((Z.of_N l + 1) * (Z.of_N l + 1) ^ (Z.of_nat (length c) - 1)).
  2: { rewrite <- Z.pow_succ_r by (subst c; cbn [length]; lia). f_equal. lia. }
  rewrite Z.mul_assoc, (Z.mul_comm (2 ^ degrees c)), <- Z.mul_assoc. apply from_blocks; auto. fold l. intros m t Hm Ht.
  pose proof (log_bound n Hn) as Hl. fold l in Hl.
  pose proof (block_dev dim (blk m t) m Hdim ltac:(lia) (blk_length m t) (fun b Hb Hs => blk_net m t b ltac:(lia) Ht Hb Hs) c []) as H.
  cbn [dy map] in H. rewrite !app_nil_r in H. rewrite sc_unit in H. eapply Z.le_trans; [apply H|].
  - split; [constructor|intros ? ? ? []].
  - exact Hnd.
  - exact Hc.
  - cbn. lia.
  - reflexivity.
  - apply Z.mul_le_mono_nonneg_r; [unfold unit_of; apply Z.pow_nonneg; lia|].
    eapply Z.le_trans; [apply K_le; auto; lia|]. rewrite Hdl, Hdd. apply Z.mul_le_mono_nonneg_l; [apply Z.pow_nonneg; lia|].
    apply Z.pow_le_mono_l. lia.
Qed.

(** one coordinate: at most one point of the block is astray *)
Lemma one_blk i x m t : (i < N.to_nat dim)%nat -> (x <= 2 ^ 32)%N -> (m <= 32)%N -> ((t + 1) * 2 ^ m <= 2 ^ 32)%N ->
  Z.abs (dv (blk m t) (anc [(i, x)])) <= 1 * unit_of [(i, x)].
Proof.
  intros Hi Hx Hm Ht. cbn [anc map]. set (w := (2 ^ (32 - m))%N).
  assert (0 < w)%N as Hw by (apply N.neq_0_lt_0, N.pow_nonzero; lia).
  assert (Hmw : (2 ^ m * w = 2 ^ 32)%N) by (unfold w; rewrite <- N.pow_add_r; f_equal; lia).
  assert (HmwZ : 2 ^ Z.of_N m * Z.of_N w = MM).
  { replace (2 ^ Z.of_N m) with (Z.of_N (2 ^ m)) by (rewrite N2Z.inj_pow; reflexivity). rewrite <- N2Z.inj_mul, Hmw. reflexivity. }
  assert (Hcnt : forall v, (v < 2 ^ m)%N -> cnt (blk m t) (inC [(i, (v * w)%N, w)]) = 1).
  { intros v Hv. destruct (stratified_claim dim i m t v Hdim Hi Hm Ht Hv) as (n & [Hn Hp] & Hu).
    change 1 with (Z.of_nat (length [n])). apply (cnt_listed m t _ (fun p => (v * w <= nth i p 0 < (v + 1) * w)%N)).
    - intros p. unfold inC. cbn [forallb in3]. rewrite andb_true_r, andb_true_iff, N.leb_le, N.ltb_lt. lia.
    - exact Ht.
    - repeat constructor. intros [].
    - intros n'. split; [intros [<-|[]]; auto|]. intros H. left. now apply Hu. }
  assert (Hone : forall v, (v < 2 ^ m)%N -> dv (blk m t) [(i, (v * w)%N, w)] = 0).
  { intros v Hv. unfold dv. rewrite (Hcnt v Hv), blk_length. unfold prod, sc. cbn [fold_right len3 length]. change (Z.of_nat 1) with 1. rewrite Z.pow_1_r. lia. }
  assert (Hrun : forall e, (e <= 2 ^ m)%N -> dv (blk m t) [(i, 0%N, (e * w)%N)] = 0).
  { intros e He. pose proof (dv_run (blk m t) i w [] 0 ltac:(lia) e 0%N) as H.
    assert (Z.abs (dv (blk m t) [(i, 0%N, (e * w)%N)]) <= Z.of_N e * 0); [apply H|lia].
    intros c Hc. rewrite N.add_0_l, Hone by lia. cbn. lia. }
  assert (Hu : unit_of [(i, x)] = MM) by reflexivity. rewrite Hu.
  destruct (N.eq_dec x (2 ^ 32)) as [->|Hne]; [rewrite <- Hmw, Hrun by lia; cbn; lia|].
  pose proof (N.div_mod x w ltac:(lia)) as Hdm. pose proof (N.mod_lt x w ltac:(lia)) as Hml.
  assert (Hv : (x / w < 2 ^ m)%N) by (apply N.div_lt_upper_bound; lia).
  replace x with (x / w * w + x mod w)%N by lia. rewrite dv_add, Hrun, N.add_0_l, Z.add_0_l by lia.
  unfold dv. rewrite blk_length. unfold prod, sc. cbn [fold_right len3 length]. change (Z.of_nat 1) with 1. rewrite Z.pow_1_r, Z.mul_1_r.
  pose proof (cnt_nonneg (blk m t) (inC [(i, (x / w * w)%N, (x mod w)%N)])).
  assert (cnt (blk m t) (inC [(i, (x / w * w)%N, (x mod w)%N)]) <= 1).
  { rewrite <- (Hcnt _ Hv). apply cnt_le. intros p. unfold inC. cbn [forallb in3]. rewrite !andb_true_r, !andb_true_iff, !N.leb_le, !N.ltb_lt.
    intros [H1 H2]. split; [exact H1|]. eapply N.lt_le_trans; [exact H2|]. apply N.add_le_mono_l. lia. }
  assert (2 ^ Z.of_N m * Z.of_N (x mod w) <= MM) by (rewrite <- HmwZ; apply Z.mul_le_mono_nonneg_l; [apply Z.pow_nonneg|]; lia).
  assert (0 <= 2 ^ Z.of_N m * Z.of_N (x mod w)) by (apply Z.mul_nonneg_nonneg; [apply Z.pow_nonneg; lia | apply N2Z.is_nonneg]).
  nia.
Qed.

Lemma one_coordinate_claim n i x : (N.of_nat n < 2 ^ 32)%N -> (i < N.to_nat dim)%nat -> (x <= 2 ^ 32)%N ->
  off_by dim n [(i, x)] (Z.of_N (N.log2 (N.of_nat n + 1)) + 2).
Proof.
  intros Hn Hi Hx. replace (Z.of_N (N.log2 (N.of_nat n + 1)) + 2) with (1 + (Z.of_N (N.log2 (N.of_nat n + 1)) + 1) * 1) by lia.
  apply from_blocks; [exact Hn|repeat constructor; exact Hx|]. intros m t Hm Ht. apply one_blk; auto.
  pose proof (log_bound n Hn). lia.
Qed.
End Sequence.
