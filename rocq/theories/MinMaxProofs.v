(** Smallest and largest element of an array, for PropMinMax.v. *)
From Coq Require Import Reals Lra.
From Flocq Require Import Core.Core IEEE754.BinarySingleNaN.
From Verif Require Import Base Spec SpecFacts NDArray IndexProofs Float64 FloatProofs FloatExt ArrayOps ArrayProofs Bind BindProofs.

Section Min.
Context {T : Type} (O : NumOps T) (good : T -> Prop) (le : T -> T -> Prop).
Hypothesis le_refl : forall x, good x -> le x x.
Hypothesis le_trans : forall x y z, le x y -> le y z -> le x z.
Hypothesis lt_le : forall x y, good x -> good y -> n_ltb O x y = true -> le x y.
Hypothesis ge_le : forall x y, good x -> good y -> n_ltb O x y = false -> le y x.
Hypothesis max_good : good (n_max O).
Hypothesis max_top : forall x, good x -> le (n_max O) x -> x = n_max O.

Lemma min_loop sizes (f : list Z -> T) l : fits sizes -> (forall i, In i l -> index_in sizes i /\ good (f i)) -> forall mv, good mv ->
  exists v, foldM (fun i mv => let* x := nd_get (mk sizes f) i in Ok (if n_ltb O x mv then x else mv)) l mv = Ok v /\
    good v /\ le v mv /\ (forall i, In i l -> le v (f i)) /\ (v = mv \/ exists i, In i l /\ f i = v).
Proof.
  intros Hf. induction l as [|i l IH]; intros Hl mv Hm; cbn [foldM].
  - exists mv. repeat split; auto. intros i [].
  - destruct (Hl i (or_introl eq_refl)) as [Hi Hg]. rewrite nd_get_mk by auto. cbn [bind].
    assert (good (if n_ltb O (f i) mv then f i else mv)) as Hm' by now destruct (n_ltb O (f i) mv).
    destruct (IH (fun j Hj => Hl j (or_intror Hj)) _ Hm') as (v & E & Hv & H1 & H2 & H3). exists v. split; auto. split; auto.
    assert (le v mv /\ le v (f i)) as [H4 H5].
    { destruct (n_ltb O (f i) mv) eqn:Ec; split; eauto. }
    split; auto. split.
    + intros j [<-|Hj]; auto.
    + destruct H3 as [->|(j & Hj & Ej)]; [|right; exists j; split; auto; now right].
      destruct (n_ltb O (f i) mv); auto. right. exists i. split; auto. now left.
Qed.

Lemma nd_min_general (df : T) (a : ndarray T) : wf_array a -> prodZ (shape a) < 2 ^ 60 ->
  (forall i, index_in (shape a) i -> good (entry df a i)) ->
  exists t m, as_nd a = Ok t /\ nd_min O t = Ok m /\
    (exists i, index_in (shape a) i /\ entry df a i = m) /\ forall i, index_in (shape a) i -> le m (entry df a i).
Proof.
  intros Hw Hb Hg. pose proof (wf_fits a Hw Hb) as Hf.
  exists (mk (shape a) (entry df a)).
  destruct (min_loop (shape a) (entry df a) (all_indices (shape a)) Hf) with (mv := n_max O) as (v & E & Hv & _ & H2 & H3); auto.
  { intros i Hi. apply in_all_indices in Hi. auto. }
  exists v. split; [now apply as_nd_ok|]. split.
  { unfold nd_min. now rewrite sizes_mk, index_loop_spec by auto. }
  split.
  - destruct H3 as [->|(i & Hi & Ei)].
    + assert (index_in (shape a) (map (fun _ => 0) (shape a))) as H0.
      { destruct Hf as (_ & Hp & _). clear -Hp. induction Hp; cbn; constructor; auto. lia. }
      eexists. split; [exact H0|]. apply max_top; auto. apply H2. now apply in_all_indices.
    + exists i. split; auto. now apply in_all_indices.
  - intros i Hi. apply H2. now apply in_all_indices.
Qed.
End Min.

Lemma min_int_claim (a : ndarray Z) : wf_array a -> prodZ (shape a) < 2 ^ 60 ->
  (forall i, index_in (shape a) i -> - 2 ^ 63 <= entry 0 a i < 2 ^ 63) ->
  exists t m, as_nd a = Ok t /\ nd_min IntOps t = Ok m /\
    (exists i, index_in (shape a) i /\ entry 0 a i = m) /\ forall i, index_in (shape a) i -> m <= entry 0 a i.
Proof.
  intros Hw Hb Hg. apply (nd_min_general IntOps (fun x => - 2 ^ 63 <= x < 2 ^ 63) Z.le); auto; clear Hw Hb Hg; cbn [n_ltb n_max IntOps]; intros.
  - lia.
  - lia.
  - apply Z.ltb_lt in H1. lia.
  - apply Z.ltb_ge in H1. lia.
  - lia.
  - lia.
Qed.

Lemma max_fin : fin d_max (bpow radix2 1024 - bpow radix2 971).
Proof.
  assert (B2SF d_max = SpecFloat.S754_finite false 9007199254740991 971) as E by (vm_compute; reflexivity). split.
  - now rewrite <- is_finite_SF_B2SF, E.
  - rewrite <- SF2R_B2SF, E. unfold SF2R, F2R. cbn [Fnum Fexp cond_Zopp].
    replace (IZR 9007199254740991) with (bpow radix2 53 - 1)%R by (rewrite <- (IZR_Zpower radix2 53), <- minus_IZR by lia; reflexivity).
    replace 1024%Z with (53 + 971)%Z by lia. rewrite bpow_plus. ring.
Qed.

Lemma min_dbl_claim (a : ndarray double) : wf_array a -> prodZ (shape a) < 2 ^ 60 ->
  (forall i, index_in (shape a) i -> is_finite (entry d_zero a i) = true) ->
  exists t m, as_nd a = Ok t /\ nd_min DblOps t = Ok m /\
    (exists i, index_in (shape a) i /\ entry d_zero a i = m) /\ forall i, index_in (shape a) i -> (B2R m <= B2R (entry d_zero a i))%R.
Proof.
  intros Hw Hb Hg. pose proof max_fin as [Fm Vm].
  apply (nd_min_general DblOps (fun x => is_finite x = true) (fun x y => (B2R x <= B2R y)%R)); auto; cbn [n_ltb n_max DblOps]; intros.
  - lra.
  - lra.
  - apply (d_ltb_true x y (B2R x) (B2R y)) in H1; [lra| |]; split; auto.
  - apply (d_ltb_false x y (B2R x) (B2R y)) in H1; [lra| |]; split; auto.
  - assert (B2R x = B2R d_max) as E.
    { apply Rle_antisym; auto. rewrite Vm. apply Rle_trans with (Rabs (B2R x)); [apply Rle_abs|]. apply (abs_B2R_le_emax_minus_prec 53 1024); reflexivity. }
    apply B2R_inj; auto.
    destruct x; auto; cbn in E; rewrite Vm in E; exfalso; assert (bpow radix2 971 < bpow radix2 1024)%R by (apply bpow_lt; lia); lra.
Qed.

Lemma max_is_min_claim T (O : NumOps T) (t : nd T) : nd_maxfn O t = nd_min O t.
Proof. reflexivity. Qed.
