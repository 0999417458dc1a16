(** The statistics of a population: what the loops of src/StatFuncs compute, cell by cell. *)
From Verif Require Import Base Spec SpecFacts NDArray IndexProofs Float64 ArrayOps ArrayProofs Stat SynthSpec MicroProofs PickProofs
  SampleProofs SplitProofs QisProofs.
Open Scope Z_scope.

(** a loop that only reads *)
Lemma read_loop {S} (body : list Z -> S -> outcome S) (g : list Z -> S -> S) l : (forall i s, In i l -> body i s = Ok (g i s)) ->
  forall s, foldM body l s = Ok (fold_left (fun s i => g i s) l s).
Proof.
  induction l as [|x l IH]; intros H s; cbn [foldM fold_left]; auto. rewrite H by now left. cbn [bind]. apply IH. intros. apply H. now right.
Qed.

(** (s - r)^2 / r as computed *)
Definition chi_term (s : Z) (r : double) : double := let d := d_sub (d_ofZ s) r in d_div (d_mul d d) r.
(** the statistics as computed, for a population [r] and an expectation [ex] *)
Definition chi_val (sizes : list Z) (r : list Z -> Z) (ex : list Z -> double) : double :=
  fold_left d_add (map (fun i => chi_term (r i) (ex i)) (all_indices sizes)) d_zero.
Definition dof_val (sizes : list Z) : Z := prodZ (map (fun n => n - 1) sizes).
Definition deg_val (L : libm) (sizes : list Z) (r : list Z -> Z) : double :=
  snd (fold_left (fun sr i => (d_sub (fst sr) d_one, d_mul (snd sr) (d_div (fst sr) (l_tgamma L (d_ofZ (r i + 1 + 1))))))
         (all_indices sizes) (d_ofZ (prodZ sizes), d_one)).

Section Stats.
Context (sizes : list Z) (Hf : fits sizes).

Lemma chisq_ok r (ex : list Z -> double) : chisq (mk sizes r) (mk sizes ex) = Ok (chi_val sizes r ex).
Proof.
  unfold chisq, chi_val. rewrite sizes_mk, index_loop_spec by auto.
  rewrite (read_loop _ (fun i c => d_add c (chi_term (r i) (ex i)))).
  - f_equal. generalize d_zero. generalize (all_indices sizes) as l. induction l as [|i l IH]; intros a; cbn [fold_left map]; auto.
  - intros i z Hi. apply in_all_indices in Hi. rewrite !nd_get_mk by auto. reflexivity.
Qed.

Lemma dof_ok : dof sizes = Ok (dof_val sizes) /\ 0 <= dof_val sizes < 2 ^ 60.
Proof.
  unfold dof, dof_val. destruct Hf as (_ & Hpos & Hb60). clear - Hpos Hb60.
  assert (forall l, positive l -> Forall (fun n => n <= prodZ l) l) as Hle.
  { induction l as [|n l IH]; intros Hp; [constructor|]. inversion Hp; subst. pose proof (prodZ_pos l H2). simpl. constructor; [nia|].
    specialize (IH H2). revert IH. apply Forall_impl. intros; nia. }
  specialize (Hle sizes Hpos).
  assert (forall l acc, positive l -> Forall (fun n => n < 2 ^ 60) l -> 0 <= acc -> acc * prodZ l < 2 ^ 60 ->
    foldM (fun n acc => let* m := i64 (n - 1) in i64 (acc * m)) l acc = Ok (acc * prodZ (map (fun n => n - 1) l)) /\
    0 <= acc * prodZ (map (fun n => n - 1) l) < 2 ^ 60) as G.
  { induction l as [|n l IH]; intros acc Hp Hn Ha Hb; cbn [foldM map]; [simpl in *; rewrite Z.mul_1_r in *; split; [reflexivity|lia]|].
    inversion Hp; subst. inversion Hn; subst. simpl in Hb |- *.
    pose proof (prodZ_pos l H2) as Hpl. rewrite i64_ok by lia. cbn [bind].
    assert (0 <= acc * (n - 1)) as Hq by (apply Z.mul_nonneg_nonneg; lia).
    assert (acc * (n - 1) * prodZ l <= acc * (n * prodZ l)) as Hq2.
    { rewrite <- Z.mul_assoc. apply Z.mul_le_mono_nonneg_l; [lia|]. apply Z.mul_le_mono_nonneg_r; lia. }
    assert (acc * (n - 1) * 1 <= acc * (n - 1) * prodZ l) by (apply Z.mul_le_mono_nonneg_l; lia).
    rewrite i64_ok by lia. cbn [bind]. rewrite Z.mul_assoc. apply IH; auto. lia. }
  destruct (G sizes 1 Hpos ltac:(revert Hle; apply Forall_impl; intros; lia) ltac:(lia) ltac:(lia)) as [-> H].
  rewrite Z.mul_1_l in *. auto.
Qed.

Lemma degeneracy_ok L r t : counts sizes t r -> t < 2 ^ 32 -> degeneracy L (mk sizes r) = Ok (deg_val L sizes r).
Proof.
  intros [Hrn Hrt] Hb. unfold degeneracy, deg_val. rewrite sizes_mk, index_loop_spec by auto.
  rewrite (read_loop _ (fun i sr => (d_sub (fst sr) d_one, d_mul (snd sr) (d_div (fst sr) (l_tgamma L (d_ofZ (r i + 1 + 1))))))).
  - cbn [bind]. replace (nd_storage (mk sizes r)) with (prodZ sizes) by reflexivity. destruct (fold_left _ _ _). reflexivity.
  - intros i [s1 r1] Hi. apply in_all_indices in Hi. rewrite nd_get_mk by auto. cbn [bind].
    pose proof (le_total sizes r i Hrn Hi). pose proof (Hrn i Hi).
    rewrite i64_ok by lia. cbn [bind]. rewrite i64_ok by lia. reflexivity.
Qed.

End Stats.
