(** Counting solutions of independent linear conditions over GF(2): the linear algebra behind C72. *)
From Coq Require Import Permutation.
From Verif Require Import Base SobolSpec SobolTableProofs SobolProofs.
Open Scope N_scope.
#[local] Arguments N.pow : simpl never.
#[local] Arguments N.lxor : simpl never.

Definition additive (f : N -> bool) : Prop := forall a b, f (N.lxor a b) = xorb (f a) (f b).
Definition vals (fs : list (N -> bool)) (r : N) : list bool := map (fun f => f r) fs.

Fixpoint dot (cs vs : list bool) : bool :=
  match cs, vs with c :: cs', v :: vs' => xorb (c && v) (dot cs' vs') | _, _ => false end.
Fixpoint vxor (u v : list bool) : list bool :=
  match u, v with a :: u', b :: v' => xorb a b :: vxor u' v' | _, _ => [] end.
Definition zeros (n : nat) : list bool := repeat false n.

Definition independent (m : N) (fs : list (N -> bool)) : Prop :=
  forall cs, length cs = length fs -> (forall r, r < 2 ^ m -> dot cs (vals fs r) = false) -> forall c, In c cs -> c = false.

Definition fibre (m : N) (fs : list (N -> bool)) (vs : list bool) : list N :=
  filter (fun r => if list_eq_dec bool_dec (vals fs r) vs then true else false) (nrange (2 ^ m)).

Lemma in_fibre m fs vs r : In r (fibre m fs vs) <-> r < 2 ^ m /\ vals fs r = vs.
Proof.
  unfold fibre. rewrite filter_In, in_nrange. destruct (list_eq_dec bool_dec (vals fs r) vs); intuition congruence.
Qed.
Lemma NoDup_fibre m fs vs : NoDup (fibre m fs vs).
Proof. apply NoDup_filter, NoDup_nrange. Qed.

Lemma vals_length fs r : length (vals fs r) = length fs. Proof. apply map_length. Qed.

Lemma vals_lxor fs a b : Forall additive fs -> vals fs (N.lxor a b) = vxor (vals fs a) (vals fs b).
Proof. induction 1 as [|f fs Hf _ IH]; unfold vals in *; cbn; auto. now rewrite Hf, IH. Qed.

Lemma vxor_nilpotent v : vxor v v = zeros (length v).
Proof. induction v as [|a v IH]; cbn; auto. rewrite xorb_nilpotent. unfold zeros in IH. now rewrite IH. Qed.

Lemma vxor_zeros v : vxor v (zeros (length v)) = v.
Proof. induction v as [|a v IH]; cbn; auto. unfold zeros in IH. rewrite IH. now destruct a. Qed.
Lemma vxor_zeros_l v : vxor (zeros (length v)) v = v.
Proof. induction v as [|a v IH]; cbn; auto. unfold zeros in IH. rewrite IH. now destruct a. Qed.

Lemma vxor_length u v : length u = length v -> length (vxor u v) = length u.
Proof. revert v. induction u as [|a u IH]; intros [|b v]; cbn; auto; try lia. Qed.

Lemma dot_zeros v n : dot (zeros n) v = false.
Proof. revert v. induction n; intros [|b v]; cbn; auto. unfold zeros in IHn. now rewrite IHn. Qed.

Lemma lxor_cancel a b : N.lxor (N.lxor a b) b = a.
Proof. now rewrite N.lxor_assoc, N.lxor_nilpotent, N.lxor_0_r. Qed.

(** additive functions of bit vectors are dot products *)
Lemma additive_dot n (G : list bool -> bool) :
  (forall u v, length u = n -> length v = n -> G (vxor u v) = xorb (G u) (G v)) ->
  exists cs, length cs = n /\ forall v, length v = n -> G v = dot cs v.
Proof.
  revert G. induction n as [|n IH]; intros G HG.
  - exists []. split; auto. intros [|b v]; [|discriminate]. intros _. cbn.
    specialize (HG [] [] eq_refl eq_refl). cbn in HG. now destruct (G []).
  - destruct (IH (fun v => G (false :: v))) as (cs & Hl & Hc).
    { intros u v Hu Hv. rewrite <- HG by (cbn; congruence). reflexivity. }
    exists (G (true :: zeros n) :: cs). split; [cbn; congruence|].
    intros [|b v]; [discriminate|]. intros Hv. injection Hv as Hv. cbn [dot]. rewrite <- Hc by auto.
    destruct b.
    + rewrite andb_true_r, <- HG by (cbn; unfold zeros; rewrite ?repeat_length; congruence).
      cbn [vxor xorb]. rewrite <- Hv, vxor_zeros_l. reflexivity.
    + now rewrite andb_false_r, xorb_false_l.
Qed.

(** an additive functional that vanishes wherever the others do is a combination of them *)
Lemma span_of_kernel m fs g : Forall additive fs -> additive g ->
  (forall vs, length vs = length fs -> exists r, r < 2 ^ m /\ vals fs r = vs) ->
  (forall r, r < 2 ^ m -> vals fs r = zeros (length fs) -> g r = false) ->
  exists cs, length cs = length fs /\ forall r, r < 2 ^ m -> g r = dot cs (vals fs r).
Proof.
  intros Hf Hg Hs Hk.
  set (s := fun vs => hd 0 (fibre m fs vs)).
  assert (forall vs, length vs = length fs -> s vs < 2 ^ m /\ vals fs (s vs) = vs) as Hsv.
  { intros vs Hl. destruct (Hs vs Hl) as (r & Hr). apply in_fibre in Hr. apply in_fibre. unfold s.
    destruct (fibre m fs vs) as [|x l]; [destruct Hr|]. now left. }
  assert (forall r r', r < 2 ^ m -> r' < 2 ^ m -> vals fs r = vals fs r' -> g r = g r') as Hsame.
  { intros r r' Hr Hr' E.
    assert (g (N.lxor r r') = false) as Z.
    { apply Hk; [now apply lxor_lt|]. rewrite vals_lxor, E, vxor_nilpotent, vals_length by auto. reflexivity. }
    rewrite Hg in Z. now destruct (g r), (g r'). }
  destruct (additive_dot (length fs) (fun vs => g (s vs))) as (cs & Hl & Hc).
  { intros u v Hu Hv. rewrite <- Hg. destruct (Hsv u Hu) as [Hu1 Hu2], (Hsv v Hv) as [Hv1 Hv2].
    destruct (Hsv (vxor u v)) as [Hw1 Hw2]; [rewrite vxor_length; congruence|].
    apply Hsame; auto; [now apply lxor_lt|]. rewrite Hw2, vals_lxor, Hu2, Hv2; auto. }
  exists cs. split; auto. intros r Hr. rewrite <- Hc by apply vals_length.
  destruct (Hsv (vals fs r) (vals_length fs r)) as [H1 H2]. apply Hsame; auto.
Qed.

Lemma length_filter_split {A} (p : A -> bool) l :
  (length l = length (filter p l) + length (filter (fun x => negb (p x)) l))%nat.
Proof. induction l as [|x l IH]; cbn; auto. destruct (p x); cbn; lia. Qed.

Lemma independent_tail m f fs : independent m (f :: fs) -> independent m fs.
Proof.
  intros H cs Hl Hz c Hc. apply (H (false :: cs)); [cbn; congruence| |now right].
  intros r Hr. unfold vals in *. cbn. now rewrite Hz.
Qed.

(** every value of K independent functionals on 2^m words is taken 2^m / 2^K times *)
Theorem fibre_count m fs : Forall additive fs -> independent m fs ->
  forall vs, length vs = length fs -> N.of_nat (length (fibre m fs vs)) * 2 ^ N.of_nat (length fs) = 2 ^ m.
Proof.
  intros Hf. induction Hf as [|f fs Hf1 Hf IH]; intros Hi vs Hl.
  - destruct vs; [|discriminate]. unfold fibre.
    assert (forall l : list N, filter (fun r => if list_eq_dec bool_dec (vals [] r) [] then true else false) l = l) as E.
    { induction l as [|x l E]; cbn; auto. destruct (list_eq_dec bool_dec [] []) as [_|n]; [|now destruct n]. cbn in E. now rewrite E. }
    rewrite E, length_nrange. change (N.of_nat (length (@nil (N -> bool)))) with 0. rewrite N.pow_0_r. lia.
  - specialize (IH (independent_tail _ _ _ Hi)). destruct vs as [|v vs]; [discriminate|]. injection Hl as Hl.
    assert (exists x, x < 2 ^ m /\ vals fs x = zeros (length fs) /\ f x = true) as (x & Hx & Hxz & Hxf).
    { destruct (existsb f (fibre m fs (zeros (length fs)))) eqn:E.
      { apply existsb_exists in E. destruct E as (x & Hin & Hx). apply in_fibre in Hin. exists x. tauto. }
      exfalso. destruct (span_of_kernel m fs f Hf Hf1) as (cs & Hcl & Hc).
      - intros us Hus. specialize (IH us Hus). destruct (fibre m fs us) as [|r l] eqn:Er.
        + cbn in IH. pose proof (N.pow_nonzero 2 m). lia.
        + exists r. apply in_fibre. rewrite Er. now left.
      - intros r Hr Hz. destruct (f r) eqn:Ef; auto.
        assert (existsb f (fibre m fs (zeros (length fs))) = true); [|congruence].
        apply existsb_exists. exists r. split; auto. now apply in_fibre.
      - specialize (Hi (true :: cs)). enough (true = false) by discriminate. apply Hi; [cbn; congruence| |now left].
        intros r Hr. cbn. change (map (fun f0 => f0 r) fs) with (vals fs r). rewrite <- Hc by auto. apply xorb_nilpotent. }
    assert (forall b, (length (fibre m (f :: fs) (b :: vs)) <= length (fibre m (f :: fs) (negb b :: vs)))%nat) as Hle.
    { intros b. rewrite <- (map_length (fun r => N.lxor r x) (fibre m (f :: fs) (b :: vs))).
      apply NoDup_incl_length.
      - apply NoDup_map_inj; [apply NoDup_fibre|]. intros a a' _ _ E.
        rewrite <- (lxor_cancel a x), <- (lxor_cancel a' x). cbv beta in E. now rewrite E.
      - intros r Hr. apply in_map_iff in Hr. destruct Hr as (r0 & <- & Hr0). apply in_fibre in Hr0. apply in_fibre.
        destruct Hr0 as [Hr1 Hr2]. split; [now apply lxor_lt|]. cbn [vals map] in *. injection Hr2 as Hb Hvs.
        change (map (fun f0 => f0 r0) fs) with (vals fs r0) in Hvs.
        change (map (fun f0 => f0 (N.lxor r0 x)) fs) with (vals fs (N.lxor r0 x)).
        rewrite Hf1, Hb, Hxf, vals_lxor, Hvs, Hxz, xorb_true_r, <- Hl, vxor_zeros by auto. reflexivity. }
    assert (length (fibre m fs vs) = length (fibre m (f :: fs) (v :: vs)) + length (fibre m (f :: fs) (negb v :: vs)))%nat as Hsum.
    { rewrite (length_filter_split (fun r => Bool.eqb (f r) v) (fibre m fs vs)).
      assert (forall b, (forall r, Bool.eqb (f r) b = true <-> f r = b)) as Heq by (intros b r; apply eqb_true_iff).
      f_equal; apply Permutation_length, NoDup_Permutation; try apply NoDup_fibre; try (apply NoDup_filter, NoDup_fibre);
        intros r; rewrite filter_In, !in_fibre; cbn [vals map].
      - rewrite eqb_true_iff. change (map (fun f0 => f0 r) fs) with (vals fs r). intuition congruence.
      - rewrite negb_true_iff, eqb_false_iff. change (map (fun f0 => f0 r) fs) with (vals fs r).
        split; [intros [[H1 H2] H3]|intros [H1 H2]; injection H2 as H2 H3]; split; auto.
        + f_equal; auto. destruct (f r), v; cbn; congruence.
        + rewrite H2. destruct v; cbn; congruence. }
    pose proof (Hle v) as H1. pose proof (Hle (negb v)) as H2. rewrite negb_involutive in H2.
    rewrite <- (IH vs Hl), Hsum. cbn [length]. rewrite Nat2N.inj_succ, N.pow_succ_r'.
    replace (length (fibre m (f :: fs) (negb v :: vs))) with (length (fibre m (f :: fs) (v :: vs))) by lia. lia.
Qed.
