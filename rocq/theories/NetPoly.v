(** Polynomials over GF(2) acting on bit sequences by shifts: the algebra behind C72. *)
From Verif Require Import Base SobolSpec SobolTableProofs SobolProofs.
Open Scope N_scope.
#[local] Arguments N.pow : simpl never.
#[local] Arguments N.lxor : simpl never.
#[local] Arguments N.testbit : simpl never.
#[local] Arguments N.shiftl : simpl never.

Definition xsum (l : list bool) : bool := fold_right xorb false l.

(** the polynomial p (bit k is the coefficient of z^k, degree below 64) applied to a sequence, z being the shift *)
Definition op (p : N) (x : nat -> bool) (c : nat) : bool :=
  xsum (map (fun k => N.testbit p (N.of_nat k) && x (c + k)%nat) (seq 0 64)).

Lemma xsum_ext {A} (f g : A -> bool) l : (forall k, In k l -> f k = g k) -> xsum (map f l) = xsum (map g l).
Proof. intros H. f_equal. now apply map_ext_in. Qed.
Lemma xsum_xor {A} (f g : A -> bool) l : xsum (map (fun k => xorb (f k) (g k)) l) = xorb (xsum (map f l)) (xsum (map g l)).
Proof.
  induction l as [|k l IH]; cbn; auto. unfold xsum in IH. rewrite IH.
  destruct (f k), (g k), (fold_right xorb false (map f l)), (fold_right xorb false (map g l)); reflexivity.
Qed.
Lemma xsum_zero {A} (f : A -> bool) l : (forall k, In k l -> f k = false) -> xsum (map f l) = false.
Proof.
  induction l as [|k l IH]; cbn; auto. intros H. unfold xsum in IH. rewrite H, IH; auto.
Qed.
Lemma xsum_and {A} b (f : A -> bool) l : xsum (map (fun k => b && f k) l) = b && xsum (map f l).
Proof.
  unfold xsum. induction l as [|k l IH]; [now destruct b|]. cbn [map fold_right]. rewrite IH.
  now destruct b, (f k), (fold_right xorb false (map f l)).
Qed.
Lemma xsum_app l l' : xsum (l ++ l') = xorb (xsum l) (xsum l').
Proof.
  unfold xsum. induction l as [|k l IH]; [cbn; now destruct (fold_right xorb false l')|]. cbn [app fold_right]. rewrite IH.
  now destruct k, (fold_right xorb false l), (fold_right xorb false l').
Qed.

Lemma op_ext p x y c : (forall k, x (c + k)%nat = y (c + k)%nat) -> op p x c = op p y c.
Proof. intros H. apply xsum_ext. intros k _. now rewrite H. Qed.
Lemma op_zero p x c : (forall k, x (c + k)%nat = false) -> op p x c = false.
Proof. intros H. apply xsum_zero. intros k _. now rewrite H, andb_false_r. Qed.
Lemma op_add p x y c : op p (fun c => xorb (x c) (y c)) c = xorb (op p x c) (op p y c).
Proof. unfold op. rewrite <- xsum_xor. apply xsum_ext. intros k _. now destruct (N.testbit p (N.of_nat k)). Qed.
Lemma op_and p b x c : op p (fun c => b && x c) c = b && op p x c.
Proof. unfold op. rewrite <- xsum_and. apply xsum_ext. intros k _. now destruct (N.testbit p (N.of_nat k)), b. Qed.
Lemma op_lxor p q x c : op (N.lxor p q) x c = xorb (op p x c) (op q x c).
Proof.
  unfold op. rewrite <- xsum_xor. apply xsum_ext. intros k _. rewrite N.lxor_spec.
  now destruct (N.testbit p (N.of_nat k)), (N.testbit q (N.of_nat k)), (x (c + k)%nat).
Qed.
Lemma op_shift p x j c : op p (fun c => x (c + j)%nat) c = op p x (c + j)%nat.
Proof. unfold op. apply xsum_ext. intros k _. do 2 f_equal. lia. Qed.

Lemma op_sum p (b : nat -> bool) x l c :
  op p (fun c => xsum (map (fun k => b k && x (c + k)%nat) l)) c = xsum (map (fun k => b k && op p x (c + k)%nat) l).
Proof.
  induction l as [|k l IH]; cbn [map xsum fold_right]; [now apply op_zero|].
  transitivity (xorb (op p (fun c => b k && x (c + k)%nat) c) (op p (fun c => xsum (map (fun k => b k && x (c + k)%nat) l)) c)).
  - rewrite <- op_add. reflexivity.
  - rewrite IH, op_and, op_shift. reflexivity.
Qed.

Lemma op_comm p q x c : op p (op q x) c = op q (op p x) c.
Proof. unfold op at 2. rewrite op_sum. reflexivity. Qed.

Lemma seq64 : seq 0 64 = 0%nat :: seq 1 63. Proof. reflexivity. Qed.
Lemma seq64_last : seq 0 64 = seq 0 63 ++ [63%nat]. Proof. reflexivity. Qed.
Lemma xsum_cons b l : xsum (b :: l) = xorb b (xsum l). Proof. reflexivity. Qed.

Lemma op_1 x c : op 1 x c = x c.
Proof.
  unfold op. rewrite seq64, map_cons, xsum_cons.
  rewrite Nat.add_0_r. change (N.testbit 1 (N.of_nat 0)) with true. cbn [andb].
  rewrite (xsum_zero (fun k => N.testbit 1 (N.of_nat k) && x (c + k)%nat) (seq 1 63)); [now rewrite xorb_false_r|].
  intros k Hk. apply in_seq in Hk. change 1 with (2 ^ 0). now rewrite N.pow2_bits_false by lia.
Qed.

Lemma op_double p x c : p < 2 ^ 63 -> op (N.shiftl p 1) x c = op p x (S c).
Proof.
  intros Hp. unfold op. transitivity (xsum (map (fun k => N.testbit p (N.of_nat k) && x (S c + k)%nat) (seq 0 63))).
  - rewrite seq64, map_cons, xsum_cons.
    change (N.of_nat 0) with 0. rewrite N.shiftl_spec_low by lia. cbn [andb]. rewrite xorb_false_l.
    rewrite <- seq_shift, map_map. apply xsum_ext. intros k _.
    rewrite N.shiftl_spec_high' by lia. replace (N.of_nat (S k) - 1) with (N.of_nat k) by lia. do 2 f_equal. lia.
  - rewrite seq64_last, map_app, xsum_app. generalize (seq 0 63). intros L.
    cbn [map xsum fold_right].
    rewrite (proj1 (lt_pow2_bits p 63) Hp) by lia. now rewrite andb_false_l, !xorb_false_r.
Qed.

(** leading term *)
Lemma xsum_single (f : nat -> bool) n d : (d < n)%nat -> (forall k, (k < n)%nat -> k <> d -> f k = false) ->
  xsum (map f (seq 0 n)) = f d.
Proof.
  intros Hd Hz. replace n with (d + (1 + (n - d - 1)))%nat by lia. rewrite seq_app, map_app, xsum_app, seq_app, map_app, xsum_app.
  rewrite (xsum_zero f (seq 0 d)), (xsum_zero f (seq (0 + d + 1) (n - d - 1))); [cbn; now destruct (f d)| |]; intros k Hk; apply in_seq in Hk; apply Hz; lia.
Qed.
Definition deg (p : N) : nat := N.to_nat (N.log2 p).

Lemma op_top p x c : p <> 0 -> (deg p < 64)%nat -> (forall k, (k < deg p)%nat -> x (c + k)%nat = false) ->
  op p x c = x (c + deg p)%nat.
Proof.
  intros Hp Hd Hz. unfold op. rewrite (xsum_single _ 64 (deg p)); auto.
  - unfold deg. now rewrite N2Nat.id, N.bit_log2.
  - intros k Hk Hn. destruct (Nat.lt_ge_cases k (deg p)) as [|Hge]; [rewrite Hz by auto; apply andb_false_r|].
    rewrite N.bits_above_log2; [reflexivity|]. unfold deg in *. lia.
Qed.

Lemma op_window p x c : (forall k, (k <= deg p)%nat -> x (c + k)%nat = false) -> op p x c = false.
Proof.
  intros H. apply xsum_zero. intros k Hk. destruct (Nat.le_gt_cases k (deg p)) as [Hle|Hgt]; [rewrite H by auto; apply andb_false_r|].
  rewrite N.bits_above_log2; [reflexivity|]. unfold deg in *. lia.
Qed.

Definition null (x : nat -> bool) : Prop := forall c, x c = false.
Definition ker (p : N) (x : nat -> bool) : Prop := null (op p x).

(** a sequence killed by p that starts with deg p zeros is zero *)
Lemma ker_null p x : p <> 0 -> (deg p < 64)%nat -> ker p x -> (forall c, (c < deg p)%nat -> x c = false) -> null x.
Proof.
  intros Hp Hd Hk Hz c. induction c as [c IH] using lt_wf_ind.
  destruct (Nat.lt_ge_cases c (deg p)) as [|Hge]; auto.
  replace c with ((c - deg p) + deg p)%nat by lia.
  rewrite <- (op_top p x (c - deg p) Hp Hd); [apply Hk|]. intros k Hlt. apply IH. lia.
Qed.

(** * primitive polynomials *)
Section Primitive.
Variable p : N.
Hypothesis Hprim : primitive p.
Hypothesis Hdeg : (deg p < 62)%nat.
Let d := N.log2 p.
Lemma prim_nz : p <> 0.
Proof. intros ->. destruct Hprim as [H _]. cbv zeta in H. cbn in H. lia. Qed.
Lemma prim_d : 0 < d. Proof. apply Hprim. Qed.

Lemma mulz_lt r : r < 2 ^ d -> mulz p d r < 2 ^ d.
Proof.
  intros Hr. apply lt_pow2_bits. intros j Hj. unfold mulz. pose proof prim_d as Hd0. pose proof prim_nz.
  assert (forall j, d < j -> N.testbit (N.shiftl r 1) j = false) as Hs.
  { intros i Hi. rewrite N.shiftl_spec_high' by lia. apply (proj1 (lt_pow2_bits r d) Hr). lia. }
  destruct (N.testbit (N.shiftl r 1) d) eqn:E.
  - rewrite N.lxor_spec. destruct (N.eq_dec j d) as [->|]; [rewrite E; unfold d; now rewrite N.bit_log2|].
    rewrite Hs by lia. rewrite N.bits_above_log2; [reflexivity|]. fold d. lia.
  - destruct (N.eq_dec j d) as [->|]; auto. apply Hs. lia.
Qed.
Lemma zpow_lt e : zpow p d e < 2 ^ d.
Proof.
  induction e as [|e IH]; cbn [zpow]; [|now apply mulz_lt]. change 1 with (2 ^ 0) at 1.
  apply N.pow_lt_mono_r; [lia|apply prim_d].
Qed.

(** on sequences killed by p, the e-th power of z is the shift by e *)
Lemma zpow_op x e c : ker p x -> op (zpow p d e) x c = x (c + e)%nat.
Proof.
  intros Hk. revert c. induction e as [|e IH]; intros c; cbn [zpow]; [rewrite op_1; f_equal; lia|].
  assert (op (N.shiftl (zpow p d e) 1) x c = x (c + S e)%nat) as Hs.
  { rewrite op_double, IH; [f_equal; lia|]. eapply N.lt_le_trans; [apply zpow_lt|]. apply pow2_le. unfold d, deg in *. lia. }
  unfold mulz. destruct (N.testbit _ d); auto. rewrite op_lxor, Hs, Hk. apply xorb_false_r.
Qed.

Let ord := N.to_nat (2 ^ d - 1).
Lemma ord_pos : (0 < ord)%nat.
Proof. unfold ord. pose proof (N.pow_gt_1 2 d ltac:(lia) ltac:(pose proof prim_d; lia)). lia. Qed.
Lemma zpow_ord : zpow p d ord = 1. Proof. apply Hprim. Qed.

Lemma zpow_add a b b' : zpow p d b = zpow p d b' -> zpow p d (a + b) = zpow p d (a + b').
Proof. intros H. induction a as [|a IH]; cbn [Nat.add zpow]; congruence. Qed.
Lemma zpow_zero a b : zpow p d b = 0 -> zpow p d (a + b) = 0.
Proof. intros H. induction a as [|a IH]; cbn [Nat.add zpow]; auto. rewrite IH. unfold mulz. cbn. reflexivity. Qed.

Lemma zpow_all r : r <> 0 -> r < 2 ^ d -> exists e, zpow p d e = r.
Proof.
  intros Hr Hlt.
  assert (incl (map N.succ (nrange (2 ^ d - 1))) (map (zpow p d) (seq 0 ord))) as Hincl.
  { apply NoDup_length_incl.
    - apply NoDup_map_inj; [apply seq_NoDup|].
      assert (forall a b, (a < b < ord)%nat -> zpow p d a <> zpow p d b) as Hne.
      { intros a b Hab E. apply (zpow_add (ord - b)) in E. replace (ord - b + b)%nat with ord in E by lia.
        rewrite zpow_ord in E. destruct Hprim as (_ & _ & H). cbv zeta in H. fold d in H. apply (H (ord - b + a)%nat); auto; fold ord; lia. }
      intros a b Ha Hb E. apply in_seq in Ha. apply in_seq in Hb.
      destruct (lt_eq_lt_dec a b) as [[Hl|He]|Hg]; auto; exfalso; [apply (Hne a b)|apply (Hne b a)]; auto; lia.
    - rewrite !map_length, length_nrange, seq_length. unfold ord. lia.
    - intros x Hx. apply in_map_iff in Hx. destruct Hx as (e & <- & He). apply in_seq in He. apply in_map_iff.
      exists (N.pred (zpow p d e)). pose proof (zpow_lt e) as Hl.
      assert (zpow p d e <> 0) as Hz.
      { intros E. apply (zpow_zero (ord - e)) in E. replace (ord - e + e)%nat with ord in E by lia.
        rewrite zpow_ord in E. discriminate. }
      rewrite N.succ_pred by auto. split; auto. apply in_nrange. lia. }
  destruct (proj1 (in_map_iff _ _ _) (Hincl r ltac:(apply in_map_iff; exists (N.pred r); rewrite N.succ_pred by auto;
     split; [reflexivity|apply in_nrange; lia]))) as (e & He & _). now exists e.
Qed.

Lemma prim_period x c j : ker p x -> x (c + j * ord)%nat = x c.
Proof.
  intros Hk. induction j as [|j IH]; [f_equal; lia|]. rewrite <- IH. replace (c + S j * ord)%nat with (c + j * ord + ord)%nat by lia.
  rewrite <- (zpow_op x ord _ Hk), zpow_ord. apply op_1.
Qed.

(** p and another polynomial of no larger degree have no common solutions but zero *)
Lemma prim_coprime q x : q <> 0 -> q <> p -> (deg q <= deg p)%nat -> ker p x -> ker q x -> null x.
Proof.
  intros Hq Hne Hle Hp Hk c.
  assert (exists r, r <> 0 /\ r < 2 ^ d /\ ker r x) as (r & Hr0 & Hr & Hkr).
  { destruct (N.eq_dec (N.log2 q) d) as [E|E].
    - exists (N.lxor p q). split; [intros H; apply N.lxor_eq in H; congruence|]. split.
      + apply lt_pow2_bits. intros j Hj. rewrite N.lxor_spec. destruct (N.eq_dec j d) as [->|].
        * unfold d at 1. rewrite N.bit_log2 by apply prim_nz. rewrite <- E, N.bit_log2 by auto. reflexivity.
        * rewrite !N.bits_above_log2; auto; unfold d in *; lia.
      + intros c'. rewrite op_lxor, Hp, Hk. reflexivity.
    - exists q. split; auto. split; auto. apply N.log2_lt_pow2; unfold deg, d in *; lia. }
  destruct (zpow_all r Hr0 Hr) as (e & <-).
  rewrite <- (prim_period x c e Hp). pose proof ord_pos.
  replace (c + e * ord)%nat with (c + e * ord - e + e)%nat by nia. rewrite <- (zpow_op x e _ Hp). apply Hkr.
Qed.
End Primitive.

(** * products of powers *)
Fixpoint oppow (p : N) (e : nat) (x : nat -> bool) : nat -> bool :=
  match e with O => x | S e' => oppow p e' (op p x) end.
Fixpoint opl (l : list (N * nat)) (x : nat -> bool) : nat -> bool :=
  match l with [] => x | (p, e) :: l' => opl l' (oppow p e x) end.

Definition peq (x y : nat -> bool) : Prop := forall c, x c = y c.
Lemma op_peq p x y : peq x y -> peq (op p x) (op p y).
Proof. intros H c. apply op_ext. intros; apply H. Qed.
Lemma oppow_peq p e x y : peq x y -> peq (oppow p e x) (oppow p e y).
Proof. revert x y. induction e as [|e IH]; cbn; auto. intros x y H. apply IH, op_peq, H. Qed.
Lemma opl_peq l x y : peq x y -> peq (opl l x) (opl l y).
Proof. revert x y. induction l as [|[p e] l IH]; cbn; auto. intros x y H. apply IH, oppow_peq, H. Qed.

Lemma oppow_op p e q x : peq (oppow p e (op q x)) (op q (oppow p e x)).
Proof.
  revert x. induction e as [|e IH]; cbn; intros x c; auto. rewrite <- IH. apply oppow_peq. intros c'. apply op_comm.
Qed.
Lemma opl_op l q x : peq (opl l (op q x)) (op q (opl l x)).
Proof.
  revert x. induction l as [|[p e] l IH]; cbn; intros x c; auto. rewrite <- IH. apply opl_peq. intros c'. apply oppow_op.
Qed.
Lemma opl_oppow l q e x : peq (opl l (oppow q e x)) (oppow q e (opl l x)).
Proof.
  revert x. induction e as [|e IH]; cbn; intros x c; auto. rewrite IH. apply oppow_peq. intros c'. apply opl_op.
Qed.
Lemma oppow_add p e x y : peq (oppow p e (fun c => xorb (x c) (y c))) (fun c => xorb (oppow p e x c) (oppow p e y c)).
Proof.
  revert x y. induction e as [|e IH]; cbn; intros x y c; auto. rewrite <- IH. apply oppow_peq. intros c'. apply op_add.
Qed.
Lemma opl_add l x y : peq (opl l (fun c => xorb (x c) (y c))) (fun c => xorb (opl l x c) (opl l y c)).
Proof.
  revert x y. induction l as [|[p e] l IH]; cbn; intros x y c; auto. rewrite <- IH. apply opl_peq. intros c'. apply oppow_add.
Qed.
Lemma oppow_null p e x : null x -> null (oppow p e x).
Proof.
  revert x. induction e as [|e IH]; cbn; auto. intros x H. apply IH. intros c. apply op_zero. intros; apply H.
Qed.
Lemma opl_null l x : null x -> null (opl l x).
Proof. revert x. induction l as [|[p e] l IH]; cbn; auto. intros x H. now apply IH, oppow_null. Qed.

Lemma opl_killed l p e x : In (p, e) l -> null (oppow p e x) -> null (opl l x).
Proof.
  revert x. induction l as [|[q f] l IH]; cbn; [tauto|]. intros x [E|Hin] Hk.
  - injection E as -> ->. now apply opl_null.
  - apply IH; auto. intros c. transitivity (oppow q f (oppow p e x) c).
    + apply (opl_oppow [(p, e)] q f x).
    + apply oppow_null, Hk.
Qed.

(** a sequence killed by a product and starting with enough zeros is zero *)
Definition total (l : list (N * nat)) : nat := fold_right (fun '(p, e) s => deg p * e + s)%nat 0%nat l.

Lemma op_zeros p x n : (forall c, (c < n + deg p)%nat -> x c = false) -> forall c, (c < n)%nat -> op p x c = false.
Proof. intros H c Hc. apply op_window. intros k Hk. apply H. lia. Qed.
Lemma oppow_zeros p e x n : (forall c, (c < n + deg p * e)%nat -> x c = false) -> forall c, (c < n)%nat -> oppow p e x c = false.
Proof.
  revert x. induction e as [|e IH]; cbn; intros x H c Hc; [apply H; lia|]. apply IH; auto.
  apply op_zeros. intros c' Hc'. apply H. lia.
Qed.

Lemma oppow_ker_null p e x : p <> 0 -> (deg p < 64)%nat -> null (oppow p e x) -> (forall c, (c < deg p * e)%nat -> x c = false) -> null x.
Proof.
  intros Hp Hd. revert x. induction e as [|e IH]; cbn; auto. intros x Hk Hz. apply (ker_null p); auto.
  - apply IH; auto. apply op_zeros. intros c Hc. apply Hz. lia.
  - intros c Hc. apply Hz. lia.
Qed.

Lemma opl_ker_null l x : Forall (fun pe => fst pe <> 0 /\ (deg (fst pe) < 64)%nat) l -> null (opl l x) ->
  (forall c, (c < total l)%nat -> x c = false) -> null x.
Proof.
  intros Hl. revert x. unfold total. induction Hl as [|[p e] l [Hp Hd] _ IH]; cbn; auto. intros x Hk Hz.
  apply (oppow_ker_null p e); auto.
  - apply IH; auto. apply oppow_zeros. intros c Hc. apply Hz. lia.
  - intros c Hc. apply Hz. lia.
Qed.

(** * coprime families *)
Definition coprime (p q : N) : Prop := forall x, ker p x -> ker q x -> null x.

Lemma coprime_oppow p q e x : coprime p q -> ker p x -> null (oppow q e x) -> null x.
Proof.
  intros Hc. revert x. induction e as [|e IH]; cbn; auto. intros x Hp Hk. apply Hc; auto.
  apply (IH (op q x)); auto. intros c. rewrite op_comm. apply op_zero. intros; apply Hp.
Qed.
Lemma coprime_opl p l x : (forall q e, In (q, e) l -> coprime p q) -> ker p x -> null (opl l x) -> null x.
Proof.
  revert x. induction l as [|[q e] l IH]; cbn; auto. intros x Hc Hp Hk. apply (coprime_oppow p q e); eauto.
  apply IH; eauto. intros c. rewrite <- oppow_op. now apply oppow_null.
Qed.
Lemma coprime_pow_opl p e l x : (forall q e, In (q, e) l -> coprime p q) -> null (oppow p e x) -> null (opl l x) -> null x.
Proof.
  intros Hc. revert x. induction e as [|e IH]; cbn; auto. intros x Hp Hk. apply (coprime_opl p l x Hc); auto.
  apply (IH (op p x)); auto. intros c. rewrite opl_op. apply op_zero. intros; apply Hk.
Qed.

(** a sum of sequences killed by powers of pairwise coprime polynomials vanishes only if every term does *)
Definition term : Type := N * nat * (nat -> bool).
Definition tpoly (t : term) : N := fst (fst t).
Definition tseq (t : term) : nat -> bool := snd t.
Definition sumseq (ts : list term) (c : nat) : bool := xsum (map (fun t => tseq t c) ts).

Lemma opl_sumseq ts l : (forall t, In t ts -> In (fst t) l) -> (forall t, In t ts -> null (oppow (tpoly t) (snd (fst t)) (tseq t))) ->
  null (opl l (sumseq ts)).
Proof.
  induction ts as [|t ts IH]; intros Hin Hk c; [apply opl_null; intros c'; reflexivity|].
  transitivity (opl l (fun c => xorb (tseq t c) (sumseq ts c)) c); [apply opl_peq; intros c'; reflexivity|].
  rewrite opl_add, IH by (intros; try apply Hin; try apply Hk; now right). rewrite xorb_false_r.
  apply (opl_killed l (tpoly t) (snd (fst t))); [|apply Hk; now left]. unfold tpoly. rewrite <- surjective_pairing. apply Hin. now left.
Qed.

Lemma terms_null ts : NoDup (map tpoly ts) ->
  (forall t t', In t ts -> In t' ts -> tpoly t <> tpoly t' -> coprime (tpoly t) (tpoly t')) ->
  (forall t, In t ts -> null (oppow (tpoly t) (snd (fst t)) (tseq t))) ->
  null (sumseq ts) -> forall t, In t ts -> null (tseq t).
Proof.
  induction ts as [|t ts IH]; intros Hnd Hc Hk Hz; [easy|]. cbn in Hnd. inversion_clear Hnd as [|? ? Hn Hnd'].
  assert (null (tseq t)) as Ht.
  { apply (coprime_pow_opl (tpoly t) (snd (fst t)) (map fst ts)).
    - intros q e Hin. apply in_map_iff in Hin. destruct Hin as (t' & E & Hin). replace q with (tpoly t') by (unfold tpoly; now rewrite E).
      apply Hc; [now left|now right|]. intros E'. apply Hn. rewrite E'. now apply in_map.
    - apply Hk. now left.
    - intros c. transitivity (opl (map fst ts) (sumseq ts) c).
      + apply opl_peq. intros c'. specialize (Hz c'). unfold sumseq in Hz. cbn in Hz. unfold sumseq, xsum.
        now destruct (tseq t c'), (fold_right xorb false (map (fun t0 => tseq t0 c') ts)).
      + apply opl_sumseq; [intros; now apply in_map|]. intros; apply Hk. now right. }
  intros t' [<-|Hin]; auto. apply IH; auto.
  - intros a b Ha Hb. apply Hc; now right.
  - intros a Ha. apply Hk. now right.
  - intros c. specialize (Hz c). change (xorb (tseq t c) (sumseq ts c) = false) in Hz. rewrite Ht, xorb_false_l in Hz. exact Hz.
Qed.
