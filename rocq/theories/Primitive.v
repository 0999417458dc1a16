(** Primitive polynomials over GF(2) by fast powers: z has order 2^d-1 modulo p if its power 2^d-1 is 1 and no power of an
    exponent in a list is 1, where every proper divisor of 2^d-1 divides an exponent in the list. *)
From Verif Require Import Base SobolSpec SobolInit.
Open Scope N_scope.

Ltac xors := apply N.bits_inj; let n := fresh in intros n; rewrite ?N.lxor_spec, ?N.bits_0;
  repeat match goal with |- context[N.testbit ?a n] => destruct (N.testbit a n) end; reflexivity.

(** the product of the polynomials w and v modulo p, of degree d *)
Fixpoint pmulp (p d : N) (w : positive) (v : N) : N :=
  match w with xH => v | xO w' => mulz p d (pmulp p d w' v) | xI w' => N.lxor (mulz p d (pmulp p d w' v)) v end.
Definition pmul (p d w v : N) : N := match w with N0 => 0 | Npos w' => pmulp p d w' v end.
(** powers of z modulo p *)
Fixpoint ppow (p d : N) (e : positive) : N :=
  match e with
  | xH => mulz p d 1
  | xO e' => let v := ppow p d e' in pmul p d v v
  | xI e' => let v := ppow p d e' in mulz p d (pmul p d v v)
  end.

Section Mod.
Context (p : N) (Hp : 0 < N.log2 p).
Let d := N.log2 p.
Local Notation mz := (mulz p d).
Local Notation act := (pmul p d).
Local Notation actp := (pmulp p d).
Local Notation fpow := (ppow p d).

Lemma p_nz : p <> 0. Proof. intros E. rewrite E in Hp. now apply N.lt_irrefl in Hp. Qed.
Lemma mz_lxor a b : mz (N.lxor a b) = N.lxor (mz a) (mz b).
Proof.
  unfold mulz. rewrite N.shiftl_lxor, N.lxor_spec. destruct (N.testbit (N.shiftl a 1) d), (N.testbit (N.shiftl b 1) d); cbn [xorb]; xors.
Qed.
Lemma mz_0 : mz 0 = 0. Proof. unfold mulz. rewrite N.shiftl_0_l, N.bits_0. reflexivity. Qed.
Lemma mz_lt r : r < 2 ^ d -> mz r < 2 ^ d.
Proof.
  intros Hr. apply below_bits. intros j Hj. unfold mulz. pose proof p_nz.
  assert (forall j, d < j -> N.testbit (N.shiftl r 1) j = false) as Hs.
  { intros i Hi. rewrite N.shiftl_spec_high' by lia. apply (proj1 (below_bits r d) Hr). lia. }
  destruct (N.testbit (N.shiftl r 1) d) eqn:E.
  - rewrite N.lxor_spec. destruct (N.eq_dec j d) as [->|]; [rewrite E; unfold d; now rewrite N.bit_log2|].
    rewrite Hs by lia. rewrite N.bits_above_log2; [reflexivity|]. fold d. lia.
  - destruct (N.eq_dec j d) as [->|]; auto. apply Hs. lia.
Qed.

Lemma act_double w v : act (N.double w) v = mz (act w v). Proof. destruct w; [symmetry; apply mz_0|reflexivity]. Qed.
Lemma act_succ_double w v : act (N.succ_double w) v = N.lxor (mz (act w v)) v.
Proof. destruct w; cbn [N.succ_double pmul pmulp]; [now rewrite mz_0, N.lxor_0_l|reflexivity]. Qed.
Lemma act_lxor_w a b v : act (N.lxor a b) v = N.lxor (act a v) (act b v).
Proof.
  destruct a as [|a]; [now rewrite !N.lxor_0_l|]. destruct b as [|b]; [now rewrite !N.lxor_0_r|].
  change (N.lxor (Npos a) (Npos b)) with (Pos.lxor a b). cbn [pmul]. revert b. induction a as [a IH|a IH|]; intros [b|b|]; cbn [Pos.lxor pmulp];
    rewrite ?act_double, ?act_succ_double, ?IH, ?mz_lxor; cbn [pmul pmulp]; xors.
Qed.
Lemma act_mz w v : act w (mz v) = mz (act w v).
Proof. destruct w as [|w]; [symmetry; apply mz_0|]. cbn [pmul]. induction w as [w IH|w IH|]; cbn [pmulp]; rewrite ?IH, ?mz_lxor; reflexivity. Qed.
Lemma act_lxor w u v : act w (N.lxor u v) = N.lxor (act w u) (act w v).
Proof. destruct w as [|w]; [reflexivity|]. cbn [pmul]. induction w as [w IH|w IH|]; cbn [pmulp]; rewrite ?IH, ?mz_lxor; xors. Qed.

Lemma shiftl1 a : N.shiftl a 1 = N.double a. Proof. reflexivity. Qed.
Lemma double_lt w n : N.double w < 2 ^ n -> 0 < n -> w < 2 ^ (n - 1).
Proof. intros H Hn. replace n with (n - 1 + 1) in H by lia. rewrite N.pow_add_r in H. rewrite N.double_spec in H. change (2 ^ 1) with 2 in H. lia. Qed.
Lemma mz_small w : w < 2 ^ (d - 1) -> mz w = N.double w.
Proof.
  intros H. unfold mulz. rewrite shiftl1. assert (N.double w < 2 ^ d) as Hl.
  { rewrite N.double_spec. replace d with (d - 1 + 1) by (unfold d in *; lia). rewrite N.pow_add_r. change (2 ^ 1) with 2. lia. }
  rewrite (proj1 (below_bits _ _) Hl) by lia. reflexivity.
Qed.
Lemma succ_double_lxor w : N.succ_double w = N.lxor (N.double w) 1. Proof. destruct w; reflexivity. Qed.

Lemma act_one w : w < 2 ^ d -> act w 1 = w.
Proof.
  induction w using N.binary_ind; intros H; [reflexivity| |].
  - assert (w < 2 ^ (d - 1)) as Hw by (apply double_lt; auto).
    rewrite act_double, IHw by (apply N.lt_le_trans with (1 := Hw); apply N.pow_le_mono_r; lia). now apply mz_small.
  - assert (w < 2 ^ (d - 1)) as Hw by (apply double_lt; auto; apply N.le_lt_trans with (2 := H); rewrite N.double_spec, N.succ_double_spec; lia).
    rewrite act_succ_double, IHw by (apply N.lt_le_trans with (1 := Hw); apply N.pow_le_mono_r; lia). now rewrite mz_small, succ_double_lxor by auto.
Qed.

Lemma act_half w : act w 1 = N.lxor (mz (act (N.div2 w) 1)) (N.b2n (N.odd w)).
Proof. destruct w as [|[w|w|]]; cbn [N.div2 Pos.div2 N.odd N.b2n pmul pmulp]; rewrite ?mz_0, ?N.lxor_0_r; reflexivity. Qed.
Lemma lxor_half w : w = N.lxor (N.double (N.div2 w)) (N.b2n (N.odd w)).
Proof. destruct w as [|[w|w|]]; reflexivity. Qed.
Lemma half_bits : N.testbit (N.double (N.div2 p)) d = true /\ N.div2 p < 2 ^ d.
Proof.
  pose proof p_nz as Hz. split.
  - assert (N.testbit p d = true) as Ht by (apply N.bit_log2; exact Hz). rewrite (lxor_half p) in Ht at 1. rewrite N.lxor_spec in Ht.
    assert (N.testbit (N.b2n (N.odd p)) d = false) as F.
    { apply (proj1 (below_bits (N.b2n (N.odd p)) 1)); [destruct (N.odd p); reflexivity|unfold d; lia]. }
    rewrite F, xorb_false_r in Ht. exact Ht.
  - assert (p < 2 ^ (d + 1)) as Hlt by (rewrite N.add_1_r; apply N.log2_spec; lia).
    rewrite N.pow_add_r in Hlt. change (2 ^ 1) with 2 in Hlt. pose proof (N.div2_odd p) as E. destruct (N.odd p); cbn [N.b2n] in E; lia.
Qed.
Lemma act_p_one : act p 1 = 0.
Proof.
  destruct half_bits as [Ht Hh]. rewrite act_half, act_one by exact Hh. unfold mulz. rewrite shiftl1, Ht.
  rewrite N.lxor_assoc, (N.lxor_comm p), <- N.lxor_assoc, <- lxor_half. apply N.lxor_nilpotent.
Qed.
Lemma act_p v : v < 2 ^ d -> act p v = 0.
Proof.
  assert (act p 0 = 0) as H0.
  { pose proof (act_lxor p 1 1) as H. rewrite N.lxor_nilpotent in H. rewrite H. apply N.lxor_nilpotent. }
  induction v using N.binary_ind; intros H; [exact H0| |].
  - assert (v < 2 ^ (d - 1)) as Hw by (apply double_lt; auto).
    rewrite <- mz_small, act_mz, IHv by (auto; apply N.lt_le_trans with (1 := Hw); apply N.pow_le_mono_r; lia). apply mz_0.
  - assert (v < 2 ^ (d - 1)) as Hw by (apply double_lt; auto; apply N.le_lt_trans with (2 := H); rewrite N.double_spec, N.succ_double_spec; lia).
    rewrite succ_double_lxor, act_lxor, act_p_one, <- mz_small, act_mz, IHv by (auto; apply N.lt_le_trans with (1 := Hw); apply N.pow_le_mono_r; lia).
    now rewrite mz_0.
Qed.
Lemma act_mz_w w v : v < 2 ^ d -> act (mz w) v = mz (act w v).
Proof.
  intros Hv. unfold mulz at 1. rewrite shiftl1. destruct (N.testbit (N.double w) d); [|apply act_double].
  rewrite act_lxor_w, act_double, act_p by auto. apply N.lxor_0_r.
Qed.

Lemma zp_lt e : zpow p d e < 2 ^ d.
Proof. induction e as [|e IH]; cbn [zpow]; [|now apply mz_lt]. change 1 with (2 ^ 0) at 1. apply N.pow_lt_mono_r; [lia|exact Hp]. Qed.
Lemma act_zpow a b : act (zpow p d b) (zpow p d a) = zpow p d (b + a).
Proof.
  induction b as [|b IH]; [reflexivity|]. cbn [zpow plus].  rewrite act_mz_w by apply zp_lt. now rewrite IH.
Qed.

Lemma fpow_ok e : fpow e = zpow p d (Pos.to_nat e).
Proof.
  induction e as [e IH|e IH|]; cbn [ppow]; [| |reflexivity]; rewrite IH, act_zpow.
  - change (mz (zpow p d ?x)) with (zpow p d (S x)). f_equal. lia.
  - f_equal. lia.
Qed.

(** * Orders *)
Lemma zp_period e k r : zpow p d e = 1 -> zpow p d (k * e + r) = zpow p d r.
Proof.
  intros H. induction k as [|k IH]; [reflexivity|]. replace (S k * e + r)%nat with (e + (k * e + r))%nat by lia.
  rewrite <- act_zpow, H. rewrite IH. reflexivity.
Qed.
Lemma zp_gcd a : forall b, (0 < b)%nat -> zpow p d a = 1 -> zpow p d b = 1 -> zpow p d (Nat.gcd a b) = 1.
Proof.
  induction a as [a IH] using lt_wf_ind. intros b Hb Ha Hb1. destruct a as [|a]; [exact Hb1|].
  rewrite <- Nat.gcd_mod by lia. destruct (Nat.eq_dec (b mod S a) 0) as [E|E].
  - rewrite E. now rewrite Nat.gcd_0_l.
  - apply IH; try lia; auto; [apply Nat.mod_upper_bound; lia|].
    rewrite (Nat.div_mod b (S a)) in Hb1 by lia. rewrite Nat.mul_comm, zp_period in Hb1; auto.
Qed.

Lemma order_by (n : nat) (ms : list nat) : (0 < n)%nat -> zpow p d n = 1 -> (forall m, In m ms -> zpow p d m <> 1) ->
  (forall g, (0 < g < n)%nat -> Nat.divide g n -> exists m, In m ms /\ Nat.divide g m) ->
  forall e, (0 < e < n)%nat -> zpow p d e <> 1.
Proof.
  intros Hn H1 Hms Hg e He Ee. pose proof (zp_gcd e n Hn Ee H1) as Eg.
  pose proof (Nat.gcd_divide_l e n) as D1. pose proof (Nat.gcd_divide_r e n) as D2.
  assert (0 < Nat.gcd e n)%nat as G0 by (destruct (Nat.eq_dec (Nat.gcd e n) 0) as [E|]; [apply Nat.gcd_eq_0_l in E; lia|lia]).
  assert (Nat.gcd e n <= e)%nat as G1 by (apply Nat.divide_pos_le; auto; lia).
  destruct (Hg (Nat.gcd e n) ltac:(lia) D2) as (m & Hm & (q & ->)). apply (Hms _ Hm).
  rewrite <- (Nat.add_0_r (q * _)). now rewrite zp_period.
Qed.
End Mod.
