(** The continued fraction of gamain for half-integral p (odd degrees of freedom), without rounding. *)
From Coq Require Import Reals Lra Lia Psatz ZArith List Bool.
From Flocq Require Import Core.Core.
From Verif Require Import Base GammaGen.
Open Scope R_scope.

(** * Monotone functions and their limits *)

Definition lim0 (f : R -> R) (l : R) : Prop := forall e, 0 < e -> exists d, 0 < d /\ forall t, 0 < t < d -> Rabs (f t - l) < e.
Definition liminf (f : R -> R) (l : R) : Prop := forall e, 0 < e -> exists M, forall t, M < t -> Rabs (f t - l) < e.

Lemma mono_up f f' a b : a <= b -> (forall c, a <= c <= b -> derivable_pt_lim f c (f' c)) -> (forall c, a <= c <= b -> 0 <= f' c) -> f a <= f b.
Proof.
  intros [H| ->] D P; [|lra]. destruct (MVT_cor2 f f' a b H D) as (c & E & Hc). specialize (P c ltac:(lra)). nra.
Qed.
Lemma from0 f f' x : 0 < x -> (forall t, 0 < t <= x -> derivable_pt_lim f t (f' t)) -> (forall t, 0 < t <= x -> 0 <= f' t) -> lim0 f 0 -> 0 <= f x.
Proof.
  intros Hx D P L. apply Rnot_lt_le. intros N. destruct (L (- f x) ltac:(lra)) as (d & Hd & Ld).
  set (t := Rmin (d / 2) x). assert (0 < t <= x) as Ht by (unfold t; split; [apply Rmin_glb_lt; lra|apply Rmin_r]).
  assert (t < d) by (unfold t; pose proof (Rmin_l (d / 2) x); lra).
  assert (f t <= f x) by (apply (mono_up f f'); [lra| |]; intros; [apply D|apply P]; lra).
  specialize (Ld t ltac:(lra)). apply Rabs_def2 in Ld. lra.
Qed.
Lemma frominf f f' x : (forall t, x <= t -> derivable_pt_lim f t (f' t)) -> (forall t, x <= t -> f' t <= 0) -> liminf f 0 -> 0 <= f x.
Proof.
  intros D P L. apply Rnot_lt_le. intros N. destruct (L (- f x) ltac:(lra)) as (M & LM).
  set (t := Rmax (M + 1) x). assert (x <= t) as Ht by apply Rmax_r. assert (M < t) by (unfold t; pose proof (Rmax_l (M + 1) x); lra).
  assert (- f x <= - f t) as Q.
  { apply (mono_up (fun t => - f t) (fun t => - f' t)); [exact Ht| |].
    - intros c Hc. apply derivable_pt_lim_opp, D. lra.
    - intros c Hc. specialize (P c ltac:(lra)). lra. }
  specialize (LM t ltac:(lra)). apply Rabs_def2 in LM. lra.
Qed.
Lemma liminf_plus f g k l : liminf f k -> liminf g l -> liminf (fun t => f t + g t) (k + l).
Proof.
  intros F G e He. destruct (F (e / 2) ltac:(lra)) as (M & HM). destruct (G (e / 2) ltac:(lra)) as (N & HN).
  exists (Rmax M N). intros t Ht. specialize (HM t ltac:(pose proof (Rmax_l M N); lra)). specialize (HN t ltac:(pose proof (Rmax_r M N); lra)).
  replace (f t + g t - (k + l)) with ((f t - k) + (g t - l)) by ring. eapply Rle_lt_trans; [apply Rabs_triang|]. lra.
Qed.
Lemma liminf_scal c f l : liminf f l -> liminf (fun t => c * f t) (c * l).
Proof.
  intros F e He. destruct (Req_dec c 0) as [->|Hc]; [exists 0; intros; rewrite !Rmult_0_l, Rminus_0_r, Rabs_R0; exact He|].
  assert (0 < Rabs c) as Pc by now apply Rabs_pos_lt. destruct (F (e / Rabs c)) as (M & HM); [now apply Rdiv_lt_0_compat|].
  exists M. intros t Ht. rewrite <- Rmult_minus_distr_l, Rabs_mult. apply Rmult_lt_reg_l with (/ Rabs c); [now apply Rinv_0_lt_compat|].
  rewrite <- Rmult_assoc, Rinv_l, Rmult_1_l by lra. specialize (HM t Ht). unfold Rdiv in HM. rewrite Rmult_comm. exact HM.
Qed.
Lemma liminf_bound f g K x : (forall t, x <= t -> Rabs (f t) <= K * g t) -> liminf g 0 -> liminf f 0.
Proof.
  intros H G e He. destruct (liminf_scal K g 0 G e He) as (M & HM). rewrite Rmult_0_r in HM. exists (Rmax M x). intros t Ht.
  specialize (HM t ltac:(pose proof (Rmax_l M x); lra)). specialize (H t ltac:(pose proof (Rmax_r M x); lra)). rewrite Rminus_0_r in *.
  pose proof (Rle_abs (K * g t)). lra.
Qed.
Lemma lim0_plus f g k l : lim0 f k -> lim0 g l -> lim0 (fun t => f t + g t) (k + l).
Proof.
  intros F G e He. destruct (F (e / 2) ltac:(lra)) as (M & PM & HM). destruct (G (e / 2) ltac:(lra)) as (N & PN & HN).
  exists (Rmin M N). split; [now apply Rmin_glb_lt|]. intros t Ht.
  specialize (HM t ltac:(pose proof (Rmin_l M N); lra)). specialize (HN t ltac:(pose proof (Rmin_r M N); lra)).
  replace (f t + g t - (k + l)) with ((f t - k) + (g t - l)) by ring. eapply Rle_lt_trans; [apply Rabs_triang|]. lra.
Qed.
Lemma lim0_scal c f l : lim0 f l -> lim0 (fun t => c * f t) (c * l).
Proof.
  intros F e He. destruct (Req_dec c 0) as [->|Hc]; [exists 1; split; [lra|]; intros; rewrite !Rmult_0_l, Rminus_0_r, Rabs_R0; exact He|].
  assert (0 < Rabs c) as Pc by now apply Rabs_pos_lt. destruct (F (e / Rabs c)) as (M & PM & HM); [now apply Rdiv_lt_0_compat|].
  exists M. split; [exact PM|]. intros t Ht. rewrite <- Rmult_minus_distr_l, Rabs_mult. apply Rmult_lt_reg_l with (/ Rabs c); [now apply Rinv_0_lt_compat|].
  rewrite <- Rmult_assoc, Rinv_l, Rmult_1_l by lra. specialize (HM t Ht). unfold Rdiv in HM. rewrite Rmult_comm. exact HM.
Qed.

(** * The convergents as functions *)

Section Frac.
Context (p : R).
Notation bb n t := (t + 2 * INR n + 2 - p).
Notation aa n := (INR n * (INR n + 1 - p)).

(** numerator, denominator (over t) and their derivatives, consecutive pairs *)
Fixpoint pa (n : nat) (t : R) : R * R :=
  match n with O => (1, t + 1) | S n' => let '(u, v) := pa n' t in (v, bb (S n') t * v - aa (S n') * u) end.
Fixpoint pq (n : nat) (t : R) : R * R :=
  match n with O => (1, t + 2 - p) | S n' => let '(u, v) := pq n' t in (v, bb (S n') t * v - aa (S n') * u) end.
Definition A n t := fst (pa n t).
Definition q n t := fst (pq n t).

Lemma pa_eq n t : pa n t = (A n t, A (S n) t).
Proof. unfold A. cbn [pa]. destruct (pa n t); reflexivity. Qed.
Lemma pq_eq n t : pq n t = (q n t, q (S n) t).
Proof. unfold q. cbn [pq]. destruct (pq n t); reflexivity. Qed.
Lemma A_0 t : A 0 t = 1. Proof. reflexivity. Qed.
Lemma A_1 t : A 1 t = t + 1. Proof. reflexivity. Qed.
Lemma q_0 t : q 0 t = 1. Proof. reflexivity. Qed.
Lemma q_1 t : q 1 t = t + 2 - p. Proof. reflexivity. Qed.
Lemma A_SS n t : A (S (S n)) t = bb (S n) t * A (S n) t - aa (S n) * A n t.
Proof. unfold A at 1. cbn [pa]. rewrite (pa_eq n). reflexivity. Qed.
Lemma q_SS n t : q (S (S n)) t = bb (S n) t * q (S n) t - aa (S n) * q n t.
Proof. unfold q at 1. cbn [pq]. rewrite (pq_eq n). reflexivity. Qed.

Lemma pair_ind (P : nat -> Prop) : P O -> P 1%nat -> (forall n, P n -> P (S n) -> P (S (S n))) -> forall n, P n.
Proof. intros H0 H1 HS n. cut (P n /\ P (S n)); [tauto|]. induction n as [|n [A1 A2]]; [tauto|]. split; [exact A2|]. apply HS; assumption. Qed.

Lemma dext f g x l : (forall t, g t = f t) -> derivable_pt_lim f x l -> derivable_pt_lim g x l.
Proof. intros E D e He. destruct (D e He) as [d Hd]. exists d. intros h H1 H2. rewrite !E. apply Hd; assumption. Qed.
Lemma deq f x l k : k = l -> derivable_pt_lim f x l -> derivable_pt_lim f x k.
Proof. intros ->. trivial. Qed.

Lemma b_deriv n t : derivable_pt_lim (fun t => bb n t) t 1.
Proof.
  apply dext with (f := (id + fct_cte (2 * INR n + 2 - p))%F); [intros u; unfold plus_fct, fct_cte, id; ring|].
  apply deq with (1 + 0); [ring|]. apply derivable_pt_lim_plus; [apply derivable_pt_lim_id|apply derivable_pt_lim_const].
Qed.
Lemma rec_deriv n f g h t f' g' : (forall t, h t = bb n t * g t - aa n * f t) -> derivable_pt_lim f t f' -> derivable_pt_lim g t g' ->
  derivable_pt_lim h t (g t + bb n t * g' - aa n * f').
Proof.
  intros E Df Dg. apply dext with (1 := E). apply (derivable_pt_lim_minus (fun t => bb n t * g t) (fun t => aa n * f t)).
  - apply deq with (1 * g t + bb n t * g'); [ring|]. apply (derivable_pt_lim_mult (fun t => bb n t) g); [apply b_deriv|exact Dg].
  - apply (derivable_pt_lim_scal f), Df.
Qed.
Lemma q_deriv n t : t <> 0 -> derivable_pt_lim (q n) t ((q (S n) t - (t + INR n + 2 - p) * q n t) / t).
Proof.
  intros Ht. revert n. apply pair_ind.
  - apply deq with 0; [rewrite q_1, q_0; cbn [INR]; field; exact Ht|]. apply dext with (f := fct_cte 1); [reflexivity|]. apply derivable_pt_lim_const.
  - apply deq with 1; [rewrite q_SS, q_1, q_0; cbn [INR]; field; exact Ht|].
    apply dext with (f := fun t => bb 0 t); [intros u; rewrite q_1; cbn [INR]; ring|]. apply b_deriv.
  - intros n D1 D2. eapply deq; [|exact (rec_deriv (S n) _ _ _ t _ _ (q_SS n) D1 D2)].
    rewrite (q_SS (S n)), (q_SS n), !S_INR. field. exact Ht.
Qed.
Lemma A_deriv n t : t <> 0 -> derivable_pt_lim (A n) t ((A (S n) t - (INR n + 1) * A n t - t * q n t) / t).
Proof.
  intros Ht. revert n. apply pair_ind.
  - apply deq with 0; [rewrite A_1, A_0, q_0; cbn [INR]; field; exact Ht|]. apply dext with (f := fct_cte 1); [reflexivity|]. apply derivable_pt_lim_const.
  - apply deq with 1; [rewrite A_SS, A_1, A_0, q_1; cbn [INR]; field; exact Ht|].
    apply dext with (f := fun t => bb 0 t + (p - 1)); [intros u; rewrite A_1; cbn [INR]; ring|].
    apply deq with (1 + 0); [ring|]. apply (derivable_pt_lim_plus (fun t => bb 0 t) (fct_cte (p - 1))); [apply b_deriv|apply derivable_pt_lim_const].
  - intros n D1 D2. eapply deq; [|exact (rec_deriv (S n) _ _ _ t _ _ (A_SS n) D1 D2)].
    rewrite (A_SS (S n)), (A_SS n), (q_SS n), !S_INR. field. exact Ht.
Qed.

(** consecutive convergents differ by a constant over the product of the denominators *)
Fixpoint dd (n : nat) : R := match n with O => p - 1 | S n' => aa (S n') * dd n' end.
Lemma dd_eq n t : A (S n) t * q n t - A n t * q (S n) t = dd n.
Proof.
  induction n as [|n IH]; [rewrite A_1, A_0, q_1, q_0; cbn; ring|]. cbn [dd]. rewrite <- IH, A_SS, q_SS. ring.
Qed.

(** the denominators grow *)
Lemma q_grow t n : 0 < t -> p <= t -> 0 < q n t /\ (t + INR n + 2 - p) * q n t <= q (S n) t.
Proof.
  intros Ht Hp. induction n as [|n [P IH]]; [rewrite q_1, q_0; cbn [INR]; lra|]. pose proof (pos_INR n) as Pn.
  assert (0 < q (S n) t) as P1 by (assert (0 < t + INR n + 2 - p) by lra; nra). split; [exact P1|].
  rewrite q_SS, S_INR. assert ((INR n + 2 - p) * q n t <= q (S n) t) by nra. nra.
Qed.
Lemma q_pos t n : 0 < t -> p <= t -> 0 < q n t. Proof. intros. now apply q_grow. Qed.
Lemma q_ge1 t n : 0 < t -> p <= t -> 1 <= q n t.
Proof.
  intros Ht Hp. induction n as [|n IH]; [rewrite q_0; lra|]. destruct (q_grow t n Ht Hp) as [P G]. pose proof (pos_INR n). nra.
Qed.

(** * The incomplete integral *)
Context (w Q : R -> R) (Hw : forall t, 0 < t -> 0 < w t) (Dw : forall t, 0 < t -> derivable_pt_lim w t (w t * (p - t) / t))
  (DQ : forall t, 0 < t -> derivable_pt_lim Q t (- (w t / t))) (Lw : liminf w 0) (LQ : liminf Q 0).
Notation C n t := (A n t / (t * q n t)).

Lemma C_bound n x : 1 <= x -> p <= x -> exists K, forall t, x <= t -> Rabs (C n t) <= K.
Proof.
  intros H1 Hp. induction n as [|n [K IH]].
  - exists 1. intros t Ht. rewrite A_0, q_0, Rmult_1_r, Rabs_pos_eq by (apply Rlt_le, Rdiv_lt_0_compat; lra).
    apply Rmult_le_reg_r with t; [lra|]. unfold Rdiv. rewrite Rmult_assoc, Rinv_l; lra.
  - exists (K + Rabs (dd n)). intros t Ht. pose proof (q_ge1 t n ltac:(lra) ltac:(lra)) as G0. pose proof (q_ge1 t (S n) ltac:(lra) ltac:(lra)) as G1.
    replace (C (S n) t) with (C n t + dd n / (t * q n t * q (S n) t)) by (rewrite <- (dd_eq n t); field; lra).
    eapply Rle_trans; [apply Rabs_triang|]. apply Rplus_le_compat; [apply IH; exact Ht|].
    assert (1 <= t * q n t) by nra. assert (1 <= t * q n t * q (S n) t) by nra.
    unfold Rdiv. rewrite Rabs_mult, (Rabs_pos_eq (/ _)) by (apply Rlt_le, Rinv_0_lt_compat; lra). rewrite <- (Rmult_1_r (Rabs (dd n))) at 2.
    apply Rmult_le_compat_l; [apply Rabs_pos|]. apply Rle_trans with (/ 1); [apply Rinv_le_contravar; lra|rewrite Rinv_1; lra].
Qed.

(** the error of the n-th convergent and its derivative *)
Lemma err_deriv n t : 0 < t -> p <= t -> derivable_pt_lim (fun t => Q t - w t * C n t) t (- (w t * dd n / (t * q n t) ^ 2)).
Proof.
  intros Ht Hp. pose proof (q_pos t n Ht Hp) as P.
  pose proof (derivable_pt_lim_mult id (q n) t _ _ (derivable_pt_lim_id t) (q_deriv n t ltac:(lra))) as D1.
  pose proof (derivable_pt_lim_div (A n) (id * q n)%F t _ _ (A_deriv n t ltac:(lra)) D1 ltac:(unfold mult_fct, id; nra)) as D2.
  pose proof (derivable_pt_lim_mult w _ t _ _ (Dw t Ht) D2) as D3.
  eapply deq; [|exact (derivable_pt_lim_minus Q _ t _ _ (DQ t Ht) D3)].
  unfold mult_fct, div_fct, id, Rsqr. rewrite <- (dd_eq n t). field. lra.
Qed.
Lemma err_lim n : liminf (fun t => Q t - w t * C n t) 0.
Proof.
  replace 0 with (0 + -1 * 0) by ring. set (x := Rmax 1 p).
  destruct (C_bound n x (Rmax_l 1 p) (Rmax_r 1 p)) as [K HK].
  assert (liminf (fun t => w t * C n t) 0) as L.
  { apply liminf_bound with (g := w) (K := K) (x := x); [|exact Lw]. intros t Ht. rewrite Rabs_mult. specialize (HK t Ht).
    pose proof (Rmax_l 1 p) as M1. fold x in M1. pose proof (Hw t ltac:(lra)). rewrite (Rabs_pos_eq (w t)) by lra. nra. }
  intros e He. destruct (liminf_plus _ _ _ _ LQ (liminf_scal (-1) _ _ L) e He) as [M HM]. exists M. intros t Ht. specialize (HM t Ht). cbv beta in HM.
  replace (Q t - w t * C n t) with (Q t + -1 * (w t * C n t)) by ring. exact HM.
Qed.

Definition Gv x := Q x / w x.
Lemma err_G n x : 0 < x -> Gv x - C n x = (Q x - w x * C n x) / w x.
Proof. intros Hx. unfold Gv. pose proof (Hw x Hx). generalize (C n x). intros c. field. lra. Qed.

(** its sign is that of dd n *)
Lemma err_sign n x s : 1 <= x -> p <= x -> 0 <= s * dd n -> 0 <= s * (Gv x - C n x).
Proof.
  intros H1 Hp Hs. rewrite err_G by lra. replace (s * _) with (s * (Q x - w x * C n x) / w x) by (unfold Rdiv; ring).
  apply Rmult_le_pos; [|apply Rlt_le, Rinv_0_lt_compat, Hw; lra].
  apply (frominf (fun t => s * (Q t - w t * C n t)) (fun t => s * - (w t * dd n / (t * q n t) ^ 2))).
  - intros t Ht. apply (derivable_pt_lim_scal (fun t => Q t - w t * C n t)), err_deriv; lra.
  - intros t Ht. pose proof (Hw t ltac:(lra)). pose proof (q_pos t n ltac:(lra) ltac:(lra)) as P.
    replace (s * - _) with (- ((s * dd n) * (w t * / (t * q n t) ^ 2))) by (field; lra).
    assert (0 < (t * q n t) ^ 2) as P2 by (apply pow_lt; nra). pose proof (Rinv_0_lt_compat _ P2).
    assert (0 <= (s * dd n) * (w t * / (t * q n t) ^ 2)) by (apply Rmult_le_pos; [exact Hs|nra]). lra.
  - pose proof (liminf_scal s _ _ (err_lim n)) as L. rewrite Rmult_0_r in L. exact L.
Qed.

(** ... and its size *)
Definition y n t := q (S n) t / q n t - (t + INR n + 2 - p).
Lemma y_pos n t : 0 < t -> p <= t -> 0 <= y n t.
Proof.
  intros Ht Hp. destruct (q_grow t n Ht Hp) as [P G]. unfold y. apply Rle_0_minus. apply Rmult_le_reg_r with (1 := P).
  unfold Rdiv. rewrite Rmult_assoc, Rinv_l; lra.
Qed.
Lemma hyp_deriv n t : 0 < t -> p <= t -> derivable_pt_lim (fun t => w t / (t * q n t ^ 2)) t (- (w t * (t - p + 1 + 2 * y n t) / (t * q n t) ^ 2)).
Proof.
  intros Ht Hp. pose proof (q_pos t n Ht Hp) as P. pose proof (q_deriv n t ltac:(lra)) as D0.
  pose proof (derivable_pt_lim_mult (q n) (q n) t _ _ D0 D0) as D00.
  pose proof (derivable_pt_lim_mult id _ t _ _ (derivable_pt_lim_id t) D00) as D1.
  assert (0 < q n t * q n t) by nra.
  pose proof (derivable_pt_lim_div w _ t _ _ (Dw t Ht) D1 ltac:(unfold mult_fct, id; nra)) as D2.
  apply dext with (f := (w / (id * (q n * q n)))%F); [intros u; unfold mult_fct, div_fct, id; f_equal; ring|].
  eapply deq; [|exact D2]. unfold mult_fct, div_fct, id, Rsqr, y. field. lra.
Qed.
Lemma err_size n x Y : 1 <= x -> p <= x -> 0 <= Y -> (forall t, x <= t -> Y <= y n t) ->
  Rabs (Gv x - C n x) <= Rabs (dd n) / (x * q n x ^ 2 * (x - p + 1 + 2 * Y)).
Proof.
  intros H1 Hp HY Hy. rewrite err_G by lra. set (m := x - p + 1 + 2 * Y). assert (0 < m) as Pm by (subst m; lra).
  pose proof (Hw x ltac:(lra)) as Pw. pose proof (q_pos x n ltac:(lra) ltac:(lra)) as Pq. assert (0 < q n x ^ 2) as Pq2 by (apply pow_lt; exact Pq).
  assert (forall s, Rabs s = 1 -> 0 <= Rabs (dd n) / m * (w x / (x * q n x ^ 2)) + s * (Q x - w x * C n x)) as F.
  { intros s Hs. apply (frominf (fun t => Rabs (dd n) / m * (w t / (t * q n t ^ 2)) + s * (Q t - w t * C n t))
      (fun t => Rabs (dd n) / m * (- (w t * (t - p + 1 + 2 * y n t) / (t * q n t) ^ 2)) + s * - (w t * dd n / (t * q n t) ^ 2))).
    - intros t Ht. apply (derivable_pt_lim_plus (fun t => Rabs (dd n) / m * (w t / (t * q n t ^ 2))) (fun t => s * (Q t - w t * C n t))).
      + apply (derivable_pt_lim_scal (fun t => w t / (t * q n t ^ 2))), hyp_deriv; lra.
      + apply (derivable_pt_lim_scal (fun t => Q t - w t * C n t)), err_deriv; lra.
    - intros t Ht. pose proof (Hw t ltac:(lra)) as Pt. pose proof (q_pos t n ltac:(lra) ltac:(lra)) as P.
      assert (0 < (t * q n t) ^ 2) as P2 by (apply pow_lt; nra). pose proof (Rinv_0_lt_compat _ P2) as P3.
      assert (m <= t - p + 1 + 2 * y n t) as M by (specialize (Hy t Ht); subst m; lra). set (z := t - p + 1 + 2 * y n t) in *.
      replace (_ + _) with (- ((w t * / (t * q n t) ^ 2) * (Rabs (dd n) * (z / m) + s * dd n))) by (field; lra).
      assert (1 <= z / m) by (apply Rmult_le_reg_r with m; [exact Pm|]; unfold Rdiv; rewrite Rmult_assoc, Rinv_l; lra).
      assert (- Rabs (dd n) <= s * dd n).
      { pose proof (Rle_abs (- (s * dd n))) as B. rewrite Rabs_Ropp, Rabs_mult, Hs in B. lra. }
      pose proof (Rabs_pos (dd n)). assert (0 <= Rabs (dd n) * (z / m) + s * dd n) by nra. assert (0 < w t * / (t * q n t) ^ 2) by nra. nra.
    - pose proof (liminf_scal s _ _ (err_lim n)) as L1.
      assert (liminf (fun t => w t / (t * q n t ^ 2)) 0) as L2.
      { apply liminf_bound with (g := w) (K := 1) (x := x); [|exact Lw]. intros t Ht. pose proof (Hw t ltac:(lra)) as Pt.
        pose proof (q_ge1 t n ltac:(lra) ltac:(lra)) as G. assert (1 <= t * q n t ^ 2) as G2 by (assert (1 <= q n t ^ 2) by (cbn [pow]; nra); nra).
        rewrite Rabs_pos_eq by (apply Rlt_le, Rdiv_lt_0_compat; lra). rewrite Rmult_1_l. apply Rmult_le_reg_r with (t * q n t ^ 2); [lra|].
        unfold Rdiv. rewrite Rmult_assoc, Rinv_l by lra. nra. }
      pose proof (liminf_scal (Rabs (dd n) / m) _ _ L2) as L3. rewrite Rmult_0_r in L1, L3.
      pose proof (liminf_plus _ _ _ _ L3 L1) as L. rewrite Rplus_0_r in L. exact L. }
  pose proof (F 1 Rabs_R1) as F1. pose proof (F (-1) ltac:(rewrite Rabs_left; lra)) as F2.
  assert (Rabs (dd n) / (x * q n x ^ 2 * m) = Rabs (dd n) / m * (w x / (x * q n x ^ 2)) / w x) as -> by (field; lra).
  unfold Rdiv at 1. rewrite Rabs_mult, (Rabs_pos_eq (/ w x)) by (apply Rlt_le, Rinv_0_lt_compat; exact Pw).
  apply Rmult_le_compat_r; [apply Rlt_le, Rinv_0_lt_compat; exact Pw|]. apply Rabs_le. lra.
Qed.

(** the ratio of consecutive denominators *)
Lemma y_rec n t : 0 < t -> p <= t -> y (S n) t = INR (S n) * (t + y n t) / (t + INR n + 2 - p + y n t).
Proof.
  intros Ht Hp. pose proof (q_pos t n Ht Hp) as P0. pose proof (q_pos t (S n) Ht Hp) as P1. unfold y.
  replace (t + INR n + 2 - p + (q (S n) t / q n t - (t + INR n + 2 - p))) with (q (S n) t / q n t) by ring.
  rewrite q_SS, S_INR. field. split; lra.
Qed.
End Frac.
