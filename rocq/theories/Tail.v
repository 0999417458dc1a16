(** The p-value without rounding: the continued fraction and the series both compute the chi-squared tail. *)
From Coq Require Import Reals Lra Lia Psatz ZArith List Bool.
From Flocq Require Import Core.Core IEEE754.BinarySingleNaN.
From Verif Require Import Base Spec NDArray Float64 FloatProofs ArrayOps Stat GammaGen TailSpec.
Open Scope R_scope.

(** * The integrals of e^(-xt) t^i (1+t)^k over the positive t *)

Fixpoint J (x : R) (k i : nat) : R :=
  match k with O => INR (fact i) / x ^ S i | S k' => J x k' i + J x k' (S i) end.

Section Frac.
Context (x : R) (Hx : 0 < x).
Notation J := (J x).

Lemma J_pos k : forall i, 0 < J k i.
Proof.
  induction k as [|k IH]; intros i; cbn [Tail.J].
  - apply Rdiv_lt_0_compat; [apply INR_fact_lt_0|apply pow_lt; exact Hx].
  - pose proof (IH i). pose proof (IH (S i)). lra.
Qed.
Lemma J_S k i : J (S k) i = J k i + J k (S i). Proof. reflexivity. Qed.

(** integration by parts *)
Lemma J_parts k : forall i, x * J k i = INR i * J k (Nat.pred i) + INR k * J (Nat.pred k) i + match i with O => 1 | _ => 0 end.
Proof.
  induction k as [|k IH]; intros i.
  - cbn [Tail.J Nat.pred]. rewrite Rmult_0_l. destruct i as [|i].
    + cbn. field. lra.
    + cbn [Nat.pred]. change (fact (S i)) with (S i * fact i)%nat. rewrite mult_INR.
      assert (x ^ S i <> 0) by (apply pow_nonzero; lra). change (x ^ S (S i)) with (x * x ^ S i). field. split; [assumption|lra].
  - rewrite J_S, Rmult_plus_distr_l, (IH i), (IH (S i)). cbn [Nat.pred].
    assert (INR k * J (Nat.pred k) i + INR k * J (Nat.pred k) (S i) = INR k * J k i) as E.
    { destruct k as [|k]; [rewrite !Rmult_0_l; lra|]. cbn [Nat.pred]. rewrite J_S. ring. }
    destruct i as [|i]; rewrite !S_INR in *; cbn [Nat.pred INR] in *; rewrite ?J_S in *; lra.
Qed.

(** the value of the continued fraction *)
Lemma J0_sum k : INR (fact k) / x ^ S k * exp_upto k x = J k 0.
Proof.
  induction k as [|k IH]; [unfold exp_upto; cbn; field; lra|].
  pose proof (J_parts (S k) 0) as P. cbn [Nat.pred INR] in P. rewrite Rmult_0_l, <- IH in P.
  apply (Rmult_eq_reg_l x); [|lra]. rewrite P. unfold exp_upto. rewrite tech5. change (fact (S k)) with (S k * fact k)%nat. rewrite mult_INR.
  assert (x ^ k <> 0) by (apply pow_nonzero; lra). pose proof (INR_fact_neq_0 k). assert (INR (S k) <> 0) by (apply not_0_INR; lia).
  change (match k with O => 1 | S _ => INR k + 1 end) with (INR (S k)). cbn [pow].
  field. repeat split; lra || assumption.
Qed.

(** ** One step of the recurrence *)
Lemma J_step k n : INR k * J (Nat.pred k) (S (S n)) = INR (S n) * J (S k) n - (x + INR (S n) - INR k) * J k (S n).
Proof.
  pose proof (J_parts k (S n)) as P. cbn [Nat.pred] in P. rewrite J_S.
  assert (INR k * J k (S n) = INR k * J (Nat.pred k) (S n) + INR k * J (Nat.pred k) (S (S n))) as E.
  { destruct k as [|k]; [rewrite !Rmult_0_l; lra|]. cbn [Nat.pred]. rewrite J_S. ring. }
  lra.
Qed.

(** ** The loop *)
Context (m : nat) (Hm : (1 <= m)%nat) (Hxm : INR m <= x) (acu oflo uflo : R) (lg : R -> R) (Hacu : 0 < acu) (Ho : 0 < oflo).
Notation G := (J (Nat.pred m) 0).
Notation A := (reals acu oflo uflo lg).

Lemma frac_S n f a b t g p0 p1 p2 p3 : frac_gen A (S n) f a b t g p0 p1 p2 p3 =
  let an := (a + 1) * (t + 1) in let p4 := (b + 2) * p2 - an * p0 in let p5 := (b + 2) * p3 - an * p1 in
  let next gin := if Rle_bool oflo (Rabs p4) then frac_gen A n f (a + 1) (b + 2) (t + 1) gin (p2 / oflo) (p3 / oflo) (p4 / oflo) (p5 / oflo)
                  else frac_gen A n f (a + 1) (b + 2) (t + 1) gin p2 p3 p4 p5 in
  if negb (Req_bool p5 0) then
    let rn := p4 / p5 in let dif := Rabs (g - rn) in
    if Rle_bool dif acu && Rle_bool dif (acu * rn) then (1 - f * g, true) else next rn
  else next g.
Proof. reflexivity. Qed.

(** the last step: the convergent is the value and stays so *)
Lemma frac_last n f a b t p0 p1 p2 p3 : 0 < p3 -> p2 = G * p3 -> 0 < b + 2 ->
  (a + 1) * (t + 1) = 0 \/ (p0 = G * p1 /\ (a + 1) * (t + 1) * p1 < (b + 2) * p3) ->
  frac_gen A (S n) f a b t G p0 p1 p2 p3 = (1 - f * G, true).
Proof.
  intros H3 E2 Hb Ha. rewrite frac_S. cbv zeta.
  set (p4 := (b + 2) * p2 - (a + 1) * (t + 1) * p0). set (p5 := (b + 2) * p3 - (a + 1) * (t + 1) * p1).
  assert (0 < p5 /\ p4 = G * p5) as [H5 E4].
  { subst p4 p5. destruct Ha as [->|[E0 H0]].
    - split; [rewrite Rmult_0_l; pose proof (Rmult_lt_0_compat _ _ Hb H3); lra|]. rewrite E2. ring.
    - split; [lra|]. rewrite E2, E0. ring. }
  rewrite Req_bool_false by lra. cbn [negb]. replace (p4 / p5) with G by (rewrite E4; field; lra).
  rewrite Rminus_diag_eq, Rabs_R0 by reflexivity. pose proof (J_pos (Nat.pred m) 0).
  rewrite !Rle_bool_true by (try apply Rmult_le_pos; lra). reflexivity.
Qed.

(** the value lies between two consecutive convergents *)
Lemma between u v d e : 0 <= e -> u = d -> v = - (e * d) -> Rabs u <= Rabs (u - v).
Proof.
  intros He -> ->. replace (d - - (e * d)) with ((1 + e) * d) by ring. rewrite Rabs_mult, (Rabs_pos_eq (1 + e)) by lra.
  pose proof (Rabs_pos d). nra.
Qed.

Lemma div1 u : u / 1 = u. Proof. field. Qed.

Definition good (fuel : nat) (f a b t g p0 p1 p2 p3 : R) : Prop :=
  exists g', frac_gen A fuel f a b t g p0 p1 p2 p3 = (1 - f * g', true) /\ Rabs (g' - G) <= acu.

Lemma good_G fuel f a b t g p0 p1 p2 p3 : frac_gen A fuel f a b t g p0 p1 p2 p3 = (1 - f * G, true) -> good fuel f a b t g p0 p1 p2 p3.
Proof. intros E. exists G. split; [exact E|]. rewrite Rminus_diag_eq, Rabs_R0 by reflexivity. lra. Qed.

Lemma good_step n f a b t g p0 p1 p2 p3 :
  let p4 := (b + 2) * p2 - (a + 1) * (t + 1) * p0 in let p5 := (b + 2) * p3 - (a + 1) * (t + 1) * p1 in
  0 < p5 -> Rabs (g - G) <= Rabs (g - p4 / p5) ->
  (forall c, 0 < c -> good n f (a + 1) (b + 2) (t + 1) (p4 / p5) (p2 / c) (p3 / c) (p4 / c) (p5 / c)) -> good (S n) f a b t g p0 p1 p2 p3.
Proof.
  intros p4 p5 H5 Hb N. unfold good. rewrite frac_S. cbv zeta. fold p4 p5. rewrite Req_bool_false by lra. cbn [negb].
  destruct (Rle_bool_spec (Rabs (g - p4 / p5)) acu) as [Hd|Hd]; cbn [andb];
    [destruct (Rle_bool (Rabs (g - p4 / p5)) (acu * (p4 / p5))); [exists g; split; [reflexivity|lra]|]|];
    (destruct (Rle_bool oflo (Rabs p4)); [apply N; exact Ho|]; pose proof (N 1 ltac:(lra)) as N1; rewrite !div1 in N1; exact N1).
Qed.

Lemma frac_loop k : forall n fuel f a b t p0 p1 p2 p3 s, m = (S n + 2 + k)%nat -> (k + 2 <= fuel)%nat ->
  t = INR n -> a = INR (S n) - INR m -> b = x + 2 - INR m + 2 * INR n ->
  p2 - G * p3 = s * J k (S n) -> p0 - G * p1 = - (s / INR (S k)) * J (S k) n -> 0 < p1 -> 0 < p3 ->
  good fuel f a b t (p2 / p3) p0 p1 p2 p3.
Proof.
  induction k as [k IH] using lt_wf_ind; intros n fuel f a b t p0 p1 p2 p3 s Em Hf Et Ea Eb E2 E0 H1 H3.
  destruct fuel as [|fuel]; [lia|].
  set (p4 := (b + 2) * p2 - (a + 1) * (t + 1) * p0). set (p5 := (b + 2) * p3 - (a + 1) * (t + 1) * p1).
  pose proof (pos_INR n) as Pn. pose proof (pos_INR k) as Pk. pose proof J_pos as PJ. assert (0 < INR (S k)) as PSk by (apply lt_0_INR; lia).
  assert (INR m = INR n + 3 + INR k) as EM by (rewrite Em, !plus_INR, S_INR; cbn [INR]; lra).
  assert (a + 1 = - INR (S k)) as Ea1 by (rewrite Ea, !S_INR; lra). assert (t + 1 = INR (S n)) as Et1 by (rewrite S_INR; lra).
  assert (b + 2 = x + INR (S n) - INR k) as Eb1 by (rewrite S_INR; lra).
  assert (0 < b + 2) as Pb by lra. assert (0 < INR (S n)) as PSn by (rewrite S_INR; lra).
  assert (0 < p5) as H5.
  { subst p5. rewrite Ea1, Et1. pose proof (Rmult_lt_0_compat _ _ Pb H3). pose proof (Rmult_lt_0_compat _ _ (Rmult_lt_0_compat _ _ PSk PSn) H1). lra. }
  assert (p4 - G * p5 = - (s * (INR k * J (Nat.pred k) (S (S n))))) as E4.
  { subst p4 p5. replace (_ - G * _) with ((b + 2) * (p2 - G * p3) - (a + 1) * (t + 1) * (p0 - G * p1)) by ring.
    rewrite E2, E0, Ea1, Et1, Eb1, (J_step k n). field. lra. }
  assert (p2 / p3 - G = s * J k (S n) / p3) as D2 by (rewrite <- E2; field; lra).
  assert (p4 / p5 - G = - (s * (INR k * J (Nat.pred k) (S (S n)))) / p5) as D4 by (rewrite <- E4; field; lra).
  apply good_step; fold p4 p5; [exact H5| |].
  - pose proof (PJ k (S n)) as Q1. pose proof (PJ (Nat.pred k) (S (S n))) as Q2.
    replace (p2 / p3 - p4 / p5) with ((p2 / p3 - G) - (p4 / p5 - G)) by ring.
    apply between with (d := p2 / p3 - G) (e := INR k * J (Nat.pred k) (S (S n)) / p5 / (J k (S n) / p3)); [|reflexivity|].
    + unfold Rdiv. assert (0 < / p5) by (apply Rinv_0_lt_compat; lra).
      assert (0 < / (J k (S n) * / p3)) by (apply Rinv_0_lt_compat, Rmult_lt_0_compat; [exact Q1|apply Rinv_0_lt_compat; lra]).
      repeat apply Rmult_le_pos; lra.
    + rewrite D2, D4. field. lra.
  - intros c Hc. assert (forall u v, u / c - G * (v / c) = (u - G * v) / c) as Ec by (intros; field; lra).
    assert (p4 / p5 = (p4 / c) / (p5 / c)) as -> by (field; lra).
    destruct k as [|k].
    + assert (p4 = G * p5) as E4' by (cbn [INR] in E4; lra). destruct fuel as [|fuel]; [lia|].
      assert (p4 / c / (p5 / c) = G) as -> by (rewrite E4'; field; lra).
      apply good_G, frac_last.
      * apply Rdiv_lt_0_compat; lra.
      * rewrite E4'. field. lra.
      * lra.
      * left. cbn [INR] in Ea1. rewrite Ea1. ring.
    + cbn [Nat.pred] in E4. apply (IH k ltac:(lia) (S n)) with (s := - (s * INR (S k)) / c); try lia.
      * exact Et1.
      * rewrite Ea, !S_INR. ring.
      * rewrite Eb, !S_INR. ring.
      * rewrite Ec, E4. field. lra.
      * rewrite Ec, E2. assert (0 < INR (S k)) by (apply lt_0_INR; lia). field. split; lra.
      * apply Rdiv_lt_0_compat; lra.
      * apply Rdiv_lt_0_compat; lra.
Qed.

(** the whole branch *)
Lemma frac_value fuel f : (m <= fuel)%nat ->
  good fuel f (1 - INR m) (1 - INR m + x + 1) 0 ((x + 1) / (x * (1 - INR m + x + 1))) 1 x (x + 1) (x * (1 - INR m + x + 1)).
Proof.
  intros Hf. set (b := 1 - INR m + x + 1). set (p3 := x * b).
  assert (0 < b) as Pb by (subst b; lra). assert (0 < p3) as P3 by (apply Rmult_lt_0_compat; assumption).
  pose proof (J_parts (Nat.pred m) 0) as P1. cbn [Nat.pred INR] in P1. rewrite Rmult_0_l in P1.
  destruct fuel as [|fuel]; [lia|].
  assert (m = 1 \/ m = 2 \/ exists k, m = S (S (S k)))%nat as [Em|[Em|[k Em]]].
  { destruct m as [|[|[|k]]]; [lia|auto|auto|]. right. right. exists k. reflexivity. }
  - (* one: e^-x *)
    rewrite Em in P1. cbn [Nat.pred INR] in P1. assert (J 0 0 = / x) as EG by (apply (Rmult_eq_reg_l x); [rewrite Rinv_r; lra|lra]).
    assert (b = x + 1) as Eb by (subst b; rewrite Em; cbn [INR]; ring).
    apply good_G. rewrite Em. cbn [Nat.pred].
    replace ((x + 1) / p3) with (J 0 0) by (subst p3; rewrite EG, Eb; field; lra).
    pose proof (frac_last fuel f (1 - INR 1) b 0 1 x (x + 1) p3) as Q. rewrite Em in Q. cbn [Nat.pred] in Q. apply Q.
    + exact P3.
    + subst p3. rewrite EG, Eb. field. lra.
    + lra.
    + right. split; [rewrite EG; field; lra|]. cbn [INR]. subst p3. rewrite Eb. nra.
  - assert (J 1 0 = / x + / (x * x)) as EG.
    { rewrite Em in P1. cbn [Nat.pred] in P1. assert (J 0 0 = / x) as E0 by (cbn; field; lra). rewrite E0 in P1. cbn [INR] in P1.
      apply (Rmult_eq_reg_l x); [|lra]. rewrite P1. field. lra. }
    assert (b = x) as Eb by (subst b; rewrite Em; cbn [INR]; ring).
    apply good_G. rewrite Em. cbn [Nat.pred].
    replace ((x + 1) / p3) with (J 1 0) by (subst p3; rewrite EG, Eb; field; lra).
    pose proof (frac_last fuel f (1 - INR 2) b 0 1 x (x + 1) p3) as Q. rewrite Em in Q. cbn [Nat.pred] in Q. apply Q.
    + exact P3.
    + subst p3. rewrite EG, Eb. field. lra.
    + lra.
    + left. cbn [INR]. ring.
  - rewrite Em in P1. pose proof (J_parts (S k) 0) as P2. cbn [Nat.pred INR] in P1, P2. rewrite Rmult_0_l in P2.
    set (M := INR (S (S (S k)))) in *.
    assert (INR (S (S k)) = M - 1) as M1 by (subst M; rewrite (S_INR (S (S k))); ring).
    assert (INR (S k) = M - 2) as M2 by (rewrite S_INR in M1; lra).
    change (match k with O => 1 | S _ => INR k + 1 end) with (INR (S k)) in *. rewrite M2 in *.
    assert (J (S k) 0 = J k 0 + J k 1) as P3' by reflexivity.
    apply (frac_loop k 0) with (s := (M - 1) * (M - 2)); try lia.
    + reflexivity.
    + cbn [INR]. subst M. rewrite Em. ring.
    + cbn [INR]. subst b M. rewrite Em. ring.
    + subst p3 b. rewrite Em. cbn [Nat.pred]. fold M.
      replace (J (S (S k)) 0 * (x * (1 - M + x + 1))) with (x * J (S (S k)) 0 * (1 - M + x + 1)) by ring. rewrite P1.
      assert (x * J (S k) 0 = 1 + (M - 2) * J k 0) as P2' by lra.
      transitivity ((M - 1) * (1 + (M - 2) * J (S k) 0 - x * J (S k) 0)); [ring|]. rewrite P2', P3'. ring.
    + rewrite Em. cbn [Nat.pred]. rewrite M2. rewrite (Rmult_comm (J (S (S k)) 0) x), P1. field. assert (0 < INR (S k)) by (apply lt_0_INR; lia). lra.
    + exact Hx.
    + exact P3.
Qed.
End Frac.

(** * The exponential series *)

Notation a_ x := (fun j : nat => x ^ j / INR (fact j)).

Lemma exp_cv x : Un_cv (fun n => exp_upto n x) (exp x).
Proof.
  unfold exp. destruct (exist_exp x) as [l Hl]. cbn [proj1_sig]. unfold exp_in, infinite_sum in Hl.
  intros e He. destruct (Hl e He) as [N HN]. exists N. intros n Hn. specialize (HN n Hn). unfold exp_upto.
  rewrite (sum_eq _ (fun i => / INR (fact i) * x ^ i)) by (intros; unfold Rdiv; ring). exact HN.
Qed.
Lemma exp_upto_S n x : exp_upto (S n) x = exp_upto n x + x ^ S n / INR (fact (S n)). Proof. reflexivity. Qed.
Lemma term_S n x : x ^ S n / INR (fact (S n)) = x ^ n / INR (fact n) * (x / INR (S n)).
Proof.
  change (fact (S n)) with (S n * fact n)%nat. rewrite mult_INR. cbn [pow]. pose proof (INR_fact_neq_0 n).
  assert (INR (S n) <> 0) by (apply not_0_INR; lia). field. split; assumption.
Qed.
Lemma term_pos n x : 0 <= x -> 0 <= x ^ n / INR (fact n).
Proof. intros. unfold Rdiv. apply Rmult_le_pos; [apply pow_le; assumption|]. left. apply Rinv_0_lt_compat, INR_fact_lt_0. Qed.

Lemma exp_lower n x : 0 <= x -> exp_upto n x <= exp x.
Proof.
  intros Hx. apply (growing_ineq (fun n => exp_upto n x)); [|apply exp_cv].
  intros k. rewrite exp_upto_S. pose proof (term_pos (S k) x Hx). lra.
Qed.
(** the remainder *)
Lemma exp_upper n x c : 0 <= x -> 0 <= c -> x * (1 + c) <= INR (S n) * c -> exp x <= exp_upto n x + x ^ n / INR (fact n) * c.
Proof.
  intros Hx Hc H.
  assert (forall d, exp_upto (n + d) x + x ^ (n + d) / INR (fact (n + d)) * c <= exp_upto n x + x ^ n / INR (fact n) * c) as P.
  { induction d as [|d IH]; [rewrite Nat.add_0_r; lra|]. rewrite Nat.add_succ_r, exp_upto_S.
    apply Rle_trans with (2 := IH). rewrite term_S. pose proof (term_pos (n + d) x Hx) as T. set (t := x ^ (n + d) / INR (fact (n + d))) in *.
    assert (x / INR (S (n + d)) * (1 + c) <= c).
    { assert (0 < INR (S (n + d))) as Q by (apply lt_0_INR; lia). apply Rmult_le_reg_r with (1 := Q). unfold Rdiv.
      replace (x * / INR (S (n + d)) * (1 + c) * INR (S (n + d))) with (x * (1 + c)) by (field; lra).
      assert (INR (S n) <= INR (S (n + d))) by (apply le_INR; lia). nra. }
    nra. }
  apply Rnot_lt_le. intros Lt. set (B := exp_upto n x + x ^ n / INR (fact n) * c) in *.
  destruct (exp_cv x (exp x - B) ltac:(lra)) as [N HN]. specialize (HN (n + N)%nat ltac:(lia)).
  specialize (P N). pose proof (term_pos (n + N) x Hx). unfold R_dist in HN. apply Rabs_def2 in HN. nra.
Qed.

Lemma pow_fact_exp n x : 0 <= x -> x ^ n / INR (fact n) <= exp x.
Proof.
  intros Hx. apply Rle_trans with (exp_upto n x); [|apply exp_lower; exact Hx].
  destruct n as [|n]; [unfold exp_upto; cbn; lra|]. rewrite exp_upto_S. 
  assert (0 <= exp_upto n x); [|lra]. unfold exp_upto. apply cond_pos_sum. intros; apply term_pos; exact Hx.
Qed.

(** * The series branch *)

Section Series.
Context (x : R) (Hx : 0 < x) (m : nat) (Hm : (1 <= m)%nat) (Hxm : x <= INR m) (acu oflo uflo : R) (lg : R -> R).
Notation A := (reals acu oflo uflo lg).
Notation T := (x ^ m / INR (fact m)).

Lemma T_pos : 0 < T. Proof. apply Rdiv_lt_0_compat; [apply pow_lt; exact Hx|apply INR_fact_lt_0]. Qed.

Lemma series_S n rn t g : series_gen A (S n) x rn t g =
  if Rle_bool (t * x / (rn + 1)) acu then (g + t * x / (rn + 1), true) else series_gen A n x (rn + 1) (t * x / (rn + 1)) (g + t * x / (rn + 1)).
Proof. reflexivity. Qed.

(** the terms are bounded: after [h] steps every factor is at most 2/3 *)
Context (h : nat) (Hh : (m <= 2 * h)%nat) (Hacu : (2 / 3) ^ h <= acu).

Lemma series_loop n : forall fuel t g, (n + fuel = h + h)%nat -> (1 <= fuel)%nat ->
  t * T = x ^ (m + n) / INR (fact (m + n)) -> g * T = exp_upto (m + n) x - exp_upto (Nat.pred m) x ->
  0 <= t -> t <= 1 -> (forall i, n = (h + i)%nat -> t <= (2 / 3) ^ i) ->
  exists g' N, series_gen A fuel x (INR (m + n)) t g = (g', true) /\ (m < N)%nat /\
    x ^ N / INR (fact N) <= acu * T /\ g' * T = exp_upto N x - exp_upto (Nat.pred m) x.
Proof.
  intros fuel. revert n. induction fuel as [|fuel IH]; intros n t g Hn Hf Et Eg Ht0 Ht1 Hti; [lia|].
  rewrite series_S. pose proof T_pos as PT.
  replace (INR (m + n) + 1) with (INR (m + S n)) by (rewrite <- S_INR; f_equal; lia).
  assert (0 < INR (m + S n)) as PN by (apply lt_0_INR; lia).
  set (t' := t * x / INR (m + S n)).
  assert (t' * T = x ^ (m + S n) / INR (fact (m + S n))) as Et'.
  { rewrite Nat.add_succ_r, term_S, <- Et. subst t'. rewrite Nat.add_succ_r in *. field. split; [lra|apply INR_fact_neq_0]. }
  assert ((g + t') * T = exp_upto (m + S n) x - exp_upto (Nat.pred m) x) as Eg'.
  { rewrite Rmult_plus_distr_r, Eg, Et', Nat.add_succ_r, exp_upto_S. ring. }
  assert (0 <= t') as Ht0' by (subst t'; unfold Rdiv; apply Rmult_le_pos; [nra|left; apply Rinv_0_lt_compat, PN]).
  assert (INR m <= INR (m + S n)) as LN by (apply le_INR; lia).
  assert (forall r, x <= r * INR (m + S n) -> t' <= t * r) as Hr.
  { intros r Hr. subst t'. apply Rmult_le_reg_r with (1 := PN). replace (t * x / INR (m + S n) * INR (m + S n)) with (t * x) by (field; lra). nra. }
  assert (t' <= 1) as Ht1' by (pose proof (Hr 1 ltac:(lra)); lra).
  assert (forall i, S n = (h + i)%nat -> t' <= (2 / 3) ^ i) as Hti'.
  { intros i Ei. destruct i as [|i]; [cbn [pow]; exact Ht1'|]. specialize (Hti i ltac:(lia)).
    assert (t' <= t * (2 / 3)) as Q.
    { apply Hr. assert (3 * INR m <= 2 * INR (m + S n)); [|lra].
      replace 3 with (INR 3) by (cbn; lra). replace 2 with (INR 2) by (cbn; lra). rewrite <- !mult_INR. apply le_INR. lia. }
    cbn [pow]. lra. }
  destruct (Rle_bool_spec t' acu) as [Ha|Ha].
  - exists (g + t'), (m + S n)%nat. split; [reflexivity|]. split; [lia|]. split; [rewrite <- Et'; nra|exact Eg'].
  - destruct fuel as [|fuel'].
    + exfalso. specialize (Hti' h ltac:(lia)). lra.
    + apply (IH (S n)); try lia; assumption.
Qed.

Lemma series_value : (1 <= h)%nat -> exists g N, series_gen A (h + h) x (INR m) 1 1 = (g, true) /\ (m < N)%nat /\
  x ^ N / INR (fact N) <= acu * T /\ g * T = exp_upto N x - exp_upto (Nat.pred m) x.
Proof.
  intros H1. pose proof (series_loop 0 (h + h) 1 1) as Q. rewrite Nat.add_0_r in Q. apply Q; try lia; try lra.
  destruct m as [|k]; [lia|]. cbn [Nat.pred]. rewrite exp_upto_S. ring.
Qed.
End Series.

(** * The p-value *)

Section PVal.
Context (lg : R -> R) (m : nat) (Hm : (1 <= Z.of_nat m <= 10000)%Z) (X : R) (Hlg : lg (INR m) = ln (INR (fact (Nat.pred m)))).
Context (acu oflo uflo : R) (Hacu : (2 / 3) ^ 50 <= acu) (Ho : 0 < oflo) (Hu : 0 < uflo).
Notation A := (reals acu oflo uflo lg).
Notation y := (X / 2).
Definition weight : R := y ^ m * exp (- y) / INR (fact (Nat.pred m)).

Lemma weight_density : weight = X * density m X.
Proof.
  clear Hlg. unfold weight, density. destruct m as [|k]; [lia|]. cbn [Nat.pred].
  replace ((X / 2) ^ S k) with (X ^ S k / 2 ^ S k) by (unfold Rdiv; rewrite Rpow_mult_distr, pow_inv; reflexivity).
  cbn [pow]. assert (2 ^ k <> 0) by (apply pow_nonzero; lra). pose proof (INR_fact_neq_0 k). field. split; assumption.
Qed.
Lemma weight_exp : 0 < X -> exp (INR m * ln y - y - lg (INR m)) = weight.
Proof.
  intros P. rewrite Hlg. unfold weight, Rminus. rewrite !exp_plus, !exp_Ropp, exp_ln by apply INR_fact_lt_0.
  rewrite <- (Rpower_pow m y) by lra. reflexivity.
Qed.
Lemma dof_half : (IZR (u32 (2 * Z.of_nat m)) * (1 / 2) = INR m)%R.
Proof.
  unfold u32. rewrite Z.mod_small by lia. rewrite mult_IZR, <- INR_IZR_INZ. field.
Qed.
Lemma pval_eq : pvalue_gen A (2 * Z.of_nat m) X = let '(v, e) := gamain_gen A y (INR m) in (1 - v, Z.eqb e 0).
Proof.
  unfold pvalue_gen. change (o_ofZ R A (u32 (2 * Z.of_nat m))) with (IZR (u32 (2 * Z.of_nat m))).
  change (o_half R A) with (1 / 2). change (o_mul R A) with Rmult. rewrite dof_half. reflexivity.
Qed.
Lemma gam_eq : 0 < X -> gamain_gen A y (INR m) =
  if Rlt_bool weight uflo then (0, 3%Z)
  else if Rle_bool y 1 || Rlt_bool y (INR m)
  then let '(g, ok) := series_gen A (Z.to_nat 10000) y (INR m) 1 1 in (g * weight / INR m, if ok : bool then 0%Z else 5%Z)
  else let '(v, ok) := frac_gen A (Z.to_nat 10000) weight (1 - INR m) (1 - INR m + y + 1) 0 ((y + 1) / (y * (1 - INR m + y + 1))) 1 y (y + 1)
         (y * (1 - INR m + y + 1)) in (v, if ok : bool then 0%Z else 6%Z).
Proof.
  intros P. assert (0 < INR m) by (apply lt_0_INR; lia). unfold gamain_gen.
  cbn [reals o_ofZ o_half o_acu o_oflo o_uflo o_add o_sub o_mul o_div o_abs o_leb o_ltb o_eqb o_lgamma o_log o_exp].
  rewrite (Rle_bool_false (INR m) 0) by lra. rewrite (Rlt_bool_false y 0) by lra. rewrite (Req_bool_false y 0) by lra.
  rewrite weight_exp by exact P.
  replace (Rlt_bool (INR m * ln y - y - lg (INR m)) (ln uflo)) with (Rlt_bool weight uflo); [reflexivity|].
  rewrite <- weight_exp by exact P. set (arg := INR m * ln y - y - lg (INR m)).
  destruct (Rlt_bool_spec (exp arg) uflo) as [Q|Q]; symmetry; [apply Rlt_bool_true|apply Rlt_bool_false].
  - rewrite <- (ln_exp arg). apply ln_increasing; [apply exp_pos|exact Q].
  - rewrite <- (ln_exp arg). destruct Q as [Q|Q]; [left; apply ln_increasing; assumption|rewrite Q; lra].
Qed.
Lemma weight_pos : 0 < X -> 0 < weight.
Proof.
  intros P. rewrite <- weight_exp by exact P. apply exp_pos.
Qed.

Lemma steps10000 : Z.to_nat 10000 = (Z.to_nat 5000 + Z.to_nat 5000)%nat.
Proof. rewrite <- Z2Nat.inj_add by lia. reflexivity. Qed.

Lemma pval_tail : 0 < X -> uflo <= weight -> exists p, pvalue_gen A (2 * Z.of_nat m) X = (p, true) /\ Rabs (p - tail_mass m X) <= acu * weight.
Proof.
  intros P Hw. pose proof (weight_pos P) as PW. rewrite pval_eq, gam_eq by exact P. rewrite Rlt_bool_false by exact Hw.
  assert (0 < acu) as Pa by (apply Rlt_le_trans with (2 := Hacu), pow_lt; lra).
  assert (0 < y) as Py by lra. assert (0 < INR m) as Pm by (apply lt_0_INR; lia). assert (1 <= INR m) as Pm1 by (apply (le_INR 1); lia).
  pose proof (exp_pos (- y)) as PE. assert (exp (- y) * exp y = 1) as EE by (rewrite exp_Ropp; apply Rinv_l; pose proof (exp_pos y); lra).
  assert (INR (fact m) = INR m * INR (fact (Nat.pred m))) as EF.
  { rewrite <- mult_INR. f_equal. destruct m; [lia|reflexivity]. }
  pose proof (INR_fact_lt_0 (Nat.pred m)) as PF.
  destruct (Rle_bool y 1 || Rlt_bool y (INR m)) eqn:Eb.
  - assert (y <= INR m) as Hy.
    { apply orb_prop in Eb as [Eb|Eb]; revert Eb; [destruct (Rle_bool_spec y 1)|destruct (Rlt_bool_spec y (INR m))]; intros; (lra || discriminate). }
    rewrite steps10000. 
    destruct (series_value y Py m ltac:(lia) Hy acu oflo uflo lg (Z.to_nat 5000)) as (g & N & -> & HN & HT & Eg).
    { lia. }
    { apply Rle_trans with (2 := Hacu). replace (Z.to_nat 5000) with (50 + Z.to_nat 4950)%nat by lia. rewrite pow_add.
      rewrite <- (Rmult_1_r ((2 / 3) ^ 50)) at 2. apply Rmult_le_compat_l; [apply pow_le; lra|].
      rewrite <- (pow1 (Z.to_nat 4950)). apply pow_incr. lra. }
    { lia. }
    eexists. split; [reflexivity|].
    set (T := y ^ m / INR (fact m)) in *.
    assert (weight = INR m * T * exp (- y)) as EW by (unfold weight, T; rewrite EF; field; lra).
    replace (1 - g * weight / INR m - tail_mass m X) with (exp (- y) * (exp y - exp_upto N y)).
    2: { unfold tail_mass. rewrite Rmult_minus_distr_l, EE, EW.
         replace (g * (INR m * T * exp (- y)) / INR m) with (exp (- y) * (g * T)) by (field; lra). rewrite Eg. ring. }
    pose proof (exp_lower N y ltac:(lra)) as Q1.
    assert (exp y <= exp_upto N y + y ^ N / INR (fact N) * INR m) as Q2.
    { apply exp_upper; try lra. assert (INR m <= INR N) by (apply le_INR; lia). rewrite S_INR. nra. }
    rewrite Rabs_pos_eq by (apply Rmult_le_pos; lra).
    rewrite EW. replace (acu * (INR m * T * exp (- y))) with (exp (- y) * (acu * T * INR m)) by ring.
    apply Rmult_le_compat_l; [lra|]. nra.
  - apply orb_false_elim in Eb as [Eb1 Eb2].
    assert (INR m <= y) as Hy by (revert Eb2; destruct (Rlt_bool_spec y (INR m)); intros; (lra || discriminate)).
    destruct (frac_value y Py m ltac:(lia) Hy acu oflo uflo lg Pa Ho (Z.to_nat 10000) weight ltac:(lia)) as (g & -> & Hg).
    eexists. split; [reflexivity|].
    assert (tail_mass m X = weight * J y (Nat.pred m) 0) as ->.
    { rewrite <- J0_sum by exact Py. unfold tail_mass, weight. replace (S (Nat.pred m)) with m by lia. field.
      split; [apply pow_nonzero; lra|apply INR_fact_neq_0]. }
    replace (1 - (1 - weight * g) - weight * J y (Nat.pred m) 0) with (weight * (g - J y (Nat.pred m) 0)) by ring.
    rewrite Rabs_mult, (Rabs_pos_eq weight) by lra. nra.
Qed.

Lemma pval_under : 0 < X -> weight < uflo -> pvalue_gen A (2 * Z.of_nat m) X = (1, false).
Proof.
  intros P Hw. rewrite pval_eq, gam_eq by exact P. rewrite Rlt_bool_true by exact Hw. cbn. f_equal. ring.
Qed.
Lemma pval_zero : X = 0 -> pvalue_gen A (2 * Z.of_nat m) X = (1, true) /\ tail_mass m X = 1.
Proof.
  clear Hlg. intros E. split.
  - rewrite pval_eq, E. unfold gamain_gen.
    cbn [reals o_ofZ o_half o_acu o_oflo o_uflo o_add o_sub o_mul o_div o_abs o_leb o_ltb o_eqb o_lgamma o_log o_exp].
    assert (0 < INR m) by (apply lt_0_INR; lia). replace (0 / 2) with 0 by field.
    rewrite Rle_bool_false by lra. rewrite Rlt_bool_false by lra. rewrite Req_bool_true by lra. cbn. f_equal. ring.
  - unfold tail_mass. rewrite E. replace (0 / 2) with 0 by field. rewrite Ropp_0, exp_0, Rmult_1_l.
    generalize (Nat.pred m). induction n as [|n IH]; [unfold exp_upto; cbn; field|]. rewrite exp_upto_S, IH, pow_ne_zero by lia. field. apply INR_fact_neq_0.
Qed.
(** a bound that does not mention the density *)
Lemma weight_le : 0 < X -> weight <= INR m.
Proof.
  clear Hlg. intros P. pose proof (pow_fact_exp m y ltac:(lra)) as Q. pose proof (exp_pos (- y)) as PE.
  assert (exp (- y) * exp y = 1) as EE by (rewrite exp_Ropp; apply Rinv_l; pose proof (exp_pos y); lra).
  assert (INR (fact m) = INR m * INR (fact (Nat.pred m))) as EF.
  { rewrite <- mult_INR. f_equal. destruct m; [lia|reflexivity]. }
  pose proof (INR_fact_lt_0 (Nat.pred m)) as PF. assert (0 < INR m) as Pm by (apply lt_0_INR; lia).
  assert (weight = INR m * (y ^ m / INR (fact m)) * exp (- y)) as -> by (unfold weight; rewrite EF; field; lra).
  apply Rle_trans with (INR m * exp y * exp (- y)); [|rewrite Rmult_assoc, (Rmult_comm (exp y)), EE; lra].
  apply Rmult_le_compat_r; [lra|]. apply Rmult_le_compat_l; lra.
Qed.
End PVal.

(** * The constants of the code *)

Lemma acu_val : B2R d_1em8 = IZR 6044629098073146 * / IZR (2 ^ 79).
Proof.
  assert (B2SF d_1em8 = SpecFloat.S754_finite false 6044629098073146 (-79)) as E by (vm_compute; reflexivity).
  destruct d_1em8; try discriminate E. cbn in E. injection E as -> -> ->. cbn [B2R cond_Zopp]. unfold F2R. cbn [Fnum Fexp]. reflexivity.
Qed.
Lemma ratio_le a b c d : 0 < b -> 0 < d -> a * d <= c * b -> a * / b <= c * / d.
Proof.
  intros Pb Pd H. apply Rmult_le_reg_r with (b * d); [apply Rmult_lt_0_compat; assumption|].
  replace (a * / b * (b * d)) with (a * d) by (field; lra). replace (c * / d * (b * d)) with (c * b) by (field; lra). exact H.
Qed.
Lemma acu_big : (2 / 3) ^ 50 <= B2R d_1em8.
Proof.
  rewrite acu_val. unfold Rdiv. rewrite Rpow_mult_distr, pow_inv, !pow_IZR.
  apply ratio_le; [apply IZR_lt; reflexivity|apply IZR_lt; reflexivity|]. rewrite <- !mult_IZR. apply IZR_le. vm_compute. discriminate.
Qed.
Lemma pos_const d : d_ltb d_zero d = true -> is_finite d = true -> 0 < B2R d.
Proof.
  destruct d as [s|s| |[] mm e v]; intros H F; try discriminate.
  cbn [B2R cond_Zopp]. apply F2R_gt_0. cbn. lia.
Qed.
Lemma oflo_pos : 0 < B2R d_1e37. Proof. apply pos_const; vm_compute; reflexivity. Qed.
Lemma uflo_pos : 0 < B2R d_1em37. Proof. apply pos_const; vm_compute; reflexivity. Qed.

Lemma tail_claim lg m X : (1 <= Z.of_nat m <= 10000)%Z -> lg (INR m) = ln (INR (fact (Nat.pred m))) -> 0 <= X ->
  (0 < X -> X * density m X < B2R d_1em37 -> pvalue_gen (real lg) (2 * Z.of_nat m) X = (1, false)) /\
  (X = 0 \/ B2R d_1em37 <= X * density m X ->
     exists p, pvalue_gen (real lg) (2 * Z.of_nat m) X = (p, true) /\ Rabs (p - tail_mass m X) <= B2R d_1em8 * (X * density m X)).
Proof.
  intros Hm Hlg HX. rewrite <- (weight_density m Hm X). unfold real. split.
  - intros P W. apply pval_under; assumption || exact uflo_pos.
  - intros W. destruct (Req_dec X 0) as [E|E].
    + exists 1. destruct (pval_zero lg m Hm X (B2R d_1em8) (B2R d_1e37) (B2R d_1em37) E) as [Q ->]. split; [exact Q|].
      rewrite Rminus_diag_eq, Rabs_R0 by reflexivity. rewrite (weight_density m Hm X), E. lra.
    + destruct W as [W|W]; [contradiction|]. apply pval_tail; try assumption; [exact acu_big|exact oflo_pos|exact uflo_pos|lra].
Qed.
Lemma tail_bound m X : (1 <= Z.of_nat m <= 10000)%Z -> 0 <= X -> X * density m X <= INR m.
Proof.
  intros Hm HX. destruct (Req_dec X 0) as [->|E]; [rewrite Rmult_0_l; apply pos_INR|].
  rewrite <- (weight_density m Hm X). apply weight_le; [exact Hm|lra].
Qed.

(** * The specification is the chi-squared tail *)

Lemma exp_upto_deriv n y : derivable_pt_lim (exp_upto n) y (match n with O => 0 | S k => exp_upto k y end).
Proof.
  induction n as [|n IH]; [unfold exp_upto; cbn [sum_f_R0]; apply (derivable_pt_lim_const (1 / INR (fact 0)))|].
  assert (derivable_pt_lim (fun z => exp_upto n z + / INR (fact (S n)) * z ^ S n) y
            (match n with O => 0 | S k => exp_upto k y end + / INR (fact (S n)) * (INR (S n) * y ^ n))) as D.
  { apply (derivable_pt_lim_plus (exp_upto n)); [exact IH|]. apply (derivable_pt_lim_scal (fun z => z ^ S n)). apply (derivable_pt_lim_pow y (S n)). }
  replace (exp_upto n y) with (match n with O => 0 | S k => exp_upto k y end + / INR (fact (S n)) * (INR (S n) * y ^ n)).
  - intros e He. destruct (D e He) as [d Hd]. exists d. intros h Hh1 Hh2. specialize (Hd h Hh1 Hh2).
    rewrite !exp_upto_S. unfold Rdiv in *. rewrite (Rmult_comm ((y + h) ^ S n)), (Rmult_comm (y ^ S n)). exact Hd.
  - change (fact (S n)) with (S n * fact n)%nat. rewrite mult_INR. pose proof (INR_fact_neq_0 n). assert (INR (S n) <> 0) by (apply not_0_INR; lia).
    destruct n as [|n]; [unfold exp_upto; cbn; field|]. rewrite exp_upto_S. field. split; assumption.
Qed.

Lemma tail_deriv m X : (1 <= m)%nat -> derivable_pt_lim (tail_mass m) X (- density m X).
Proof.
  intros Hm. destruct m as [|k]; [lia|]. unfold tail_mass. cbn [Nat.pred].
  assert (derivable_pt_lim (fun z => z / 2) X (/ 2)) as D0.
  { replace (/ 2) with (1 * / 2 + X * 0) by ring. apply (derivable_pt_lim_mult id (fct_cte (/ 2))); [apply derivable_pt_lim_id|apply derivable_pt_lim_const]. }
  assert (derivable_pt_lim (fun z => exp (- (z / 2))) X (exp (- (X / 2)) * - / 2)) as D1.
  { apply (derivable_pt_lim_comp (fun z => - (z / 2)) exp); [|apply derivable_pt_lim_exp]. apply (derivable_pt_lim_opp (fun z => z / 2)), D0. }
  pose proof (derivable_pt_lim_comp (fun z => z / 2) (exp_upto k) X _ _ D0 (exp_upto_deriv k (X / 2))) as D2.
  pose proof (derivable_pt_lim_mult (fun z => exp (- (z / 2))) (fun z => exp_upto k (z / 2)) X _ _ D1 D2) as D.
  replace (- density (S k) X) with
    (exp (- (X / 2)) * - / 2 * exp_upto k (X / 2) + exp (- (X / 2)) * (match k with O => 0 | S j => exp_upto j (X / 2) end * / 2)); [exact D|].
  unfold density. cbn [Nat.pred]. assert (2 ^ k <> 0) by (apply pow_nonzero; lra). pose proof (INR_fact_neq_0 k).
  assert (X ^ k = (X / 2) ^ k * 2 ^ k) as -> by (rewrite <- Rpow_mult_distr; f_equal; field). cbn [pow].
  destruct k as [|j]; [unfold exp_upto; cbn; field|]. rewrite exp_upto_S. field. split; assumption.
Qed.
Lemma tail_zero m : (1 <= m)%nat -> tail_mass m 0 = 1.
Proof.
  intros Hm. unfold tail_mass. replace (0 / 2) with 0 by field. rewrite Ropp_0, exp_0, Rmult_1_l.
  generalize (Nat.pred m). induction n as [|n IH]; [unfold exp_upto; cbn; field|]. rewrite exp_upto_S, IH, pow_ne_zero by lia. field. apply INR_fact_neq_0.
Qed.
