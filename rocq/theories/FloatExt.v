(** More working lemmas on binary64: signs, infinities and NaN. *)
From Coq Require Import ZArith Reals Lra.
From Flocq Require Import Core.Core IEEE754.BinarySingleNaN.
From Verif Require Import Base Float64 FloatProofs.
Open Scope Z_scope.

(** not less than zero: NaN, a zero, or positive *)
Definition nnb (x : double) : bool :=
  match x with B754_infinity s => negb s | B754_finite s _ _ _ => negb s | _ => true end.

Lemma nnb_ltb x : d_ltb x d_zero = negb (nnb x).
Proof. destruct x as [s|s| |s m e H]; try destruct s; reflexivity. Qed.

Lemma nnb_sign (x : double) : Bsign x = false -> nnb x = true.
Proof. destruct x as [s|s| |s m e H]; simpl; intros; subst; auto. Qed.

Lemma B2R_nonneg x : nnb x = true -> (0 <= B2R x)%R.
Proof.
  destruct x as [s|s| |s m e H]; simpl; intros E; try lra. apply negb_true_iff in E. subst s.
  apply F2R_ge_0. simpl. lia.
Qed.

Lemma B2R_pos s m e H : s = false -> (0 < B2R (@B754_finite 53 1024 s m e H))%R.
Proof. intros ->. simpl. apply F2R_gt_0. simpl. lia. Qed.

Lemma overflow_inf s (z : double) : B2SF z = binary_overflow 53 1024 mode_NE s -> z = B754_infinity s.
Proof.
  unfold binary_overflow. cbn [overflow_to_inf]. destruct z as [s'|s'| |s' m e H]; simpl; intros E; try discriminate. congruence.
Qed.

Lemma d_mul_nn x y : nnb x = true -> nnb y = true -> nnb (d_mul x y) = true.
Proof.
  intros Hx Hy. pose proof (Bmult_correct 53 1024 Hprec Hemax mode_NE x y) as C. cbv zeta in C.
  destruct x as [sx|sx| |sx mx ex Bx], y as [sy|sy| |sy my ey By]; simpl in Hx, Hy; try reflexivity;
    try (apply negb_true_iff in Hx); try (apply negb_true_iff in Hy); subst; try reflexivity.
  fold (d_mul (B754_finite false mx ex Bx) (B754_finite false my ey By)) in C.
  destruct (Rlt_bool _ _) in C.
  - destruct C as (_ & _ & C). destruct (is_nan (d_mul (B754_finite false mx ex Bx) (B754_finite false my ey By))) eqn:N.
    + destruct (d_mul _ _); try discriminate. reflexivity.
    + apply nnb_sign. now rewrite C.
  - apply overflow_inf in C. rewrite C. reflexivity.
Qed.

Lemma d_div_nn x y : nnb x = true -> nnb y = true -> d_eqb y d_zero = false -> nnb (d_div x y) = true.
Proof.
  intros Hx Hy Hz.
  destruct x as [sx|sx| |sx mx ex Bx], y as [sy|sy| |sy my ey By]; simpl in Hx, Hy; try reflexivity; try discriminate;
    try (destruct sy; discriminate);
    try (apply negb_true_iff in Hx); try (apply negb_true_iff in Hy); subst; try reflexivity.
  set (x := B754_finite false mx ex Bx). set (y := B754_finite false my ey By).
  assert (B2R y <> 0%R) as Ny by (pose proof (B2R_pos false my ey By eq_refl); unfold y; lra).
  pose proof (Bdiv_correct 53 1024 Hprec Hemax mode_NE x y Ny) as C. cbv zeta in C. fold (d_div x y) in C.
  destruct (Rlt_bool _ _) in C.
  - destruct C as (_ & _ & C). destruct (is_nan (d_div x y)) eqn:N.
    + destruct (d_div x y); try discriminate. reflexivity.
    + apply nnb_sign. now rewrite C.
  - apply overflow_inf in C. rewrite C. reflexivity.
Qed.

Lemma finite_nnb (z : double) : is_finite z = true -> (0 <= B2R z)%R -> nnb z = true.
Proof.
  destruct z as [s|s| |[] m e H]; simpl; intros F R; try discriminate; auto. exfalso.
  assert (F2R (Float radix2 (Z.neg m) e) < 0)%R by (apply F2R_lt_0; simpl; lia). simpl in *. lra.
Qed.

Lemma d_add_nn x y : nnb x = true -> nnb y = true -> nnb (d_add x y) = true.
Proof.
  intros Hx Hy.
  destruct x as [sx|sx| |sx mx ex Bx], y as [sy|sy| |sy my ey By]; simpl in Hx, Hy; try reflexivity;
    try (apply negb_true_iff in Hx); try (apply negb_true_iff in Hy); subst; try reflexivity.
  - destruct sx, sy; reflexivity.
  - set (x := B754_finite false mx ex Bx). set (y := B754_finite false my ey By).
    pose proof (Bplus_correct 53 1024 Hprec Hemax mode_NE x y eq_refl eq_refl) as C. cbv zeta in C. fold (d_add x y) in C.
    pose proof (B2R_pos false mx ex Bx eq_refl) as Px. pose proof (B2R_pos false my ey By eq_refl) as Py. fold x in Px. fold y in Py.
    destruct (Rlt_bool _ _) in C.
    + destruct C as (E & F & _). apply finite_nnb; auto. rewrite E. apply (RN_nonneg (B2R x + B2R y)). lra.
    + destruct C as [C _]. apply overflow_inf in C. rewrite C. reflexivity.
Qed.

(** zero or NaN *)
Definition zn (x : double) : bool := match x with B754_zero _ => true | B754_nan => true | _ => false end.

Lemma zn_mul x y : zn x = true -> zn (d_mul x y) = true.
Proof. destruct x as [sx|sx| |sx mx ex Bx]; try discriminate; intros _; destruct y as [sy|sy| |sy my ey By]; reflexivity. Qed.

Lemma zn_cases x : zn x = true <-> d_eqb x d_zero = true \/ is_nan x = true.
Proof.
  destruct x as [sx|[]| |[] mx ex Bx]; simpl; split; intros H; auto; try discriminate; try (destruct H; discriminate).
Qed.

(** finiteness *)
Lemma d_add_finite x y : is_finite (d_add x y) = true -> is_finite x = true /\ is_finite y = true.
Proof.
  destruct x as [sx|sx| |sx mx ex Bx], y as [sy|sy| |sy my ey By]; simpl; auto; try discriminate; destruct sx, sy; simpl; auto; discriminate.
Qed.

Lemma fold_add_finite l : forall a, is_finite (fold_left d_add l a) = true -> is_finite a = true /\ forall x, In x l -> is_finite x = true.
Proof.
  induction l as [|x l IH]; intros a; simpl; [auto|]. intros H. apply IH in H as [H1 H2]. apply d_add_finite in H1 as [Ha Hx].
  split; auto. intros y [<-|Hy]; auto.
Qed.

(** NaN *)
Lemma d_add_notnan x y : is_nan x = false -> is_finite y = true -> is_nan (d_add x y) = false.
Proof.
  intros Hx Hy. destruct (is_finite x) eqn:Fx.
  - pose proof (Bplus_correct 53 1024 Hprec Hemax mode_NE x y Fx Hy) as C. cbv zeta in C. fold (d_add x y) in C.
    destruct (Rlt_bool _ _) in C.
    + destruct C as (_ & F & _). destruct (d_add x y); auto; discriminate.
    + destruct C as [C _]. apply overflow_inf in C. rewrite C. reflexivity.
  - destruct x as [sx|sx| |sx mx ex Bx]; try discriminate. destruct y as [sy|sy| |sy my ey By]; try discriminate; reflexivity.
Qed.

Lemma d_sub_notnan x y : is_nan x = false -> is_finite y = true -> is_nan (d_sub x y) = false.
Proof.
  intros Hx Hy. destruct (is_finite x) eqn:Fx.
  - pose proof (Bminus_correct 53 1024 Hprec Hemax mode_NE x y Fx Hy) as C. cbv zeta in C. fold (d_sub x y) in C.
    destruct (Rlt_bool _ _) in C.
    + destruct C as (_ & F & _). destruct (d_sub x y); auto; discriminate.
    + destruct C as [C _]. apply overflow_inf in C. rewrite C. reflexivity.
  - destruct x as [sx|sx| |sx mx ex Bx]; try discriminate. destruct y as [sy|sy| |sy my ey By]; try discriminate; reflexivity.
Qed.

Lemma fold_add_notnan l : forall a, is_nan a = false -> (forall x, In x l -> is_finite x = true) -> is_nan (fold_left d_add l a) = false.
Proof.
  induction l as [|x l IH]; intros a Ha Hl; simpl; auto. apply IH; [|intros; apply Hl; now right].
  apply d_add_notnan; auto. apply Hl. now left.
Qed.

Lemma fold_add_nn l : forall a, nnb a = true -> (forall x, In x l -> nnb x = true) -> nnb (fold_left d_add l a) = true.
Proof.
  induction l as [|x l IH]; intros a Ha Hl; simpl; auto. apply IH; [|intros; apply Hl; now right].
  apply d_add_nn; auto. apply Hl. now left.
Qed.

Lemma is_nan_abs x : is_nan (d_abs x) = is_nan x.
Proof. destruct x; reflexivity. Qed.
