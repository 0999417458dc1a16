(** The incomplete gamma function of src/StatFuncs.cpp over an arbitrary arithmetic.  The definitions repeat those of
    Stat.v with the operations taken from a record: with the operations of IEEE doubles they are those of Stat.v (lemma
    [pvalue_dbl], by computation), and with the operations of the reals they are what the code computes without
    rounding. *)
From Coq Require Import Reals.
From Flocq Require Import Core.Raux IEEE754.BinarySingleNaN.
From Verif Require Import Base Spec NDArray Float64 ArrayOps Stat.
Open Scope Z_scope.

(** the arithmetic, the constants acu, oflo and 1.0E-37, and lgamma, log, exp *)
Record arith (F : Type) : Type := {
  o_ofZ : Z -> F; o_half : F; o_acu : F; o_oflo : F; o_uflo : F;
  o_add : F -> F -> F; o_sub : F -> F -> F; o_mul : F -> F -> F; o_div : F -> F -> F; o_abs : F -> F;
  o_leb : F -> F -> bool; o_ltb : F -> F -> bool; o_eqb : F -> F -> bool;
  o_lgamma : F -> F; o_log : F -> F; o_exp : F -> F }.

Section Gen.
Context {F : Type} (A : arith F).
Notation "0" := (o_ofZ F A 0). Notation "1" := (o_ofZ F A 1). Notation "2" := (o_ofZ F A 2).
Infix "+" := (o_add F A). Infix "-" := (o_sub F A). Infix "*" := (o_mul F A). Infix "/" := (o_div F A).

(** src/StatFuncs.cpp:126-139, as [gam_series] *)
Fixpoint series_gen (n : nat) (x rn term gin : F) : F * bool :=
  match n with
  | O => (gin, false)
  | S n' =>
      let rn := rn + 1 in
      let term := term * x / rn in
      let gin := gin + term in
      if o_leb F A term (o_acu F A) then (gin, true) else series_gen n' x rn term gin
  end.

(** src/StatFuncs.cpp:158-202, as [gam_frac] *)
Fixpoint frac_gen (n : nat) (factor a b term gin p0 p1 p2 p3 : F) : F * bool :=
  match n with
  | O => (0, false)
  | S n' =>
      let a := a + 1 in
      let b := b + 2 in
      let term := term + 1 in
      let an := a * term in
      let p4 := b * p2 - an * p0 in
      let p5 := b * p3 - an * p1 in
      let o := o_oflo F A in
      let next gin :=
        if o_leb F A o (o_abs F A p4)
        then frac_gen n' factor a b term gin (p2 / o) (p3 / o) (p4 / o) (p5 / o)
        else frac_gen n' factor a b term gin p2 p3 p4 p5 in
      if negb (o_eqb F A p5 0) then
        let rn := p4 / p5 in
        let dif := o_abs F A (gin - rn) in
        if o_leb F A dif (o_acu F A) && o_leb F A dif (o_acu F A * rn)
        then (1 - factor * gin, true)
        else next rn
      else next gin
  end.

(** src/StatFuncs.cpp:63-207, as [gamain] *)
Definition gamain_gen (x p : F) : F * Z :=
  if o_leb F A p 0 then (0, 1%Z)
  else if o_ltb F A x 0 then (0, 2%Z)
  else if o_eqb F A x 0 then (0, 0%Z)
  else
    let g := o_lgamma F A p in
    let arg := p * o_log F A x - x - g in
    if o_ltb F A arg (o_log F A (o_uflo F A)) then (0, 3%Z)
    else
      let factor := o_exp F A arg in
      if o_leb F A x 1 || o_ltb F A x p then
        let '(gin, ok) := series_gen (Z.to_nat 10000) x p 1 1 in
        (gin * factor / p, if ok : bool then 0%Z else 5%Z)
      else
        let a := 1 - p in
        let b := a + x + 1 in
        let p2 := x + 1 in
        let p3 := x * b in
        let '(v, ok) := frac_gen (Z.to_nat 10000) factor a b 0 (p2 / p3) 1 x p2 p3 in
        (v, if ok : bool then 0%Z else 6%Z).

(** src/StatFuncs.cpp:334-341, as [pvalue] *)
Definition pvalue_gen (dof : Z) (x : F) : F * bool :=
  let k := o_ofZ F A (u32 dof) * o_half F A in
  let '(v, e) := gamain_gen (x / 2) k in
  (1 - v, (e =? 0)%Z).

End Gen.

(** IEEE doubles *)
Definition dbl (L : libm) : arith double :=
  {| o_ofZ := fun z => match z with 0 => d_zero | _ => d_ofZ z end;
     o_half := d_half; o_acu := d_1em8; o_oflo := d_1e37; o_uflo := d_1em37;
     o_add := d_add; o_sub := d_sub; o_mul := d_mul; o_div := d_div; o_abs := d_abs;
     o_leb := d_leb; o_ltb := d_ltb; o_eqb := d_eqb;
     o_lgamma := l_lgamma L; o_log := l_log L; o_exp := l_exp L |}.

(** the reals, with a logarithm of the gamma function and any values of the three constants ... *)
Definition reals (acu oflo uflo : R) (lg : R -> R) : arith R :=
  {| o_ofZ := IZR; o_half := (1 / 2)%R; o_acu := acu; o_oflo := oflo; o_uflo := uflo;
     o_add := Rplus; o_sub := Rminus; o_mul := Rmult; o_div := Rdiv; o_abs := Rabs;
     o_leb := Rle_bool; o_ltb := Rlt_bool; o_eqb := Req_bool;
     o_lgamma := lg; o_log := ln; o_exp := exp |}.
(** ... and with those of the code *)
Definition real : (R -> R) -> arith R := reals (B2R d_1em8) (B2R d_1e37) (B2R d_1em37).

Lemma series_dbl L n x rn term gin : series_gen (dbl L) n x rn term gin = gam_series n x rn term gin.
Proof. revert rn term gin. induction n as [|n IH]; intros; [reflexivity|]. cbn [series_gen gam_series]. rewrite IH. reflexivity. Qed.
Lemma frac_dbl L n f a b t g p0 p1 p2 p3 : frac_gen (dbl L) n f a b t g p0 p1 p2 p3 = gam_frac n f a b t g p0 p1 p2 p3.
Proof. revert a b t g p0 p1 p2 p3. induction n as [|n IH]; intros; [reflexivity|]. cbn [frac_gen gam_frac]. rewrite !IH. reflexivity. Qed.
Lemma pvalue_dbl L dof x : pvalue_gen (dbl L) dof x = pvalue L dof x.
Proof.
  assert (forall x p, gamain_gen (dbl L) x p = gamain L x p) as G.
  { intros x' p. unfold gamain_gen, gamain. rewrite series_dbl, frac_dbl. reflexivity. }
  unfold pvalue_gen, pvalue. rewrite G.
  assert (forall z, o_ofZ double (dbl L) z = d_ofZ z) as E.
  { intros [| |]; [|reflexivity|reflexivity]. apply B2SF_inj. vm_compute. reflexivity. }
  cbv zeta. rewrite !E. reflexivity.
Qed.
