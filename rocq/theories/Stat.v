(** Model of the statistics reported by qis and qisi: src/StatFuncs.cpp, src/StatFuncs.h.
    cumNorm, invCumNorm, tail_value and Cholesky are in Normal.v. *)
From Verif Require Import Base Spec NDArray Float64 ArrayOps.

(** The mathematical library functions used; the theorems quantify over them. *)
Record libm : Type := { l_lgamma : double -> double; l_log : double -> double; l_exp : double -> double;
                        l_tgamma : double -> double }.

(** the constants 1e-8, 1e37 and 1e-37 *)
Definition d_1e37 : double := d_ofZ (10 ^ 37).
Definition d_1em37 : double := d_lit 0x11039d428a8b8f (-175).

Section Stat.
Context (L : libm).

(** src/StatFuncs.cpp:126-139 the series: [n] iterations are left; the boolean is true when the loop ended with
    break *)
Fixpoint gam_series (n : nat) (x rn term gin : double) : double * bool :=
  match n with
  | O => (gin, false)
  | S n' =>
      let rn := d_add rn d_one in
      let term := d_div (d_mul term x) rn in
      let gin := d_add gin term in
      if d_leb term d_1em8 then (gin, true) else gam_series n' x rn term gin
  end.

(** src/StatFuncs.cpp:158-202 the continued fraction; pn[0..3] are p0..p3.  Returns value and whether the loop
    ended with break. *)
Fixpoint gam_frac (n : nat) (factor a b term gin p0 p1 p2 p3 : double) : double * bool :=
  match n with
  | O => (d_zero, false)
  | S n' =>
      let a := d_add a d_one in
      let b := d_add b (d_ofZ 2) in
      let term := d_add term d_one in
      let an := d_mul a term in
      let p4 := d_sub (d_mul b p2) (d_mul an p0) in
      let p5 := d_sub (d_mul b p3) (d_mul an p1) in
      let next gin :=
        if d_leb d_1e37 (d_abs p4)
        then gam_frac n' factor a b term gin (d_div p2 d_1e37) (d_div p3 d_1e37) (d_div p4 d_1e37) (d_div p5 d_1e37)
        else gam_frac n' factor a b term gin p2 p3 p4 p5 in
      if negb (d_eqb p5 d_zero) then
        let rn := d_div p4 p5 in
        let dif := d_abs (d_sub gin rn) in
        if d_leb dif d_1em8 && d_leb dif (d_mul d_1em8 rn)
        then (d_sub d_one (d_mul factor gin), true)
        else next rn
      else next gin
  end.

(** src/StatFuncs.cpp:63-207 gamain; the second component is *ifault *)
Definition gamain (x p : double) : double * Z :=
  if d_leb p d_zero then (d_zero, 1)
  else if d_ltb x d_zero then (d_zero, 2)
  else if d_eqb x d_zero then (d_zero, 0)
  else
    let g := l_lgamma L p in
    let arg := d_sub (d_sub (d_mul p (l_log L x)) x) g in
    if d_ltb arg (l_log L d_1em37) then (d_zero, 3)
    else
      let factor := l_exp L arg in
      if d_leb x d_one || d_ltb x p then
        let '(gin, ok) := gam_series (Z.to_nat 10000) x p d_one d_one in
        (d_div (d_mul gin factor) p, if ok : bool then 0 else 5)
      else
        let a := d_sub d_one p in
        let b := d_add (d_add a x) d_one in
        let p2 := d_add x d_one in
        let p3 := d_mul x b in
        let '(v, ok) := gam_frac (Z.to_nat 10000) factor a b d_zero (d_div p2 p3) d_one x p2 p3 in
        (v, if ok : bool then 0 else 6).

(** src/StatFuncs.cpp:334-341 pValue; dof arrives as uint32_t *)
Definition pvalue (dof : Z) (x : double) : double * bool :=
  let k := d_mul (d_ofZ (u32 dof)) d_half in
  let '(v, e) := gamain (d_div x (d_ofZ 2)) k in
  (d_sub d_one v, e =? 0).

(** src/StatFuncs.cpp:343-351 dof *)
Definition dof (sizes : list Z) : outcome Z :=
  foldM (fun n acc => let* m := i64 (n - 1) in i64 (acc * m)) sizes 1.

(** src/StatFuncs.cpp:354-363 degeneracy; factorial (src/StatFuncs.h:47-51) is tgamma(x+1), so the divisor is
    tgamma((a[i]+1)+1).  storageSize() is a size_t. *)
Definition degeneracy (a : nd Z) : outcome double :=
  let* '(_, r) :=
    index_loop (nd_sizes a)
      (fun i '(s, r) =>
         let* x := nd_get a i in
         let* x1 := i64 (x + 1) in
         let* x2 := i64 (x1 + 1) in
         Ok (d_sub s d_one, d_mul r (d_div s (l_tgamma L (d_ofZ x2)))))
      (d_ofZ (nd_storage a), d_one) in
  Ok r.

(** src/StatFuncs.h:35-45 chiSq with T = int64_t and U = double *)
Definition chisq (sample : nd Z) (ref : nd double) : outcome double :=
  index_loop (nd_sizes sample)
    (fun i c =>
       let* s := nd_get sample i in
       let* r := nd_get ref i in
       let d := d_sub (d_ofZ s) r in
       Ok (d_add c (d_div (d_mul d d) r)))
    d_zero.

End Stat.
