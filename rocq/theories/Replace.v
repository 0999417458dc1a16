(** Model of discrete_distribution_with_replacement in src/DDWR.h, for value types uint32_t and double.  Vectors are
    assumed to have fewer than 2^32 entries, so that the uint32_t index does not wrap. *)
From Flocq Require Import IEEE754.BinarySingleNaN.
From Verif Require Import Base Spec Float64 Ddwr.
Open Scope Z_scope.

(** src/DDWR.h:24-29 and 38-52 for uint32_t: m_sum is the sum modulo 2^32; p is the truncated product, converted back to
    double, and compared with s, which is converted to double too: both are below 2^32, so the comparison is that of the
    integers.  The search is that of the other class ([dd_search]) but without the test for a depleted distribution. *)
Definition wr_draw (freq : list Z) (r : Z) : outcome Z :=
  let* p := dd_scale r (acc_u32 freq) in
  match freq with [] => UB "vector access out of bounds" | s :: rest => dd_search p 0 s rest end.

(** src/DDWR.h:43-51 for double *)
Fixpoint wr_search (p : double) (idx : Z) (s : double) (rest : list double) : outcome Z :=
  if d_leb s p then match rest with [] => UB "vector access out of bounds" | x :: rest' => wr_search p (idx + 1) (d_add s x) rest' end
  else Ok idx.

(** src/DDWR.h:28 and 41 for double *)
Definition wr_point (freq : list double) (r : Z) : double :=
  d_mul (d_div (d_ofZ r) (d_ofZ (2 ^ 32))) (fold_left d_add freq d_zero).
Definition wr_drawd (freq : list double) (r : Z) : outcome Z :=
  match freq with [] => UB "vector access out of bounds" | s :: rest => wr_search (wr_point freq r) 0 s rest end.
