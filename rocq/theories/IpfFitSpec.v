(** Iterative proportional fitting in doubles, on functions of the cell index. *)
From Flocq Require Import IEEE754.BinarySingleNaN.
From Verif Require Import Base Spec Float64 ArrayOps SynthSpec IpfSpec.
Open Scope Z_scope.

(** a table scaled to one marginal: each cell is multiplied by (marginal entry / sum of the cells sharing it); cells whose
    sum is zero become zero *)
Definition fit1 (sizes : list Z) (c : gcon double) (f : list Z -> double) (i : list Z) : double :=
  let k := proj (g_dims c) i in
  let s := marginD sizes (g_dims c) k f in
  if d_eqb s d_zero then d_zero else d_mul (f i) (d_div (g_at c k) s).

(** [n] rounds of scaling to each marginal in turn *)
Fixpoint fitted (sizes : list Z) (cs : list (gcon double)) (f : list Z -> double) (n : nat) : list Z -> double :=
  match n with
  | O => f
  | S n => fold_left (fun g c => fit1 sizes c g) cs (fitted sizes cs f n)
  end.

(** the error of a marginal cell *)
Definition misfit (sizes : list Z) (f : list Z -> double) (c : gcon double) (k : list Z) : double :=
  d_abs (d_sub (marginD sizes (g_dims c) k f) (g_at c k)).

(** no error reaches 1e-8 *)
Definition fits_all (sizes : list Z) (cs : list (gcon double)) (f : list Z -> double) : Prop :=
  forall c k, In c cs -> index_in (g_sizes c) k -> d_leb d_1em8 (misfit sizes f c k) = false.
