(** Specification vocabulary for integerisation. *)
From Coq Require Import Reals.
From Flocq Require Import IEEE754.BinarySingleNaN.
From Verif Require Import Base Spec Float64 RealSpec.

(** non-negative finite doubles *)
Definition nonneg_fin (x : double) : Prop := is_finite x = true /\ (0 <= B2R x)%R.

(** the fractions scaled to the population, in double arithmetic: x / (sum of the fractions) * pop *)
Definition scaled (frac : list double) (pop : Z) : list double :=
  map (fun x => d_mul (d_div x (fold_left d_add frac d_zero)) (d_ofZ pop)) frac.

(** sum of the squared differences between integers and real targets *)
Definition sq_dist (f : list Z) (X : list R) : R :=
  sumR (map (fun '(k, x) => (IZR k - x) * (IZR k - x))%R (combine f X)).

(** [f] lies within one of the targets and no integer vector with the same total is closer to them *)
Definition closest (f : list Z) (X : list R) : Prop :=
  Forall2 (fun k x => Rabs (IZR k - x) < 1)%R f X /\
  forall g, length g = length f -> sumZ g = sumZ f -> (sq_dist f X <= sq_dist g X)%R.

(** root mean square of the differences between doubles and integers, in double arithmetic *)
Definition rms_diff (X : list double) (f : list Z) : double :=
  d_sqrt (d_div (fold_left (fun s '(x, k) => d_add s (d_mul (d_sub x (d_ofZ k)) (d_sub x (d_ofZ k)))) (combine X f) d_zero)
                (d_ofZ (Z.of_nat (length X)))).

(** the sum of an array's cells, and of the cells whose component [d] is [k], in row-major order in double arithmetic *)
Definition array_sum (a : ndarray double) : double := fold_left d_add (flat a) d_zero.
Definition slice_sum (a : ndarray double) (d k : Z) : double :=
  fold_left d_add (map (entry d_zero a) (filter (fun i => nth (Z.to_nat d) i 0 =? k) (all_indices (shape a)))) d_zero.

(** root mean square of the differences between the cells of two arrays, in double arithmetic *)
Definition array_rms (res : ndarray Z) (a : ndarray double) : double :=
  d_sqrt (d_div (fold_left (fun s '(k, x) => d_add s (d_mul (d_sub (d_ofZ k) x) (d_sub (d_ofZ k) x)))
                           (combine (flat res) (flat a)) d_zero)
                (d_ofZ (Z.of_nat (length (flat a))))).

(** [z] is the integer nearest to the real [r], which is less than one half away from it *)
Definition rounds_to (r : R) (z : Z) : Prop := (Rabs (r - IZR z) < / 2)%R.
