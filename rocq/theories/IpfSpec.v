(** Specification vocabulary for ipf: constraints with entries of any type, marginal sums as a left-to-right
    floating-point sum, products of factors. *)
From Flocq Require Import IEEE754.BinarySingleNaN.
From Verif Require Import Base Spec Float64 SynthSpec.
Open Scope Z_scope.

(** a constraint whose marginal has entries of type [M] *)
Record gcon (M : Type) : Type := GC { g_dims : list Z; g_sizes : list Z; g_at : list Z -> M }.
Arguments GC {M}. Arguments g_dims {M}. Arguments g_sizes {M}. Arguments g_at {M}.

(** its dimensions and sizes only, as a constraint of SynthSpec *)
Definition outline {M} (c : gcon M) : con := CON (g_dims c) (g_sizes c) (fun _ => 0).

(** the constraints given by Python index vectors and Python arrays; [df] is the value outside the array *)
Definition gcon_of {M} (df : M) (i : ndarray Z) (m : ndarray M) : gcon M := GC (flat i) (shape m) (entry df m).
Definition gcons_of {M} (df : M) (ilist : list (ndarray Z)) (mlist : list (ndarray M)) : list (gcon M) :=
  map (fun p => gcon_of df (fst p) (snd p)) (combine ilist mlist).
Definition dcons_of := gcons_of d_zero.

(** the sum of the entries of [f] in the cells projecting on [c], added in row-major order to 0 *)
Definition marginD (sizes dims c : list Z) (f : list Z -> double) : double :=
  fold_left d_add (map f (filter (fun i => idx_eqb (proj dims i) c) (all_indices sizes))) d_zero.

(** the arguments are within the range the theorems cover: non-empty arrays of fewer than 2^60 cells, and fewer than
    2^60 states *)
Definition g_range {M} (df : M) (ilist : list (ndarray Z)) (mlist : list (ndarray M)) : Prop :=
  Forall (fun m => wf_array m /\ prodZ (shape m) < 2 ^ 60 /\ Z.of_nat (length (shape m)) < 2 ^ 31) mlist /\
  (forall sizes, implied (map outline (gcons_of df ilist mlist)) sizes -> prodZ sizes < 2 ^ 60).
Definition d_range := g_range d_zero.

(** the index lists are vectors, as many as there are marginals *)
Definition g_vectors {M} (ilist : list (ndarray Z)) (mlist : list (ndarray M)) : Prop :=
  length ilist = length mlist /\ Forall (fun i => length (shape i) = 1%nat) ilist.

(** every index list names distinct dimensions and leaves at least one out *)
Definition proper (n : nat) (dims : list Z) : Prop := NoDup dims /\ (length dims < n)%nat.
Definition all_proper {M} (df : M) (ilist : list (ndarray Z)) (mlist : list (ndarray M)) : Prop :=
  forall sizes c, implied (map outline (gcons_of df ilist mlist)) sizes -> In c (gcons_of df ilist mlist) -> proper (length sizes) (g_dims c).

(** * Exact arithmetic *)
From Coq Require Import QArith Qcanon.
Open Scope Z_scope.

(** the sum of the entries of [f] in the cells projecting on [c] *)
Definition marginQ (sizes dims c : list Z) (f : list Z -> Qc) : Qc :=
  fold_right Qcplus 0%Qc (map f (filter (fun i => idx_eqb (proj dims i) c) (all_indices sizes))).

(** the product of one factor for each constraint, that of the marginal cell the state [i] belongs to *)
Definition factors (cs : list (gcon Qc)) (xs : list (list Z -> Qc)) (i : list Z) : Qc :=
  fold_right Qcmult 1%Qc (map (fun p => snd p (proj (g_dims (fst p)) i)) (combine cs xs)).
