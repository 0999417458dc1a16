(** Specification vocabulary for the R binding: R's dimension numbers start at 1, its arrays are column-major. *)
From Verif Require Import Base Spec SynthSpec Float64 IpfSpec.
Open Scope Z_scope.

(** the constraints given by R index vectors and R marginals, with the dimension numbers counted from [b] made 0-based *)
Definition rgcons_from {M} (b : Z) (df : M) (indices : list (list Z)) (marginals : list (rarray M)) : list (gcon M) :=
  map (fun p => GC (map (fun d => d - b) (fst p)) (col_sizes (snd p)) (r_entry df (snd p))) (combine indices marginals).
Definition rcons_from (b : Z) (indices : list (list Z)) (marginals : list (rarray Z)) : list con :=
  map (fun p => CON (map (fun d => d - b) (fst p)) (col_sizes (snd p)) (r_entry 0 (snd p))) (combine indices marginals).

(** R counts from 1 *)
Definition rgcons_of {M} (df : M) := rgcons_from 1 df.
Definition rcons_of := rcons_from 1.

(** the arguments are within the range the theorems cover: non-empty marginals of fewer than 2^60 cells and, whatever the
    number dimensions are counted from, fewer than 2^60 states *)
Definition rg_range {M} (df : M) (indices : list (list Z)) (marginals : list (rarray M)) : Prop :=
  Forall (fun m => wf_rarray m /\ prodZ (col_sizes m) < 2 ^ 60 /\ Z.of_nat (length (col_sizes m)) < 2 ^ 31) marginals /\
  (forall b sizes, implied (map outline (rgcons_from b df indices marginals)) sizes -> prodZ sizes < 2 ^ 60).

(** ... of R integers, summing to less than 2^61 in absolute value *)
Definition r_range (indices : list (list Z)) (marginals : list (rarray Z)) : Prop :=
  Forall (fun m => Forall (fun x => - 2 ^ 31 <= x < 2 ^ 31) (r_data m) /\
                   total (col_sizes m) (fun k => Z.abs (r_entry 0 m k)) < 2 ^ 61) marginals /\
  rg_range 0 indices marginals.

(** a seed: a non-empty array with a "dim" attribute *)
Definition r_seed (sdim : list Z) (sdata : list double) : Prop := wf_rarray (RA (Some sdim) sdata) /\ prodZ sdim < 2 ^ 60.

(** all multi-indices in column-major order *)
Definition r_indices (sizes : list Z) : list (list Z) := map (@rev Z) (all_indices (rev sizes)).

(** the sum of the entries of [f] in the cells projecting on [k], added in column-major order to 0 *)
Definition r_marginD (sizes dims k : list Z) (f : list Z -> double) : double :=
  fold_left d_add (map f (filter (fun i => idx_eqb (proj dims i) k) (r_indices sizes))) d_zero.

(** every index vector names distinct dimensions and leaves at least one out *)
Definition r_proper (n : nat) (indices : list (list Z)) : Prop := Forall (fun iv => NoDup iv /\ (length iv < n)%nat) indices.
