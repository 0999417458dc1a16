(** Specification vocabulary, independent of the model: multi-indices, row-major order, sums over cells.
    Everything a reader needs to understand the theorem statements is here. *)
From Verif Require Import Base.

(** [0; 1; ...; n-1] as integers *)
Definition zrange (n : Z) : list Z := map Z.of_nat (seq 0 (Z.to_nat n)).

(** number of cells of an array with the given sizes *)
Fixpoint prodZ (sizes : list Z) : Z :=
  match sizes with [] => 1 | n :: ns => n * prodZ ns end.

Definition sumZ (l : list Z) : Z := fold_right Z.add 0 l.

(** all multi-indices of an array with the given sizes, in row-major (lexicographic) order *)
Fixpoint all_indices (sizes : list Z) : list (list Z) :=
  match sizes with
  | [] => [[]]
  | n :: ns => flat_map (fun i => map (cons i) (all_indices ns)) (zrange n)
  end.

(** [idx] is a valid multi-index for [sizes] *)
Definition index_in (sizes idx : list Z) : Prop := Forall2 (fun n i => 0 <= i < n) sizes idx.

Definition positive (sizes : list Z) : Prop := Forall (fun n => 0 < n) sizes.

(** row-major position of a multi-index *)
Fixpoint rowmajor (sizes idx : list Z) : Z :=
  match sizes, idx with
  | n :: ns, i :: is => i * prodZ ns + rowmajor ns is
  | _, _ => 0
  end.

(** the components of [idx] listed in [dims] (dimension numbers) *)
Definition proj (dims idx : list Z) : list Z := map (fun d => nth (Z.to_nat d) idx 0) dims.

Definition idx_eqb (a b : list Z) : bool := if list_eq_dec Z.eq_dec a b then true else false.

(** sum of [f] over the cells of an array of the given sizes satisfying [p] *)
Definition sum_where (sizes : list Z) (p : list Z -> bool) (f : list Z -> Z) : Z :=
  sumZ (map f (filter p (all_indices sizes))).

(** total of [f] over all cells *)
Definition total (sizes : list Z) (f : list Z -> Z) : Z := sumZ (map f (all_indices sizes)).

(** marginal sum: total of [f] over the cells whose components [dims] equal [c] *)
Definition margin (sizes dims c : list Z) (f : list Z -> Z) : Z :=
  sum_where sizes (fun i => idx_eqb (proj dims i) c) f.

(** A dense array as the user sees it (numpy, C order): a shape and the row-major list of its entries. *)
Record ndarray (T : Type) : Type := NDA { shape : list Z; flat : list T }.
Arguments NDA {T} shape flat.
Arguments shape {T} n.
Arguments flat {T} n.

(** the array is well formed: it has a dimension, no empty dimension, and one entry per cell *)
Definition wf_array {T} (a : ndarray T) : Prop :=
  shape a <> [] /\ positive (shape a) /\ Z.of_nat (length (flat a)) = prodZ (shape a).

(** entry of [a] at a multi-index; [d] is returned only outside the array *)
Definition entry {T} (d : T) (a : ndarray T) (idx : list Z) : T :=
  nth (Z.to_nat (rowmajor (shape a) idx)) (flat a) d.

(** lexicographic order on multi-indices of the same length *)
Fixpoint lex_le (a b : list Z) : Prop :=
  match a, b with
  | x :: a', y :: b' => x < y \/ (x = y /\ lex_le a' b')
  | _, _ => True
  end.

(** An R vector, possibly with a "dim" attribute; the data are column-major.  Integer NA is not modelled. *)
Record rarray (T : Type) : Type := RA { r_dim : option (list Z); r_data : list T }.
Arguments RA {T}. Arguments r_dim {T}. Arguments r_data {T}.

(** the dimensions of an R array, a plain vector being 1-d *)
Definition col_sizes {T} (a : rarray T) : list Z :=
  match r_dim a with Some d => d | None => [Z.of_nat (length (r_data a))] end.

(** position of a multi-index in R's column-major layout *)
Fixpoint colmajor (sizes idx : list Z) : Z :=
  match sizes, idx with
  | n :: ns, i :: is => i + n * colmajor ns is
  | _, _ => 0
  end.

(** R's a[idx], with 0-based components *)
Definition r_entry {T} (d : T) (a : rarray T) (idx : list Z) : T :=
  nth (Z.to_nat (colmajor (col_sizes a) idx)) (r_data a) d.

Definition wf_rarray {T} (a : rarray T) : Prop :=
  col_sizes a <> [] /\ positive (col_sizes a) /\ Z.of_nat (length (r_data a)) = prodZ (col_sizes a).

(** A numpy array of any memory layout: a buffer, the position of its first element in the buffer, a shape and
    the strides (counted in elements). *)
Record nparray (T : Type) : Type := NP {
  np_buf : list T; np_base : Z; np_shape : list Z; np_strides : list Z
}.
Arguments NP {T}. Arguments np_buf {T}. Arguments np_base {T}. Arguments np_shape {T}. Arguments np_strides {T}.

(** a[idx] as numpy computes it; None when the element lies outside the buffer *)
Fixpoint dot (a b : list Z) : Z :=
  match a, b with x :: a', y :: b' => x * y + dot a' b' | _, _ => 0 end.
Definition np_entry {T} (a : nparray T) (idx : list Z) : option T :=
  let p := np_base a + dot (np_strides a) idx in
  if 0 <=? p then nth_error (np_buf a) (Z.to_nat p) else None.

(** strides of a C-contiguous array *)
Fixpoint c_strides (shape : list Z) : list Z :=
  match shape with [] => [] | _ :: ns => prodZ ns :: c_strides ns end.
