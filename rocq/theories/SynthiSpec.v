(** Specification of the individuals qisi samples: the coordinates of a Sobol point select, from the last dimension to the
    first, the values of an individual from the fitted table; the table is then lowered at that state, and fitted again to
    what is left of the marginals once that makes it negative. *)
From Verif Require Import Base Spec Float64 SynthSpec IpfSpec IpfFitSpec QuantSpec.
Open Scope Z_scope.

(** value [k] is the first of 0..n-1 whose cumulative weight exceeds the fraction u / 2^32 of the total, in doubles *)
Definition selectsD (w : Z -> double) (n : Z) (u : N) (k : Z) : Prop :=
  let cum j := fold_left d_add (map w (zrange j)) d_zero in
  let x := d_mul (d_mul (d_ofZ (Z.of_N u)) (d_lit 1 (-32))) (cum n) in
  0 <= k < n /\ d_ltb x (cum (k + 1)) = true /\ forall j, 0 <= j < k -> d_ltb x (cum (j + 1)) = false.

(** the table [f] summed over the cells whose coordinates from dimension [k] on are [rest] (for k = 0 a single cell) *)
Definition tail_sum (sizes : list Z) (f : list Z -> double) (k : nat) (rest : list Z) : double :=
  match k with
  | O => f rest
  | S _ => fold_left d_add (map f (filter (fun i => idx_eqb (skipn k i) rest) (all_indices sizes))) d_zero
  end.

(** the state the point [p] selects from the table [f] *)
Definition selected (sizes : list Z) (f : list Z -> double) (p : list N) (x : list Z) : Prop :=
  length x = length sizes /\
  forall k, (k < length sizes)%nat ->
    selectsD (fun v => tail_sum sizes f k (v :: skipn (S k) x)) (nth k sizes 0) (nth k p 0%N) (nth k x 0).

(** [g] is the seed fitted to what is left of the marginals, none of it negative: after the first round that meets the
    tolerance, or 1000 *)
Definition refit (cs : list con) (sizes : list Z) (seed : list Z -> double) (rest : con -> list Z -> Z) (g : list Z -> double) : Prop :=
  let ds := map (fun c => GC (c_dims c) (c_sizes c) (fun k => d_ofZ (rest c k))) cs in
  (forall c k, In c cs -> index_in (c_sizes c) k -> 0 <= rest c k) /\
  exists n, (1 <= n <= 1000)%nat /\ (forall j, (1 <= j < n)%nat -> ~ fits_all sizes ds (fitted sizes ds seed j)) /\
    (fits_all sizes ds (fitted sizes ds seed n) \/ n = 1000%nat) /\
    forall i, index_in sizes i -> g i = fitted sizes ds seed n i.

(** the individuals sampled so far and the table for the next one *)
Inductive synthesised (cs : list con) (sizes : list Z) (seed : list Z -> double) (points : nat -> list N)
  : list (list Z) -> (list Z -> double) -> Prop :=
| syn_start g : refit cs sizes seed (left_of []) g -> synthesised cs sizes seed points [] g
| syn_keep people g x g' : synthesised cs sizes seed points people g -> selected sizes g (points (length people)) x ->
    d_ltb (d_sub (g x) d_one) d_zero = false ->
    (forall i, index_in sizes i -> g' i = if idx_eqb i x then d_sub (g x) d_one else g i) ->
    synthesised cs sizes seed points (people ++ [x]) g'
| syn_refit people g x g' : synthesised cs sizes seed points people g -> selected sizes g (points (length people)) x ->
    d_ltb (d_sub (g x) d_one) d_zero = true ->
    refit cs sizes seed (left_of (people ++ [x])) g' -> synthesised cs sizes seed points (people ++ [x]) g'.
