(** Specification vocabulary for the Sobol sequence: Gray code, direction numbers, points, and the histories of a
    generator object. *)
From Verif Require Import Base SobolTable.
Open Scope N_scope.

Definition gray (n : N) : N := N.lxor n (N.shiftr n 1).

Fixpoint xor_list (l : list N) : N := match l with [] => 0 | x :: l' => N.lxor x (xor_list l') end.

Definition m_at (m : list N) (j : nat) : N := nth j m 0.

(** [m] lists the 32 direction numbers of dimension [i] (0-based): all 1 for dimension 0; for the others the
    initial numbers come from the table and the rest follow the recurrence of the polynomial, whose bit k is the
    coefficient of z^k. *)
Definition is_directions (i : nat) (m : list N) : Prop :=
  length m = 32%nat /\
  match i with
  | O => forall j, (j < 32)%nat -> m_at m j = 1
  | S i' =>
      let p := nth i' sobol_a 0 in
      let d := N.to_nat (N.log2 p) in
      (forall j, (j < d)%nat -> m_at m j = nth i' (nth j sobol_minit []) 0) /\
      (forall j, (d <= j < 32)%nat ->
         m_at m j = N.lxor (m_at m (j - d))
           (xor_list (map (fun k => if N.testbit p (N.of_nat k) then N.shiftl (m_at m (j - d + k)) (N.of_nat (d - k)) else 0)
                          (seq 0 d))))
  end.

(** coordinate of the n-th point given the direction numbers: XOR of those selected by the Gray code of n, each
    aligned to the top of a 32-bit word *)
Definition coord (m : list N) (n : N) : N :=
  xor_list (map (fun c => if N.testbit (gray n) (N.of_nat c) then N.shiftl (m_at m c) (N.of_nat (31 - c)) else 0)
                (seq 0 32)).

(** Primitive polynomials over GF(2): z has order 2^d-1 modulo p, where d is the degree *)
Definition mulz (p d r : N) : N := let s := N.shiftl r 1 in if N.testbit s d then N.lxor s p else s.
Fixpoint zpow (p d : N) (e : nat) : N := match e with O => 1 | S e' => mulz p d (zpow p d e') end.
Definition primitive (p : N) : Prop :=
  let d := N.log2 p in
  0 < d /\ zpow p d (N.to_nat (2 ^ d - 1)) = 1 /\
  forall e, (0 < e)%nat -> (e < N.to_nat (2 ^ d - 1))%nat -> zpow p d e <> 1.

(** * Histories of a generator object *)

(** the direction numbers of the first [dim] dimensions *)
Definition is_table (dim : nat) (cols : list (list N)) : Prop :=
  length cols = dim /\ forall i, (i < dim)%nat -> is_directions i (nth i cols []).

(** number of points the C++ skip discards when asked for n: the largest power of two below n, but at least one *)
Definition skipped (n : N) : N := if n <=? 2 then 1 else 2 ^ N.log2 (n - 1).

(** number of points after which the generator is exhausted *)
Definition limit : N := 2 ^ 32 - 1.

Inductive sop : Type := DrawPoint | DrawScalar | Skip (n : N) | Reset (n : N).
Inductive sres : Type := RPoint (l : list N) | RScalar (v : N) | RDone | RExhausted.

(** what an observer knows of the object: how many points were consumed, the number of the point in the buffer
    (0 before the first), and the position of the next scalar in the buffer *)
Record sview : Type := SV { v_n : N; v_held : N; v_pos : N }.

Definition point_of (cols : list (list N)) (n : N) : list N := map (fun m => coord m n) cols.

Definition view_skip (k : N) (v : sview) : sview :=
  let n' := N.min (v_n v + k) limit in
  SV n' (if v_n v <? n' then n' else v_held v) (v_pos v).

Definition view_step (cols : list (list N)) (op : sop) (v : sview) : sview * sres :=
  let dim := N.of_nat (length cols) in
  match op with
  | DrawPoint =>
      if v_n v <? limit then (SV (v_n v + 1) (v_n v + 1) (v_pos v), RPoint (point_of cols (v_n v + 1)))
      else (v, RExhausted)
  | DrawScalar =>
      if v_pos v =? dim then
        if v_n v <? limit then (SV (v_n v + 1) (v_n v + 1) 1, RScalar (nth 0 (point_of cols (v_n v + 1)) 0))
        else (v, RExhausted)
      else (SV (v_n v) (v_held v) (v_pos v + 1), RScalar (nth (N.to_nat (v_pos v)) (point_of cols (v_held v)) 0))
  | Skip n => (view_skip (skipped n) v, RDone)
  | Reset n => let v' := SV 0 (v_held v) (v_pos v) in
               (if 0 <? n then view_skip (skipped n) v' else v', RDone)
  end.

Fixpoint view_run (cols : list (list N)) (ops : list sop) (v : sview) : list sres :=
  match ops with
  | [] => []
  | op :: ops' => let '(v', r) := view_step cols op v in r :: view_run cols ops' v'
  end.
