(** Specification vocabulary for the progress of ipf in exact arithmetic (C80): how far the marginal sums of a table are from
    the marginals asked for. *)
From Coq Require Import QArith Qcanon Qabs.
From Verif Require Import Base Spec SynthSpec IpfSpec.

Definition absQ (x : Qc) : Qc := Q2Qc (Qabs (this x)).
Definition sumQ (l : list Qc) : Qc := fold_right Qcplus 0%Qc l.

(** by how much one marginal sum of the table [f] misses *)
Definition missQ (sizes : list Z) (f : list Z -> Qc) (c : gcon Qc) (k : list Z) : Qc := absQ (marginQ sizes (g_dims c) k f - g_at c k).

(** the total over all cells of all marginals *)
Definition misfit (sizes : list Z) (cs : list (gcon Qc)) (f : list Z -> Qc) : Qc :=
  sumQ (map (fun c => sumQ (map (missQ sizes f c) (all_indices (g_sizes c)))) cs).

(** the cells of the marginal [c] of [f] are at most, or at least, [q] times those asked for *)
Definition at_most (q : Qc) (sizes : list Z) (c : gcon Qc) (f : list Z -> Qc) : Prop :=
  forall k, index_in (g_sizes c) k -> (marginQ sizes (g_dims c) k f <= q * g_at c k)%Qc.
Definition at_least (q : Qc) (sizes : list Z) (c : gcon Qc) (f : list Z -> Qc) : Prop :=
  forall k, index_in (g_sizes c) k -> (q * g_at c k <= marginQ sizes (g_dims c) k f)%Qc.
