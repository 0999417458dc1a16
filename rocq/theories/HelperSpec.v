(** Vocabulary for the helper functions (C76, C77). *)
From Verif Require Import Base Spec.
Open Scope Z_scope.

Definition int64 (z : Z) : Prop := - 2 ^ 63 <= z < 2 ^ 63.

(** the entries of the rows of m at the places given by idx *)
Fixpoint chosen (m : list (list Z)) (idx : list Z) : list Z :=
  match m, idx with
  | row :: m', i :: idx' => nth (Z.to_nat i) row 0 :: chosen m' idx'
  | _, _ => []
  end.
(** one place for each row, inside it *)
Definition places (m : list (list Z)) (idx : list Z) : Prop := Forall2 (fun row i => 0 <= i < Z.of_nat (length row)) m idx.
