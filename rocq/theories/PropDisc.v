(** Property C86: the first points of the sequence are spread with low discrepancy. *)
From Verif Require Import Base SobolTable Sobol SobolSpec SobolClaims NetSpec DiscSpec DiscProofs.
Open Scope Z_scope.

(** C86: of the first n values of one coordinate, the number below any threshold is off by at most log2 (n + 1) + 2 *)
Theorem C86_one_coordinate : forall dim, (1 <= dim <= 1111)%N -> forall n i x, (N.of_nat n < 2 ^ 32)%N ->
  (i < N.to_nat dim)%nat -> (x <= 2 ^ 32)%N -> off_by dim n [(i, x)] (Z.of_N (N.log2 (N.of_nat n + 1)) + 2).
Proof. exact one_coordinate_claim. Qed.
Print Assumptions C86_one_coordinate.

(** of the first 20 values of coordinate 2, five are below 0.3 *)
Example C86_one_coordinate_ex : hits 3 20 [(2%nat, 1288490188%N)] = 5 /\
  off_by 3 20 [(2%nat, 1288490188%N)] 1 /\ ~ off_by 3 20 [(2%nat, 1288490188%N)] 0.
Proof.
  assert (hits 3 20 [(2%nat, 1288490188%N)] = 5) as E by (vm_compute; reflexivity).
  unfold off_by. rewrite E. split; [reflexivity|]. split; vm_compute; congruence.
Qed.

(** C86: for s coordinates, the number of points in a box with a corner at the origin is off by at most
    1 + 2^(sum of the degrees) (log2 (n + 1) + 1)^s *)
Theorem C86_low_discrepancy : forall dim, (1 <= dim <= 1111)%N -> forall n c, (N.of_nat n < 2 ^ 32)%N -> is_corner dim c ->
  off_by dim n c (1 + 2 ^ degrees c * (Z.of_N (N.log2 (N.of_nat n + 1)) + 1) ^ Z.of_nat (length c)).
Proof. exact low_discrepancy_claim. Qed.
Print Assumptions C86_low_discrepancy.

(** coordinates 0 and 1 below 0.7 and 0.55: the bound is 4 (log2 (n + 1) + 1)^2 + 1, for a million points 1601 of about 385000 *)
Example C86_low_discrepancy_ex :
  let c := [(0%nat, 3006477107%N); (1%nat, 2362232012%N)] in
  is_corner 2 c /\ degrees c = 2 /\ hits 2 20 c = 8 /\
  1 + 2 ^ degrees c * (Z.of_N (N.log2 1000000) + 1) ^ Z.of_nat (length c) = 1601.
Proof.
  cbv zeta. split; [|split; [vm_compute; reflexivity|split; vm_compute; reflexivity]].
  split; [repeat constructor; cbn; intuition lia|]. repeat constructor; (cbn; lia) || (vm_compute; discriminate).
Qed.
