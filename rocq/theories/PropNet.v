(** Property C72: the points of any choice of coordinates are spread evenly over boxes. *)
From Verif Require Import Base SobolTable Sobol SobolSpec SobolClaims NetSpec NetProofs NetHalf.
Open Scope N_scope.

(** C72: whatever coordinates a box constrains, once a block is as large as the box's inverse volume with every side
    rounded up to a multiple of the degree of its polynomial, each aligned block has its exact share of points there *)
Theorem C72_net : forall dim m t b, 1 <= dim <= 1111 -> is_box dim b -> span b <= m -> m <= 32 ->
  (t + 1) * 2 ^ m <= 2 ^ 32 -> block_count dim m t b (2 ^ (m - bits b)).
Proof. exact net_claim. Qed.
Print Assumptions C72_net.

(** the cube of side 1/4 in coordinates 0, 1, 2; and a slice in coordinates 4 and 1110 *)
Example C72_net_ex :
  span [(0%nat, 2, 1); (1%nat, 2, 3); (2%nat, 2, 0)] = 6 /\
  filter (fun n => match nth_draw 3 n with
                   | Ok p => (N.shiftr (nth 0 p 0) 30 =? 1) && (N.shiftr (nth 1 p 0) 30 =? 3) && (N.shiftr (nth 2 p 0) 30 =? 0)
                   | _ => false end) (SobolProofs.nrange 64) = [51].
Proof. vm_compute. auto. Qed.
Example C72_net_ex2 : block_count 1111 19 5 [(4%nat, 4, 9); (1110%nat, 10, 77)] 32.
Proof.
  refine (C72_net 1111 19 5 [(4%nat, 4, 9); (1110%nat, 10, 77)] _ _ _ _ _); try (vm_compute; discriminate || (split; discriminate)).
  split; [constructor; [intros [E|[]]; discriminate E|constructor; [intros []|constructor]]|].
  intros i k v [E|[E|[]]]; injection E as <- <- <-; repeat split; try lia; vm_compute; reflexivity || discriminate.
Qed.

(** C72: the classical form: the quality parameter of a set of coordinates is the sum of the degrees less one *)
Theorem C72_quality : forall dim m t b, 1 <= dim <= 1111 -> is_box dim b ->
  bits b + quality (map (fun '(i, _, _) => i) b) <= m -> m <= 32 ->
  (t + 1) * 2 ^ m <= 2 ^ 32 -> block_count dim m t b (2 ^ (m - bits b)).
Proof. exact quality_claim. Qed.
Print Assumptions C72_quality.
Example C72_quality_ex : map (fun s => quality (seq 0 s)) (seq 1 12) = [0; 0; 1; 3; 5; 8; 11; 15; 19; 23; 27; 31].
Proof. vm_compute. reflexivity. Qed.

(** C72: the first d <= 32 coordinates: one point of every aligned block of 2^d in each of the 2^d half-boxes *)
Theorem C72_halves : forall dim d t b, 1 <= dim <= 1111 -> (0 < d <= 32)%nat -> is_box dim b -> halves d b ->
  (t + 1) * 2 ^ N.of_nat d <= 2 ^ 32 -> block_count dim (N.of_nat d) t b 1.
Proof. exact half_claim. Qed.
Print Assumptions C72_halves.
Example C72_halves_ex :
  map (fun n => match nth_draw 3 n with Ok p => map (fun x => N.shiftr x 31) p | _ => [] end) [8; 9; 10; 11; 12; 13; 14; 15]
  = [[0; 0; 0]; [1; 1; 1]; [1; 0; 1]; [0; 1; 0]; [0; 0; 1]; [1; 1; 0]; [1; 0; 0]; [0; 1; 1]].
Proof. vm_compute. reflexivity. Qed.

(** C72: the size condition of C72_net is not idle: seven coordinates confined to quarters, block of 2^14 *)
Theorem C72_small_blocks : is_box 7 quarters7 /\ bits quarters7 = 14 /\ ~ block_count 7 14 0 quarters7 1.
Proof. exact (conj (proj1 quarters_box) (conj (proj2 quarters_box) quarters_claim)). Qed.
Print Assumptions C72_small_blocks.
