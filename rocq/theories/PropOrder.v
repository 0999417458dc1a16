(** Property C82: the table of ipf is determined by the seed and the marginals it has reached.

    In exact arithmetic and for seeds without negative values: two results whose marginals agree are the same table,
    whatever the order of the marginals, their number of rounds, or whether one of them started from an earlier result
    instead of the seed.  The literal claim that the order of the marginals does not matter is false, as the iteration
    stops when the marginals are met to 1e-8. *)
From Coq Require Import QArith Qcanon Permutation.
From Verif Require Import Base Spec NDArray Bind Micro Qis Ipf IpfSpec OrderSpec OrderClaim QisExamples IpfExamples Entropy.
Open Scope Z_scope.

(** two calls with the same seed *)
Theorem C82_determined : forall fuel fuel' seed ilist mlist ilist' mlist' res res',
  called fuel seed ilist mlist res -> called fuel' seed ilist' mlist' res' ->
  (forall i, index_in (shape seed) i -> (0 <= entry 0%Qc seed i)%Qc) ->
  (forall c k, In c (gcons_of 0%Qc ilist mlist ++ gcons_of 0%Qc ilist' mlist') -> index_in (g_sizes c) k ->
     marginQ (shape seed) (g_dims c) k (entry 0%Qc (ir_array res')) = marginQ (shape seed) (g_dims c) k (entry 0%Qc (ir_array res))) ->
  forall i, index_in (shape seed) i -> entry 0%Qc (ir_array res') i = entry 0%Qc (ir_array res) i.
Proof. exact determined_claim. Qed.
Print Assumptions C82_determined.

(** the same marginals in another order: if both results meet them, they are the same table *)
Theorem C82_order : forall fuel fuel' seed ilist mlist ilist' mlist' res res',
  called fuel seed ilist mlist res -> called fuel' seed ilist' mlist' res' ->
  (forall i, index_in (shape seed) i -> (0 <= entry 0%Qc seed i)%Qc) ->
  Permutation (gcons_of 0%Qc ilist mlist) (gcons_of 0%Qc ilist' mlist') ->
  (forall c k, In c (gcons_of 0%Qc ilist mlist) -> index_in (g_sizes c) k ->
     marginQ (shape seed) (g_dims c) k (entry 0%Qc (ir_array res)) = g_at c k /\ marginQ (shape seed) (g_dims c) k (entry 0%Qc (ir_array res')) = g_at c k) ->
  forall i, index_in (shape seed) i -> entry 0%Qc (ir_array res') i = entry 0%Qc (ir_array res) i.
Proof. exact order_claim. Qed.
Print Assumptions C82_order.

(** [res2] is computed from the result of another call in place of the seed *)
Theorem C82_restart : forall fuel fuel1 fuel2 seed ilist mlist ilist1 mlist1 ilist2 mlist2 res res1 res2,
  called fuel seed ilist mlist res -> called fuel1 seed ilist1 mlist1 res1 -> called fuel2 (ir_array res1) ilist2 mlist2 res2 ->
  (forall i, index_in (shape seed) i -> (0 <= entry 0%Qc seed i)%Qc) ->
  (forall c k, In c (gcons_of 0%Qc ilist mlist ++ gcons_of 0%Qc ilist1 mlist1 ++ gcons_of 0%Qc ilist2 mlist2) -> index_in (g_sizes c) k ->
     marginQ (shape seed) (g_dims c) k (entry 0%Qc (ir_array res2)) = marginQ (shape seed) (g_dims c) k (entry 0%Qc (ir_array res))) ->
  forall i, index_in (shape seed) i -> entry 0%Qc (ir_array res2) i = entry 0%Qc (ir_array res) i.
Proof. exact restart_claim. Qed.
Print Assumptions C82_restart.

(** both orders converge, on a positive 2 x 2 seed, after different numbers of rounds and to different tables *)
Theorem C82_order_refuted : exists fuel seed ilist mlist ilist' mlist' r r',
  called fuel seed ilist mlist r /\ called fuel seed ilist' mlist' r' /\ (forall i, index_in (shape seed) i -> (0 < entry 0%Qc seed i)%Qc) /\
  Permutation (gcons_of 0%Qc ilist mlist) (gcons_of 0%Qc ilist' mlist') /\ ir_conv r = true /\ ir_conv r' = true /\
  ir_iters r = 5 /\ ir_iters r' = 4 /\ entry 0%Qc (ir_array r') [0; 0] <> entry 0%Qc (ir_array r) [0; 0].
Proof. exact order_refuted_claim. Qed.
Print Assumptions C82_order_refuted.

(** the hypotheses hold for a 2 x 2 seed: both orders of two marginals, and a restart from the result for two others *)
Example C82_ex : exists r r' r1 r2, called 5 exE_s exI_i exW_m r /\ called 5 exE_s exW_i' exW_m' r' /\
  called 5 exE_s exI_i exQ_m r1 /\ called 5 (ir_array r1) exI_i exW_m r2 /\
  (forall i, index_in [2; 2] i -> (0 < entry 0%Qc exE_s i)%Qc) /\ Permutation (gcons_of 0%Qc exI_i exW_m) (gcons_of 0%Qc exW_i' exW_m') /\
  (forall c k, In c (gcons_of 0%Qc exI_i exW_m) -> index_in (g_sizes c) k ->
    marginQ [2; 2] (g_dims c) k (entry 0%Qc (ir_array r)) = g_at c k /\ marginQ [2; 2] (g_dims c) k (entry 0%Qc (ir_array r')) = g_at c k /\
    marginQ [2; 2] (g_dims c) k (entry 0%Qc (ir_array r2)) = g_at c k).
Proof. exact exW_ok. Qed.
