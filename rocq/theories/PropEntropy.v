(** Property C71: the table of ipf, in exact arithmetic, is the one of least divergence. *)
From Coq Require Import Reals Lra QArith Qcanon.
From Verif Require Import Base Spec RealSpec NDArray ArrayOps Bind SynthSpec Micro Ipf IpfSpec IpfExact IpfLimit MicroDbl MicroProofs IpfExamples EntropySpec Entropy.
Open Scope Z_scope.

(** C71: of all tables of non-negative reals that have the marginals of the result and are 0 where the seed is, the result has
    the least divergence from the seed, and it is the only one.  Whether the iteration converged does not matter. *)
Theorem C71_least_divergence : forall fuel seed ilist mlist res p, g_range 0%Qc ilist mlist -> all_proper 0%Qc ilist mlist ->
  wf_array seed -> prodZ (shape seed) < 2 ^ 60 -> prodZ (shape seed) < Z.of_nat fuel ->
  py_ipf_exact fuel seed ilist mlist = Ok res ->
  (forall i, index_in (shape seed) i -> (0 <= entry 0%Qc seed i)%Qc) ->
  (forall i, index_in (shape seed) i -> (0 <= p i)%R) ->
  (forall i, index_in (shape seed) i -> p i <> 0%R -> entry 0%Qc seed i <> 0%Qc) ->
  (forall c k, In c (gcons_of 0%Qc ilist mlist) -> index_in (g_sizes c) k ->
     marginR (shape seed) (g_dims c) k p = marginR (shape seed) (g_dims c) k (entryQ (ir_array res))) ->
  (divergence (shape seed) (entryQ (ir_array res)) (entryQ seed) <= divergence (shape seed) p (entryQ seed))%R /\
  (divergence (shape seed) p (entryQ seed) = divergence (shape seed) (entryQ (ir_array res)) (entryQ seed) ->
   forall i, index_in (shape seed) i -> p i = entryQ (ir_array res) i).
Proof. intros fuel seed ilist mlist res p H1 H2 H3 H4 H5. exact (entropy_claim fuel seed ilist mlist H1 H2 H3 H4 H5 res p). Qed.
Print Assumptions C71_least_divergence.
Example C71_ex : g_range 0%Qc exI_i exQ_m /\ all_proper 0%Qc exI_i exQ_m /\ wf_array exE_s /\
  (exists res, py_ipf_exact 5 exE_s exI_i exQ_m = Ok res /\ map this (flat (ir_array res)) = [1 # 2; 1 # 2; 1 # 2; 1 # 2]%Q /\
   (forall i, index_in [2; 2] i -> (0 <= entryQ exE_p i)%R /\ (0 <= entry 0%Qc exE_s i)%Qc /\ entry 0%Qc exE_s i <> 0%Qc) /\
   (forall c k, In c (gcons_of 0%Qc exI_i exQ_m) -> index_in (g_sizes c) k ->
     marginR [2; 2] (g_dims c) k (entryQ exE_p) = marginR [2; 2] (g_dims c) k (entryQ (ir_array res))) /\
   entryQ exE_p [0; 0] <> entryQ (ir_array res) [0; 0]).
Proof. exact exE_ok. Qed.

(** ... so from a seed of ones the result is the table of greatest entropy with its marginals *)
Theorem C71_greatest_entropy : forall fuel seed ilist mlist res p, g_range 0%Qc ilist mlist -> all_proper 0%Qc ilist mlist ->
  wf_array seed -> prodZ (shape seed) < 2 ^ 60 -> prodZ (shape seed) < Z.of_nat fuel ->
  py_ipf_exact fuel seed ilist mlist = Ok res ->
  (forall i, index_in (shape seed) i -> entry 0%Qc seed i = 1%Qc) ->
  (forall i, index_in (shape seed) i -> (0 <= p i)%R) ->
  (forall c k, In c (gcons_of 0%Qc ilist mlist) -> index_in (g_sizes c) k ->
     marginR (shape seed) (g_dims c) k p = marginR (shape seed) (g_dims c) k (entryQ (ir_array res))) ->
  (entropy (shape seed) p <= entropy (shape seed) (entryQ (ir_array res)))%R /\
  (entropy (shape seed) p = entropy (shape seed) (entryQ (ir_array res)) ->
   forall i, index_in (shape seed) i -> p i = entryQ (ir_array res) i).
Proof. intros fuel seed ilist mlist res p H1 H2 H3 H4 H5. exact (uniform_claim fuel seed ilist mlist H1 H2 H3 H4 H5 res p). Qed.
Print Assumptions C71_greatest_entropy.
Example C71_entropy_ex : wf_array exE_u /\ (forall i, index_in [2; 2] i -> entry 0%Qc exE_u i = 1%Qc) /\
  (exists res, py_ipf_exact 5 exE_u exI_i exQ_m = Ok res /\ map this (flat (ir_array res)) = [1 # 2; 1 # 2; 1 # 2; 1 # 2]%Q).
Proof. exact exU_ok. Qed.
