(** Property C40.

    A history is a list of operations on arrays, from the empty world [start]; exceptions are caught and the history
    goes on.  [legal_history] is the discipline of StorageSpec.v.  Deleting a block twice, using a freed block and
    reaching beyond a block are all undefined behaviour in the model, so [Ok tt] excludes them. *)
From Verif Require Import Base Spec NDArray Storage StorageSpec StorageProofs StorageExamples.
Open Scope Z_scope.

(** C40: no history goes wrong; arrays that own their memory have a live block, large enough and theirs alone *)
Theorem C40_history : forall ops, legal_history ops start -> snd (run ops start) = Ok tt /\ sound (fst (run ops start)).
Proof. exact history_claim. Qed.
Print Assumptions C40_history.

(** C40: nothing leaks; when all arrays are destroyed only blocks of the caller are left *)
Theorem C40_no_leak : forall ops, legal_history ops start -> let w := fst (run ops start) in no_leak w /\
  (all_destroyed w -> forall b x, nth_error (w_heap w) b = Some x -> b_caller x = false -> b_live x = false).
Proof. exact leak_claim. Qed.
Print Assumptions C40_no_leak.
Example C40_ex : legal_history exS_ops start /\ forallb (fun o => match o with None => true | _ => false end) (w_objs (fst (run exS_ops start))) = true /\
  map b_live (w_heap (fst (run exS_ops start))) = [false; false; false; false; true] /\
  map b_caller (w_heap (fst (run exS_ops start))) = [false; false; false; true; true].
Proof. split; [exact exS_legal|]. vm_compute. repeat split; reflexivity. Qed.

(** C40 is false when a resize runs out of memory: after any history, growing an array beyond what can be allocated
    throws and leaves it owning the freed block, which the destructor frees again *)
Theorem C40_refuted : forall ops w i o sizes fail, legal_history ops start -> w = fst (run ops start) -> array w i o -> o_owned o = true -> o_sizes o <> [] ->
  sizes <> [] -> positive sizes -> prodZ (o_sizes o) < prodZ sizes < 2 ^ 63 -> fail = true \/ 2 ^ 60 <= prodZ sizes ->
  snd (step (Resize i sizes fail) w) = Throw BadAlloc /\
  snd (run [Resize i sizes fail; Destroy i] w) = UB "double free" /\
  snd (run [Resize i sizes fail; Fill i] w) = UB "use after free".
Proof. exact resize_throws_claim. Qed.
Print Assumptions C40_refuted.
Example C40_refuted_ex : legal_history [Make [2; 3] false] start /\
  match w_objs (fst (run [Make [2; 3] false] start)) with [Some o] => o_owned o = true /\ o_sizes o = [2; 3] | _ => False end /\
  snd (run [Make [2; 3] false; Resize 0 [2 ^ 30; 2 ^ 30] false; Destroy 0] start) = UB "double free".
Proof. split; [apply history_by; reflexivity|]. vm_compute. repeat split; reflexivity. Qed.
