(** Property C73: the messages of the exceptions.

    [dec], [brackets], [axes], [sums_along], [offence] and [same_but_text] are in MsgSpec.v and do not mention the model. *)
From Verif Require Import Base Spec NDArray ArrayOps Bind Micro SynthSpec Qis Ipf QisExamples Sobol MsgSpec Msg MsgProofs.
Open Scope Z_scope.

(** C73: the constructor with the full text of its messages does what the constructor of the other theorems does *)
Theorem C73_same : forall M T (MO : MargOps M) (ts : M -> string) indices margs,
  same_but_text (micro_new_msg (T := T) MO ts indices margs) (micro_new (T := T) MO indices margs).
Proof. exact @same_claim. Qed.
Print Assumptions C73_same.

(** C73, integer marginals: whatever the constructor says is wrong with the constraints is wrong with them, in the place
    and with the values it says *)
Theorem C73_true : forall T ilist mlist, in_range ilist mlist -> vectors ilist mlist -> let cs := cons_of ilist mlist in
  (forall c, In c cs -> c_total c < 2 ^ 52) ->
  forall e, (let* '(indices, margs) := py_lists to_nd ilist mlist in micro_new_msg (T := T) IntMarg to_string_int indices margs) = Throw e ->
  exists t, e = RuntimeError t /\ offence cs t.
Proof. exact @names_claim. Qed.
Print Assumptions C73_true.
Theorem C73_offence_invalid : forall cs t, offence cs t -> ~ valid cs.
Proof. exact offence_invalid. Qed.
Print Assumptions C73_offence_invalid.

(** C73: the numbers can be read back from the text *)
Theorem C73_readable :
  (forall k d n n' k1 d1 n1 n1',
     ("mismatch at index " ++ ndec k ++ ": dimension " ++ dec d ++ " size " ++ dec n ++ " redefined to " ++ dec n' =
      "mismatch at index " ++ ndec k1 ++ ": dimension " ++ dec d1 ++ " size " ++ dec n1 ++ " redefined to " ++ dec n1')%string ->
     k = k1 /\ d = d1 /\ n = n1 /\ n' = n1') /\
  (forall k v k1 v1, ("negative value in marginal " ++ ndec k ++ ": " ++ dec v = "negative value in marginal " ++ ndec k1 ++ ": " ++ dec v1)%string ->
     k = k1 /\ v = v1) /\
  (forall d d1, ("dimension " ++ ndec d ++ " size not defined" = "dimension " ++ ndec d1 ++ " size not defined")%string -> d = d1) /\
  (forall k a b k1 a1 b1, ("marginal sum mismatch at index " ++ ndec k ++ ": " ++ dec a ++ " vs " ++ dec b =
      "marginal sum mismatch at index " ++ ndec k1 ++ ": " ++ dec a1 ++ " vs " ++ dec b1)%string -> k = k1 /\ a = a1 /\ b = b1) /\
  (forall d i x y d1 i1 x1 y1,
     ("marginal partial sum mismatch in dimension " ++ ndec d ++ " index " ++ ndec i ++ ": " ++ brackets x ++ " vs " ++ brackets y =
      "marginal partial sum mismatch in dimension " ++ ndec d1 ++ " index " ++ ndec i1 ++ ": " ++ brackets x1 ++ " vs " ++ brackets y1)%string ->
     d = d1 /\ i = i1 /\ x = x1 /\ y = y1).
Proof. exact readable_claim. Qed.
Print Assumptions C73_readable.

(** C73: the index in the message about partial sums is not the number of a marginal: here it says dimension 1, index 1, the
    marginal that differs is number 2, and marginal number 1 does not have dimension 1 *)
Theorem C73_partial_index_refuted : exists ilist mlist c, in_range ilist mlist /\ vectors ilist mlist /\
  nth_error (cons_of ilist mlist) 1 = Some c /\ ~ In 1 (c_dims c) /\
  (let* '(indices, margs) := py_lists to_nd ilist mlist in micro_new_msg (T := Z) IntMarg to_string_int indices margs) =
    Throw (RuntimeError "marginal partial sum mismatch in dimension 1 index 1: [4, 6] vs [5, 5]").
Proof. exact index_claim. Qed.
Print Assumptions C73_partial_index_refuted.

(** C73: the messages of the Sobol constructor and of the check of the seed's shape in ipf and qisi *)
Theorem C73_sobol : forall fuel dim nskip,
  ((1 <= dim <= 1111)%N -> sobol_dim_msg (Z.of_N dim) = Ok tt) /\
  (~ (1 <= dim <= 1111)%N ->
     sobol_dim_msg (Z.of_N dim) = Throw (RangeError ("Dim " ++ dec (Z.of_N dim) ++ " is not in valid range [1,1111]")) /\
     exists t, sobol_new fuel dim nskip = Throw (RangeError t)).
Proof. exact sobol_msg_claim. Qed.
Print Assumptions C73_sobol.
Theorem C73_seed : forall seed arr, same_but_text (seed_msg seed arr) (check_seed seed arr) /\
  (seed_msg seed arr = Ok tt <-> seed = arr) /\
  (length seed <> length arr -> seed_msg seed arr = Throw (RuntimeError ("seed dimensions " ++ ndec (length seed) ++
     " is inconsistent with that implied by marginals (" ++ ndec (length arr) ++ ")"))) /\
  (length seed = length arr -> seed <> arr -> seed_msg seed arr = Throw (RuntimeError ("seed dimensions " ++ brackets seed ++
     " are inconsistent with that implied by marginals (" ++ brackets arr ++ ")"))).
Proof. exact seed_msg_claim. Qed.
Print Assumptions C73_seed.

Example C73_ex : in_range exB_i exNeg_m /\ vectors exB_i exNeg_m /\ (forall c, In c (cons_of exB_i exNeg_m) -> c_total c < 2 ^ 52) /\
  (let* '(indices, margs) := py_lists to_nd exB_i exNeg_m in micro_new_msg (T := Z) IntMarg to_string_int indices margs) =
    Throw (RuntimeError "negative value in marginal 1: -12") /\
  (let* '(indices, margs) := py_lists to_nd exB_i exSum_m in micro_new_msg (T := Z) IntMarg to_string_int indices margs) =
    Throw (RuntimeError "marginal sum mismatch at index 1: 11 vs 10") /\
  micro_new_msg (T := Z) IntMarg to_string_int [[0]; [2]] [ND [1] [1] 1 [Some 3]; ND [1] [1] 1 [Some 3]] =
    Throw (RuntimeError "dimension 1 size not defined") /\
  brackets [3; -2; 70] = "[3, -2, 70]"%string.
Proof.
  split; [exact exNeg_range|]. split; [exact exNeg_vectors|]. split; [exact exNeg_total|].
  split; [vm_compute; reflexivity|]. split; [vm_compute; reflexivity|]. split; vm_compute; reflexivity.
Qed.
