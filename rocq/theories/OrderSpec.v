(** Specification vocabulary for several calls of ipf on one seed (C82). *)
From Coq Require Import Qcanon.
From Verif Require Import Base Spec SynthSpec Bind Micro Ipf IpfSpec.
Open Scope Z_scope.

(** the call, in exact arithmetic, returns [res]; its arguments are arrays of moderate sizes with index lists without
    repetitions, and [fuel] is enough for the loops *)
Definition called (fuel : nat) (seed : ndarray Qc) (ilist : list (ndarray Z)) (mlist : list (ndarray Qc)) (res : ipf_result Qc) : Prop :=
  g_range 0%Qc ilist mlist /\ all_proper 0%Qc ilist mlist /\ wf_array seed /\ prodZ (shape seed) < 2 ^ 60 /\ prodZ (shape seed) < Z.of_nat fuel /\
  py_ipf_exact fuel seed ilist mlist = Ok res.
