(** Valid input for which the remaining solution is empty when a variable is to be selected. *)
From Verif Require Import Base Spec NDArray Float64 Bind Micro Stat Qis Qisi SynthSpec MicroProofs QisClaims QisExamples IpfSpec IpfExamples QisiClaims QisiExamples.
Open Scope Z_scope.

Definition exQ_m : list (ndarray Z) := [NDA [3] [1; 1; 1]; NDA [2] [2; 1]].
Definition exQ_s : ndarray double := NDA [2; 3] (dz [0; 0; 1; 1; 1; 0]).
Lemma exQ_range : in_range exM_i exQ_m. Proof. apply (in_range_by _ _ [2; 3]); vm_compute; reflexivity. Qed.
Lemma exQ_valid : vectors exM_i exQ_m /\ valid (cons_of exM_i exQ_m).
Proof. apply valid_by; [exact exQ_range|vm_compute; reflexivity|vm_compute; reflexivity]. Qed.
Lemma exQ_implied : implied (cons_of exM_i exQ_m) (shape exQ_s). Proof. apply implied_by. vm_compute. reflexivity. Qed.

Lemma qisi_pick_claim : exists seed ilist mlist, in_range ilist mlist /\ vectors ilist mlist /\ valid (cons_of ilist mlist) /\
  implied (cons_of ilist mlist) (shape seed) /\ wf_array seed /\ Forall (fun x => d_leb d_zero x = true) (flat seed) /\
  py_qisi L0 40 seed ilist mlist 0 = Throw (RuntimeError "pick failed").
Proof.
  exists exQ_s, exM_i, exQ_m. split; [exact exQ_range|]. split; [apply exQ_valid|]. split; [apply exQ_valid|]. split; [exact exQ_implied|].
  split; [apply shape_by; vm_compute; reflexivity|]. split; [repeat constructor; vm_compute; reflexivity|]. vm_compute. reflexivity.
Qed.
