(** Concrete data for the qisi theorems. *)
From Verif Require Import Base Spec NDArray Float64 Bind Micro Stat Qis Qisi SynthSpec MicroProofs QisClaims QisExamples IpfSpec IpfExamples QisiClaims.
(* not used here: the two files take about 4 GB each to check, and this keeps make from checking them at the same time *)
From Verif Require ConvExamples.
Open Scope Z_scope.

Lemma qisi_range_by ilist mlist seed : in_range ilist mlist -> forallb (fun c => c_total c <? 2 ^ 61) (cons_of ilist mlist) = true ->
  shape_b seed = true -> qisi_range ilist mlist seed.
Proof.
  intros Hr H Hs. split; auto. split; [|apply shape_by in Hs; tauto]. intros c Hc. rewrite forallb_forall in H. specialize (H c Hc). lia.
Qed.

Lemma qisi_good_by fuel ilist mlist seed :
  forallb (fun c => nodup_b (c_dims c) && Nat.ltb (length (c_dims c)) (length (shape seed))) (cons_of ilist mlist) = true ->
  prodZ (shape seed) < Z.of_nat fuel -> qisi_good fuel ilist mlist seed.
Proof.
  intros H Hf. split; auto. intros c Hc. rewrite forallb_forall in H. specialize (H c Hc).
  apply Bool.andb_true_iff in H as [H1 H2]. split; [now apply nodup_by|now apply Nat.ltb_lt].
Qed.

(** conv and the cells of a result *)
Definition cells (x : outcome qis_result) : option (bool * list Z) :=
  match x with Ok r => Some (qr_conv r, flat (qr_pop_array r)) | _ => None end.

(** a population of nine, fitted *)
Definition exJ_i : list (ndarray Z) := [NDA [1] [0]; NDA [1] [1]].
Definition exJ_m : list (ndarray Z) := [NDA [2] [7; 2]; NDA [2] [5; 4]].
Definition exJ_s : ndarray double := NDA [2; 2] (dz [1; 2; 3; 1]).
Lemma exJ_range : qisi_range exJ_i exJ_m exJ_s.
Proof. apply qisi_range_by; [apply (in_range_by _ _ [2; 2])| |]; vm_compute; reflexivity. Qed.
Lemma exJ_good : qisi_good 40 exJ_i exJ_m exJ_s.
Proof. apply qisi_good_by; vm_compute; reflexivity. Qed.

(** marginals the zeros of the seed make impossible *)
Definition exK_m : list (ndarray Z) := [NDA [2] [2; 1]; NDA [2] [1; 2]].
Definition exK_s : ndarray double := NDA [2; 2] (dz [1; 0; 0; 1]).
Lemma exK_range : qisi_range exJ_i exK_m exK_s.
Proof. apply qisi_range_by; [apply (in_range_by _ _ [2; 2])| |]; vm_compute; reflexivity. Qed.

(** three dimensions *)
Definition exL_s : ndarray double := NDA [2; 2; 2] (dz [1; 1; 1; 1; 1; 1; 1; 1]).
Lemma exL_range : qisi_range exB_i exB_m exL_s.
Proof. apply qisi_range_by; [apply exB_range| |]; vm_compute; reflexivity. Qed.

(** valid marginals for which a recomputation meets a negative value *)
Definition exM_i : list (ndarray Z) := [NDA [1] [1]; NDA [1] [0]].
Definition exM_m : list (ndarray Z) := [NDA [3] [1; 1; 1]; NDA [2] [2; 1]].
Definition exM_s : ndarray double := NDA [2; 3] (dz [1; 0; 0; 0; 1; 1]).
Lemma exM_range : in_range exM_i exM_m. Proof. apply (in_range_by _ _ [2; 3]); vm_compute; reflexivity. Qed.
Lemma exM_valid : vectors exM_i exM_m /\ valid (cons_of exM_i exM_m).
Proof. apply valid_by; [exact exM_range|vm_compute; reflexivity|vm_compute; reflexivity]. Qed.
Lemma exM_implied : implied (cons_of exM_i exM_m) (shape exM_s). Proof. apply implied_by. vm_compute. reflexivity. Qed.

Lemma qisi_raises_claim : exists seed ilist mlist, in_range ilist mlist /\ vectors ilist mlist /\ valid (cons_of ilist mlist) /\
  implied (cons_of ilist mlist) (shape seed) /\ wf_array seed /\ Forall (fun x => d_leb d_zero x = true) (flat seed) /\
  py_qisi L0 40 seed ilist mlist 0 = Throw (RuntimeError "negative value in marginal").
Proof.
  exists exM_s, exM_i, exM_m. split; [exact exM_range|]. split; [apply exM_valid|]. split; [apply exM_valid|]. split; [exact exM_implied|].
  split; [apply shape_by; vm_compute; reflexivity|]. split; [repeat constructor; vm_compute; reflexivity|]. vm_compute. reflexivity.
Qed.

(** a marginal on all the dimensions of the array *)
Definition exP_i : list (ndarray Z) := [NDA [2] [0; 1]; NDA [1] [0]].
Definition exP_m : list (ndarray Z) := [NDA [2; 2] [1; 2; 3; 4]; NDA [2] [3; 7]].
Lemma exP_range : qisi_range exP_i exP_m exJ_s.
Proof. apply qisi_range_by; [apply (in_range_by _ _ [2; 2])| |]; vm_compute; reflexivity. Qed.
Lemma exP_valid : vectors exP_i exP_m /\ valid (cons_of exP_i exP_m).
Proof. apply valid_by; [apply exP_range|vm_compute; reflexivity|vm_compute; reflexivity]. Qed.
