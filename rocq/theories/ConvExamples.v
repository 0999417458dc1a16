(** A feasible problem on which ipf needs more than 1000 iterations. *)
From Coq Require Import QArith Qcanon.
From Flocq Require Import IEEE754.BinarySingleNaN.
From Verif Require Import Base Spec SpecFacts NDArray Float64 Bind Micro Qis SynthSpec Ipf IpfSpec IpfDbl QisExamples IpfExamples.
Open Scope Z_scope.

Definition exK_s : ndarray Qc := NDA [2; 2] [Q2Qc 1; Q2Qc 1; Q2Qc 0; Q2Qc 1].
Definition exK_p (i : list Z) : Qc := if idx_eqb i [0; 0] || idx_eqb i [1; 1] then 1%Qc else 0%Qc.

Lemma in_2x2 i : index_in [2; 2] i -> In i [[0; 0]; [0; 1]; [1; 0]; [1; 1]].
Proof. intros Hi. apply in_all_indices in Hi. exact Hi. Qed.

Lemma limit_refuted_claim : exists fuel seed ilist mlist res p, g_range 0%Qc ilist mlist /\ all_proper 0%Qc ilist mlist /\ wf_array seed /\
  prodZ (shape seed) < 2 ^ 60 /\ prodZ (shape seed) < Z.of_nat fuel /\ py_ipf_exact fuel seed ilist mlist = Ok res /\
  (forall i, index_in (shape seed) i -> (0 <= entry 0%Qc seed i)%Qc) /\
  (forall i, index_in (shape seed) i -> (0 <= p i)%Qc) /\
  (forall i, index_in (shape seed) i -> p i <> 0%Qc -> entry 0%Qc seed i <> 0%Qc) /\
  (forall c k, In c (gcons_of 0%Qc ilist mlist) -> index_in (g_sizes c) k -> marginQ (shape seed) (g_dims c) k p = g_at c k) /\
  ir_conv res = false /\ ir_iters res = 1000.
Proof.
  exists 5%nat, exK_s, exI_i, exQ_m.
  assert ((match py_ipf_exact 5 exK_s exI_i exQ_m with Ok r => negb (ir_conv r) && (ir_iters r =? 1000) | _ => false end) = true) as H
    by (vm_compute; reflexivity).
  destruct (py_ipf_exact 5 exK_s exI_i exQ_m) as [r| | |]; try discriminate. exists r, exK_p. apply Bool.andb_true_iff in H as [H1 H2].
  split; [exact exQ_range|]. split; [exact exQ_proper|]. split; [apply shape_by; vm_compute; reflexivity|].
  split; [reflexivity|]. split; [reflexivity|]. split; [reflexivity|].
  split; [intros i Hi; apply in_2x2 in Hi; destruct Hi as [<-|[<-|[<-|[<-|[]]]]]; vm_compute; discriminate|].
  split; [intros i Hi; apply in_2x2 in Hi; destruct Hi as [<-|[<-|[<-|[<-|[]]]]]; vm_compute; discriminate|].
  split; [intros i Hi Hn; apply in_2x2 in Hi; destruct Hi as [<-|[<-|[<-|[<-|[]]]]]; try (intros E; apply (f_equal (fun q => Qnum (this q))) in E; vm_compute in E; discriminate); exfalso; apply Hn; reflexivity|].
  split; [|split; [now destruct (ir_conv r)|lia]].
  intros c k Hc Hk. cbn in Hc. assert (In k [[0]; [1]]) as Hk' by (destruct Hc as [<-|[<-|[]]]; apply in_all_indices in Hk; exact Hk).
  clear Hk. destruct Hc as [<-|[<-|[]]]; destruct Hk' as [<-|[<-|[]]]; apply Qc_is_canon; vm_compute; reflexivity.
Qed.

Lemma double_refuted_claim : exists fuel res, py_ipf fuel (NDA [2; 2] (dz [1; 1; 0; 1])) [NDA [1] [0]; NDA [1] [1]] [NDA [2] (dz [1; 1]); NDA [2] (dz [1; 1])] = Ok res /\
  ir_conv res = false /\ ir_iters res = 1000.
Proof.
  exists 5%nat.
  assert ((match py_ipf 5 (NDA [2; 2] (dz [1; 1; 0; 1])) [NDA [1] [0]; NDA [1] [1]] [NDA [2] (dz [1; 1]); NDA [2] (dz [1; 1])] with
           Ok r => negb (ir_conv r) && (ir_iters r =? 1000) | _ => false end) = true) as H by (vm_compute; reflexivity).
  destruct (py_ipf _ _ _ _) as [r| | |]; try discriminate. exists r. apply Bool.andb_true_iff in H as [H1 H2].
  split; [reflexivity|]. split; [now destruct (ir_conv r)|lia].
Qed.
