(** Properties C18 and C39.

    The [_mem] functions are the Python entry points on a memory of reference-counted buffers; an argument is either an
    array with the wanted dtype, whose buffer the call shares ([Same]), or is converted to a temporary ([Converted]).
    [held h arg]: the caller holds a reference to the array and it is initialised.  [value h arg] is its value.
    The same buffer may be passed several times. *)
From Flocq Require Import IEEE754.BinarySingleNaN.
From Verif Require Import Base Spec NDArray Float64 ArrayOps Bind Micro Stat Qis Ipf Qisi Integerise QisExamples IpfExamples QisiExamples
  Lifetime LifetimeSpec LifetimeClaims LifetimeExamples.
Open Scope Z_scope.

(** C18: when a call returns or raises, the caller's buffers have the contents and the reference counts they had *)
Theorem C18_qis : forall L fuel ilist mlist skips h, Forall (held h) mlist ->
  completes (snd (qis_mem L fuel ilist mlist skips h)) -> unchanged h (fst (qis_mem L fuel ilist mlist skips h)).
Proof. exact qis_kept. Qed.
Print Assumptions C18_qis.
Theorem C18_qisi : forall L fuel seed ilist mlist skips hd h, held hd seed -> Forall (held h) mlist ->
  let r := qisi_mem L fuel seed ilist mlist skips hd h in completes (snd (snd r)) -> unchanged hd (fst r) /\ unchanged h (fst (snd r)).
Proof. exact qisi_kept. Qed.
Print Assumptions C18_qisi.
Theorem C18_ipf : forall fuel seed ilist mlist h, held h seed -> Forall (held h) mlist ->
  completes (snd (ipf_mem fuel seed ilist mlist h)) -> unchanged h (fst (ipf_mem fuel seed ilist mlist h)).
Proof. exact ipf_kept. Qed.
Print Assumptions C18_ipf.
Theorem C18_integerise : forall L fuel arg h, held h arg ->
  completes (snd (integerise_mem L fuel arg h)) -> unchanged h (fst (integerise_mem L fuel arg h)).
Proof. exact integerise_kept. Qed.
Print Assumptions C18_integerise.
Theorem C18_flatten : forall arg h, held h arg -> completes (snd (flatten_mem arg h)) -> unchanged h (fst (flatten_mem arg h)).
Proof. exact flatten_kept. Qed.
Print Assumptions C18_flatten.

(** one buffer passed for two marginals, with another that the call must leave alone, and a converted array *)
Example C18_ex : Forall (held exH) [Same 1; Same 1; Converted (NDA [3] [3; 3; 3])] /\
  match qis_mem L0 40 [NDA [1] [0]; NDA [1] [1]; NDA [1] [2]] [Same 1; Same 1; Converted (NDA [3] [3; 3; 3])] 0 exH with
  | (h', Ok r) => qr_pop r = 9 /\ qr_conv r = true /\ firstn 2 h' = exH /\ map bk_refs (skipn 2 h') = [0; 0; 0; 0] /\
      bk_cells (nth 2 h' (BK 0 [] [])) = [Some 0; Some 0]
  | _ => False
  end.
Proof. split; [exact exH_held|]. vm_compute. repeat split; reflexivity. Qed.

(** C39: qis, qisi, integerise and flatten compute what they would on the values, so nothing freed is read *)
Theorem C39_qis : forall L fuel ilist mlist skips h, Forall (held h) mlist ->
  snd (qis_mem L fuel ilist mlist skips h) = py_qis L fuel ilist (map (value h) mlist) skips.
Proof. exact qis_reads. Qed.
Print Assumptions C39_qis.
Theorem C39_qisi : forall L fuel seed ilist mlist skips hd h, held hd seed -> Forall (held h) mlist ->
  snd (snd (qisi_mem L fuel seed ilist mlist skips hd h)) = py_qisi L fuel (value hd seed) ilist (map (value h) mlist) skips.
Proof. exact qisi_reads. Qed.
Print Assumptions C39_qisi.
Theorem C39_integerise : forall L fuel arg h, held h arg -> snd (integerise_mem L fuel arg h) = py_integerise L fuel (value h arg).
Proof. exact integerise_reads. Qed.
Print Assumptions C39_integerise.
Theorem C39_flatten : forall arg h, held h arg -> snd (flatten_mem arg h) = flatten (value h arg).
Proof. exact flatten_reads. Qed.
Print Assumptions C39_flatten.
(** and so does ipf when every marginal already is a float64 array *)
Theorem C39_ipf_shared : forall fuel seed ilist mlist h, held h seed -> Forall (held h) mlist -> Forall shared mlist ->
  snd (ipf_mem fuel seed ilist mlist h) = py_ipf fuel (value h seed) ilist (map (value h) mlist).
Proof. exact ipf_reads. Qed.
Print Assumptions C39_ipf_shared.

Example C39_ex : Forall (held exG) [Same 0; Same 1; Same 2] /\ value exG (Same 0) = exI_s /\ map (value exG) [Same 1; Same 2] = exI_m /\
  match snd (ipf_mem 5 (Same 0) exI_i [Same 1; Same 2] exG) with Ok r => ir_conv r = true /\ ir_pop r = 10 | _ => False end.
Proof. split; [exact exG_held|]. split; [reflexivity|]. split; [reflexivity|]. vm_compute. repeat split; reflexivity. Qed.

(** C39 is false for ipf: if any marginal is converted, a call that would succeed reads a freed buffer *)
Theorem C39_ipf_refuted : forall fuel seed ilist mlist h res, held h seed -> Forall (held h) mlist -> ~ Forall shared mlist ->
  py_ipf fuel (value h seed) ilist (map (value h) mlist) = Ok res -> exists w, snd (ipf_mem fuel seed ilist mlist h) = UB w.
Proof. exact ipf_mem_stale. Qed.
Print Assumptions C39_ipf_refuted.
Example C39_ipf_ex : Forall (held exG) [Same 0; Same 1; Converted (NDA [2] (dz [4; 6]))] /\ ~ Forall shared [Same 1; Converted (NDA [2] (dz [4; 6]))] /\
  map (value exG) [Same 1; Converted (NDA [2] (dz [4; 6]))] = exI_m /\
  match py_ipf 5 exI_s exI_i exI_m with Ok r => ir_conv r = true | _ => False end /\
  match snd (ipf_mem 5 (Same 0) exI_i [Same 1; Converted (NDA [2] (dz [4; 6]))] exG) with UB _ => True | _ => False end.
Proof.
  split; [exact exG_held'|]. split; [exact exG_converted|].
  split; [reflexivity|]. split; vm_compute; constructor.
Qed.
