(** Checking the hypotheses of the theorems about the R binding on concrete data. *)
From Coq Require Import Reals.
From Flocq Require Import IEEE754.BinarySingleNaN.
From Verif Require Import Base Spec SpecFacts NDArray Float64 ArrayOps Bind Micro Qis SynthSpec QisExamples IpfSpec IpfDbl IpfExamples RSpec RApi RApiProofs RApiClaims.
Open Scope Z_scope.

Definition rshape_b {T} (m : rarray T) : bool :=
  negb (Nat.eqb (length (col_sizes m)) 0) && forallb (Z.ltb 0) (col_sizes m) &&
  (Z.of_nat (length (r_data m)) =? prodZ (col_sizes m)) && (prodZ (col_sizes m) <? 2 ^ 60) && (Z.of_nat (length (col_sizes m)) <? 2 ^ 31).
Lemma rshape_by {T} (m : rarray T) : rshape_b m = true ->
  wf_rarray m /\ prodZ (col_sizes m) < 2 ^ 60 /\ Z.of_nat (length (col_sizes m)) < 2 ^ 31.
Proof.
  unfold rshape_b. rewrite !Bool.andb_true_iff. intros [[[[H1 H2] H3] H4] H5]. split; [|lia].
  split; [intros E; rewrite E in H1; discriminate|]. split; [|lia]. apply Forall_forall. intros n Hn.
  rewrite forallb_forall in H2. specialize (H2 n Hn). lia.
Qed.

Lemma rg_range_by {M} (df : M) indices marginals rs : forallb rshape_b marginals = true -> length indices = length marginals ->
  get_dimension indices marginals = Ok rs -> prodZ rs < 2 ^ 60 -> rg_range df indices marginals.
Proof.
  intros H Hl Eg Hp. split.
  - apply Forall_forall. intros m Hm. apply rshape_by. rewrite forallb_forall in H. auto.
  - intros b s Hs. replace b with ((b + Z.of_nat (length s) - 1) + 1 - Z.of_nat (length s)) in Hs by lia.
    apply implied_rev in Hs; auto. rewrite (get_dimension_rev df _ _ _ _ _ Hl Eg Hs), rev_involutive in Hp. exact Hp.
Qed.

Lemma r_range_by indices marginals rs :
  forallb (fun m => forallb (fun x => (- 2 ^ 31 <=? x) && (x <? 2 ^ 31)) (r_data m) &&
                    (total (col_sizes m) (fun k => Z.abs (r_entry 0 m k)) <? 2 ^ 61)) marginals = true ->
  forallb rshape_b marginals = true -> length indices = length marginals ->
  get_dimension indices marginals = Ok rs -> prodZ rs < 2 ^ 60 -> r_range indices marginals.
Proof.
  intros H H1 H2 H3 H4. split; [|eapply rg_range_by; eauto]. apply Forall_forall. intros m Hm. rewrite forallb_forall in H. specialize (H m Hm).
  apply Bool.andb_true_iff in H as [Ha Hb]. split; [|lia]. apply Forall_forall. intros x Hx. rewrite forallb_forall in Ha. specialize (Ha x Hx). lia.
Qed.

Lemma r_seed_by sdim sdata : rshape_b (RA (Some sdim) sdata) = true -> r_seed sdim sdata.
Proof. intros H. apply rshape_by in H. split; apply H. Qed.

Lemma r_proper_by n indices : forallb (fun iv => nodup_b iv && Nat.ltb (length iv) n) indices = true -> r_proper n indices.
Proof.
  intros H. apply Forall_forall. intros iv Hiv. rewrite forallb_forall in H. specialize (H iv Hiv). apply Bool.andb_true_iff in H as [H1 H2].
  split; [now apply nodup_by|now apply Nat.ltb_lt].
Qed.

(** the example of the documentation of ipf: age by gender and ethnicity by gender *)
Definition exR_i : list (list Z) := [[1; 2]; [3; 2]].
Definition exR_m : list (rarray Z) := [RA (Some [5; 2]) [1; 2; 5; 3; 4; 3; 4; 5; 1; 2]; RA (Some [3; 2]) [4; 6; 5; 6; 4; 5]].
Definition exR_d : list (rarray double) := [RA (Some [5; 2]) (dz [1; 2; 5; 3; 4; 3; 4; 5; 1; 2]); RA (Some [3; 2]) (dz [4; 6; 5; 6; 4; 5])].
Definition exR_sdim : list Z := [5; 2; 3].
Definition exR_sdata : list double := dz (repeat 1 30).
Lemma exR_range : r_range exR_i exR_m. Proof. apply (r_range_by _ _ [5; 2; 3]); vm_compute; reflexivity. Qed.
Lemma exR_drange : rg_range d_zero exR_i exR_d. Proof. apply (rg_range_by _ _ _ [5; 2; 3]); vm_compute; reflexivity. Qed.
Lemma exR_seed : r_seed exR_sdim exR_sdata. Proof. apply r_seed_by. vm_compute. reflexivity. Qed.
Lemma exR_proper : r_proper (length exR_sdim) exR_i. Proof. apply r_proper_by. vm_compute. reflexivity. Qed.
Lemma exR_implied : implied (rcons_of exR_i exR_m) [5; 2; 3]. Proof. apply implied_by. vm_compute. reflexivity. Qed.
Lemma exR_dimplied : implied (map outline (rgcons_of d_zero exR_i exR_d)) [5; 2; 3]. Proof. apply implied_by. vm_compute. reflexivity. Qed.

(** a view without reals: conv and the cells *)
Definition r_view (x : outcome r_result) : option (bool * Z * list Z) :=
  match x with Ok r => Some (rr_conv r, rr_pop r, r_data (rr_result r)) | _ => None end.
