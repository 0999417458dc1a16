(** Memories for the examples beside the theorems of PropLifetime.v. *)
From Verif Require Import Base Spec NDArray Float64 Bind IpfExamples Lifetime LifetimeSpec.
Open Scope Z_scope.

Definition exH : mem Z := [BK 1 [2] [Some 4; Some 5]; BK 3 [2] [Some 7; Some 2]].
Lemma exH_held : Forall (held exH) [Same 1; Same 1; Converted (NDA [3] [3; 3; 3])].
Proof. apply Forall_forall. intros a [<- | [<- | [<- | []]]]; cbn; auto; eexists; (split; [reflexivity|]; split; [cbn; lia|]); cbn; repeat constructor; discriminate. Qed.
Definition exG : mem double := [BK 1 [2; 2] (map Some (flat exI_s)); BK 2 [2] (map Some (dz [3; 7])); BK 1 [2] (map Some (dz [4; 6]))].
Lemma exG_held : Forall (held exG) [Same 0; Same 1; Same 2].
Proof. apply Forall_forall. intros a [<- | [<- | [<- | []]]]; cbn; auto; eexists; (split; [reflexivity|]; split; [cbn; lia|]); cbn; repeat constructor; discriminate. Qed.
Lemma exG_held' : Forall (held exG) [Same 0; Same 1; Converted (NDA [2] (dz [4; 6]))].
Proof. pose proof (proj1 (Forall_forall _ _) exG_held) as H. apply Forall_forall. intros a [<- | [<- | [<- | []]]]; [apply H; cbn; auto..|exact I]. Qed.
Lemma exG_converted : ~ Forall shared [Same 1; Converted (NDA [2] (dz [4; 6]))].
Proof. intros H. rewrite Forall_forall in H. exact (H (Converted (NDA [2] (dz [4; 6]))) ltac:(cbn; auto)). Qed.
