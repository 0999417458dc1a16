(** Histories for the examples beside the theorems of PropStorage.v, and a check that a history is legal. *)
From Verif Require Import Base Spec NDArray Storage StorageSpec.
Open Scope Z_scope.

Definition nonempty {A} (l : list A) : bool := match l with [] => false | _ => true end.
Definition good_b (s : list Z) : bool := nonempty s && forallb (Z.ltb 0) s && (prodZ s <? 2 ^ 60).
Definition usable_b (w : world) (p : option nat) (n : Z) : bool :=
  match p with Some b => match nth_error (w_heap w) b with Some x => b_live x && (n <=? b_size x) | None => false end | None => false end.
Definition ptr_eqb (p q : option nat) : bool := match p, q with Some a, Some b => Nat.eqb a b | None, None => true | _, _ => false end.
Fixpoint in_b (s i : list Z) : bool := match s, i with [], [] => true | n :: s', k :: i' => (0 <=? k) && (k <? n) && in_b s' i' | _, _ => false end.
Definition on (w : world) (i : nat) (f : obj -> bool) : bool := match nth_error (w_objs w) i with Some (Some o) => f o | _ => false end.
Definition legal_b (c : op) (w : world) : bool :=
  match c with
  | Default => true
  | Make s _ => nonempty s && forallb (Z.ltb 0) s && (prodZ s <? 2 ^ 63)
  | Extern s b => good_b s && usable_b w (Some b) (prodZ s)
  | Move i | Release i | Destroy i => on w i (fun _ => true)
  | Resize i s fail => good_b s && negb fail && on w i (fun _ => true)
  | Copy i j fail => negb fail && on w i (fun o => on w j (fun o' => nonempty (o_sizes o) && negb (ptr_eqb (o_ptr o) (o_ptr o')) &&
      (o_owned o || usable_b w (o_ptr o) (o_storage o))))
  | Access i idx => on w i (fun o => nonempty (o_sizes o) && in_b (o_sizes o) idx && (o_owned o || usable_b w (o_ptr o) (o_storage o)))
  | Fill i => on w i (fun o => o_owned o || usable_b w (o_ptr o) (o_storage o))
  | CallerNew n _ => 0 <=? n
  | CallerDelete b => match nth_error (w_heap w) b with Some x => b_live x && b_caller x | None => false end
  end.
Fixpoint history_b (ops : list op) (w : world) : bool :=
  match ops with [] => true | c :: ops' => legal_b c w && history_b ops' (fst (step c w)) end.

Lemma nonempty_by {A} (l : list A) : nonempty l = true -> l <> []. Proof. destruct l; easy. Qed.
Lemma pos_by s : forallb (Z.ltb 0) s = true -> positive s.
Proof. intros H. apply Forall_forall. intros n Hn. rewrite forallb_forall in H. specialize (H n Hn). lia. Qed.
Lemma good_by s : good_b s = true -> good_shape s.
Proof. unfold good_b. rewrite !Bool.andb_true_iff. intros [[H1 H2] H3]. split; [now apply nonempty_by|]. split; [now apply pos_by|lia]. Qed.
Lemma usable_by w p n : usable_b w p n = true -> usable w p n.
Proof.
  unfold usable_b, usable. destruct p as [b|]; [|discriminate]. destruct (nth_error (w_heap w) b) as [x|] eqn:E; [|discriminate].
  rewrite Bool.andb_true_iff. intros [L S]. exists b, x. repeat split; auto. lia.
Qed.
Lemma use_by w o : o_owned o || usable_b w (o_ptr o) (o_storage o) = true -> o_owned o = true \/ usable w (o_ptr o) (o_storage o).
Proof. rewrite Bool.orb_true_iff. intros [|H]; auto using usable_by. Qed.
Lemma ptr_by p q : ptr_eqb p q = false -> p <> q.
Proof. intros H ->. destruct q as [b|]; cbn in H; [rewrite Nat.eqb_refl in H|]; discriminate. Qed.
Lemma in_by s i : in_b s i = true -> index_in s i.
Proof.
  revert i. induction s as [|n s IH]; intros [|k i]; cbn; try discriminate; [constructor|]. rewrite !Bool.andb_true_iff. intros [[H1 H2] H3].
  constructor; [lia|]. now apply IH.
Qed.
Lemma on_by w i f : on w i f = true -> exists o, array w i o /\ f o = true.
Proof. unfold on, array. destruct (nth_error (w_objs w) i) as [[o|]|]; try discriminate. eauto. Qed.
Lemma legal_by c w : legal_b c w = true -> legal c w.
Proof.
  destruct c; cbn [legal_b legal]; rewrite ?Bool.andb_true_iff; auto.
  - intros [[H1 H2] H3]. split; [now apply nonempty_by|]. split; [now apply pos_by|lia].
  - intros [H1 H2]. split; [now apply good_by|now apply usable_by].
  - intros H. apply on_by in H as (o & A & _). eauto.
  - intros [[H1 H2] H]. apply on_by in H as (o & A & _). split; [now apply good_by|]. split; [now destruct fail|eauto].
  - intros [H1 H]. split; [now destruct fail|]. apply on_by in H as (o & A & H). apply on_by in H as (o' & A' & H). rewrite !Bool.andb_true_iff in H.
    destruct H as [[H2 H3] H4]. exists o, o'. split; auto. split; auto. split; [now apply nonempty_by|]. split; [|now apply use_by].
    apply ptr_by. now apply Bool.negb_true_iff.
  - intros H. apply on_by in H as (o & A & _). eauto.
  - intros H. apply on_by in H as (o & A & H). rewrite !Bool.andb_true_iff in H. destruct H as [[H1 H2] H3]. exists o. split; auto.
    split; [now apply nonempty_by|]. split; [now apply in_by|now apply use_by].
  - intros H. apply on_by in H as (o & A & H). exists o. split; auto. now apply use_by.
  - intros H. apply on_by in H as (o & A & _). eauto.
  - intros H. lia.
  - destruct (nth_error (w_heap w) b) as [x|]; [|discriminate]. rewrite Bool.andb_true_iff. intros [L C]. eauto.
Qed.
Lemma history_by ops w : history_b ops w = true -> legal_history ops w.
Proof.
  revert w. induction ops as [|c ops IH]; intros w; cbn [history_b legal_history]; auto. rewrite Bool.andb_true_iff. intros [H1 H2].
  split; [now apply legal_by|now apply IH].
Qed.

(** construct, move, grow, shrink, copy, view, release, a constructor that fails, and destroy everything *)
Definition exS_ops : list op :=
  [Make [2; 3] false; Move 0; Resize 1 [4; 5] false; Resize 1 [3] false; Resize 1 [4] false; Default; Copy 1 2 false; Access 2 [3]; Make [2 ^ 40; 2 ^ 22] false;
   CallerNew 8 false; Extern [2; 4] 4; Fill 3; Resize 3 [1] false; Copy 1 3 false; Release 2; Access 2 [0]; Destroy 1; CallerDelete 3; Destroy 0; Destroy 2; Destroy 3].
Lemma exS_legal : legal_history exS_ops start.
Proof. apply history_by. vm_compute. reflexivity. Qed.
