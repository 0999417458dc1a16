(** Sampling without replacement: C47 and C54.  Nothing but statements, examples and their assumptions. *)
From Verif Require Import Base Spec Ddwr DdwrProofs.
Open Scope Z_scope.

(** C47: drawing as often as there are individuals returns each state exactly as often as its frequency, whatever the
    variates; the next draw throws *)
Theorem C47_deplete : forall freq rs, frequencies freq -> Forall variate rs -> Z.of_nat (length rs) = sumZ freq ->
  exists drawn d, ddwr_draws (ddwr_new freq) rs = Ok (drawn, d) /\ (forall k, nth k freq 0 = occurs drawn k) /\
    (forall i, In i drawn -> 0 <= i < Z.of_nat (length freq)) /\
    forall r, variate r -> ddwr_draw d r = Throw (RuntimeError "distribution is depleted").
Proof. exact deplete_claim. Qed.
Print Assumptions C47_deplete.

(** ... and on the way no state is drawn more often than its frequency, the rest being what is left *)
Theorem C47_prefix : forall freq rs, frequencies freq -> Forall variate rs -> Z.of_nat (length rs) <= sumZ freq ->
  exists drawn d, ddwr_draws (ddwr_new freq) rs = Ok (drawn, d) /\ length drawn = length rs /\ (forall i, In i drawn -> 0 <= i < Z.of_nat (length freq)) /\
    forall k, occurs drawn k <= nth k freq 0 /\ nth k (dd_freq d) 0 = nth k freq 0 - occurs drawn k.
Proof. exact partial_claim. Qed.
Print Assumptions C47_prefix.

Definition ex_freq : list Z := [2; 0; 3; 1].
Definition ex_rs : list Z := [2 ^ 31; 2 ^ 32 - 1; 0; 2 ^ 30; 3 * 2 ^ 30; 12345].
Example C47_ex : frequencies ex_freq /\ Forall variate ex_rs /\ Z.of_nat (length ex_rs) = sumZ ex_freq /\
  match ddwr_draws (ddwr_new ex_freq) ex_rs with Ok (drawn, _) => drawn = [2; 3; 0; 0; 2; 2] | _ => False end.
Proof.
  split; [split; [repeat constructor; discriminate|reflexivity]|]. split; [unfold ex_rs; repeat constructor; lia|]. split; [reflexivity|]. vm_compute. reflexivity.
Qed.

(** the bound on the total is needed: with a total of 2^32 the distribution counts as depleted from the start *)
Theorem C47_wrap : exists freq, Forall (fun x => 0 <= x < 2 ^ 32) freq /\ sumZ freq = 2 ^ 32 /\
  forall r, ddwr_draw (ddwr_new freq) r = Throw (RuntimeError "distribution is depleted").
Proof. exact wrap_claim. Qed.
Print Assumptions C47_wrap.

(** C54 is false: if no state is allowed, state 0 is drawn whenever there is one left *)
Theorem C54_refuted : forall freq r, frequencies freq -> variate r -> 0 < nth 0 freq 0 ->
  exists d, ddwr_constrained (ddwr_new freq) r 0 = Ok (Some 0, d).
Proof. exact forbidden_claim. Qed.
Print Assumptions C54_refuted.
Example C54_refuted_ex : frequencies ex_freq /\ variate 5 /\ 0 < nth 0 ex_freq 0.
Proof. split; [exact (proj1 C47_ex)|]. split; [split; [discriminate|reflexivity]|reflexivity]. Qed.

(** the part of C54 that holds: with at least one allowed state, an allowed state with individuals left is drawn, or
    invalid_state (None) is returned exactly if there is none, leaving the distribution as it was *)
Theorem C54_allowed : forall freq r k, frequencies freq -> variate r -> 0 < sumZ freq -> 0 < k ->
  let allowed := sumZ (firstn (Z.to_nat k) freq) in
  (allowed = 0 -> ddwr_constrained (ddwr_new freq) r k = Ok (None, ddwr_new freq)) /\
  (0 < allowed -> exists j, ddwr_constrained (ddwr_new freq) r k = Ok (Some (Z.of_nat j), ddwr_new (less freq j)) /\
     Z.of_nat j < k /\ (j < length freq)%nat /\ 0 < nth j freq 0).
Proof. exact constrained_claim. Qed.
Print Assumptions C54_allowed.
Example C54_ex : frequencies [0; 0; 3] /\ match ddwr_constrained (ddwr_new [0; 0; 3]) 77 2, ddwr_constrained (ddwr_new [0; 0; 3]) 77 3 with
  | Ok (None, _), Ok (Some 2, d) => dd_freq d = [0; 0; 2] | _, _ => False end.
Proof. split; [split; [repeat constructor; discriminate|reflexivity]|]. vm_compute. reflexivity. Qed.
