(** Property C74: qis and the existence of a population.

    [decomposable], [agree_on_shared] and [feasible] are in DecompSpec.v; L is the mathematical library, used for the
    statistics only. *)
From Coq Require Import Permutation.
From Verif Require Import Base Spec NDArray Bind SobolSpec Micro Qis SynthSpec QisExamples DecompSpec DecompProofs.
Open Scope Z_scope.

(** C74: for decomposable constraints qis returns conv = True exactly if a table with the marginals exists *)
Theorem C74_exists : forall L fuel ilist mlist skips, let cs := cons_of ilist mlist in
  in_range ilist mlist -> vectors ilist mlist -> valid cs -> decomposable cs ->
  (forall sizes, implied cs sizes -> (length sizes <= 1111)%nat) ->
  0 <= skips <= 2 ^ 31 -> (forall c, In c cs -> c_total c + Z.of_N (skipped (Z.to_N skips)) <= 2 ^ 32 - 1) -> (32 <= fuel)%nat ->
  (feasible cs <-> exists res, py_qis L fuel ilist mlist skips = Ok res /\ qr_conv res = true).
Proof. exact decomp_iff. Qed.
Print Assumptions C74_exists.

(** C74: it is enough that the constraints agree pairwise on the dimensions they share *)
Theorem C74_pairwise : forall L fuel ilist mlist skips, let cs := cons_of ilist mlist in
  in_range ilist mlist -> vectors ilist mlist -> valid cs -> decomposable cs -> agree_on_shared cs ->
  (forall sizes, implied cs sizes -> (length sizes <= 1111)%nat) ->
  0 <= skips <= 2 ^ 31 -> (forall c, In c cs -> c_total c + Z.of_N (skipped (Z.to_N skips)) <= 2 ^ 32 - 1) -> (32 <= fuel)%nat ->
  exists res, py_qis L fuel ilist mlist skips = Ok res /\ qr_conv res = true.
Proof. exact decomp_claim. Qed.
Print Assumptions C74_pairwise.

(** C74: the constraints of C05 are decomposable *)
Theorem C74_includes_C05 : forall cs, share_at_most_one cs -> decomposable cs.
Proof. exact share_decomposable. Qed.
Print Assumptions C74_includes_C05.

(** C74 for any constraints is false: a ring of three marginals that a population has, for which qis returns another one *)
Theorem C74_ring_refuted : exists ilist mlist res, in_range ilist mlist /\ vectors ilist mlist /\ valid (cons_of ilist mlist) /\
  (exists a, forallb (Z.leb 0) (flat a) = true /\ implied (cons_of ilist mlist) (shape a) /\
     forall c, In c (cons_of ilist mlist) -> meets (shape a) (entry 0 a) c) /\
  py_qis L0 40 ilist mlist 0 = Ok res /\ qr_conv res = false.
Proof. exact ring_claim. Qed.
Print Assumptions C74_ring_refuted.

(** C74: the order of the list matters: the same marginals in another order are decomposable and converge *)
Theorem C74_order_refuted : exists ilist mlist ilist' mlist' res res', in_range ilist mlist /\ vectors ilist mlist /\ valid (cons_of ilist mlist) /\
  Permutation (combine ilist mlist) (combine ilist' mlist') /\ decomposable (cons_of ilist' mlist') /\
  py_qis L0 40 ilist mlist 0 = Ok res /\ qr_conv res = false /\
  py_qis L0 40 ilist' mlist' 0 = Ok res' /\ qr_conv res' = true.
Proof. exact order_claim. Qed.
Print Assumptions C74_order_refuted.

(** two marginals sharing two dimensions, feasible and, with other numbers that validation accepts, not *)
Example C74_ex :
  (in_range exTwo_i exTwo_m /\ vectors exTwo_i exTwo_m /\ valid (cons_of exTwo_i exTwo_m) /\
   decomposable (cons_of exTwo_i exTwo_m) /\ ~ share_at_most_one (cons_of exTwo_i exTwo_m) /\ feasible (cons_of exTwo_i exTwo_m)) /\
  (in_range exTwo_i exOff_m /\ vectors exTwo_i exOff_m /\ valid (cons_of exTwo_i exOff_m) /\
   decomposable (cons_of exTwo_i exOff_m) /\ ~ feasible (cons_of exTwo_i exOff_m)).
Proof. split; [exact exTwo_claim|exact exOff_claim]. Qed.
