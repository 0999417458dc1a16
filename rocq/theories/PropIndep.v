(** Property C78: independent marginals and a unit seed.

    [independent], [ones], [reals] and [indep] are in IndepSpec.v and do not mention the model; [within] is in IpfRoundSpec.v. *)
From Coq Require Import Reals.
From Flocq Require Import Core.Core IEEE754.BinarySingleNaN.
From Verif Require Import Base Spec NDArray Float64 Bind SynthSpec RealSpec Ipf IpfSpec IpfRoundSpec IndepSpec IndepClaim.
Open Scope Z_scope.

(** C78: for K marginals over N states, if pop * K * (2N + K + 1) <= 2 * 10^7, ipf started from a table of ones converges in its
    first round, and each state is the product of its marginal shares times the population, within K * (2N + K + 1) relative
    errors of 2^-52 *)
Theorem C78_one_round : forall fuel ilist mlist sizes pop, independent ilist mlist sizes pop ->
  let cs := cons_of ilist mlist in let K := Z.of_nat (length cs) in let errors := K * (2 * prodZ sizes + K + 1) in
  pop * errors <= 2 * 10 ^ 7 -> prodZ sizes < Z.of_nat fuel ->
  exists res, py_ipf fuel (ones sizes) ilist (map reals mlist) = Ok res /\
    ir_conv res = true /\ ir_iters res = 1 /\ ir_pop res = pop /\ shape (ir_array res) = sizes /\
    forall i, index_in sizes i -> is_finite (entry d_zero (ir_array res) i) = true /\
      within (Z.to_nat errors) (entryR (ir_array res) i) (indep cs pop i).
Proof. exact one_round_claim. Qed.
Print Assumptions C78_one_round.

(** C78 without the bound on the population is false: 83 million people, two independent marginals of two categories; ipf never
    converges *)
Theorem C78_large_refuted : exists fuel ilist mlist sizes pop res, independent ilist mlist sizes pop /\ pop = 83000000 /\ prodZ sizes < Z.of_nat fuel /\
  py_ipf fuel (ones sizes) ilist (map reals mlist) = Ok res /\ ir_conv res = false /\ ir_iters res = 1000.
Proof. exact large_claim. Qed.
Print Assumptions C78_large_refuted.

(** 1000 people by three marginals over four dimensions, one of them with an empty cell *)
Example C78_ex : independent exK_i exK_m [2; 3; 2; 2] 1000 /\
  (let K := Z.of_nat (length (cons_of exK_i exK_m)) in 1000 * (K * (2 * prodZ [2; 3; 2; 2]%Z + K + 1)) <= 2 * 10 ^ 7) /\ prodZ [2; 3; 2; 2]%Z < Z.of_nat 25 /\
  (indep (cons_of exK_i exK_m) 1000 [1; 2; 0; 0]%Z = 1000 * (750 / 1000 * (300 / 1000 * (1 / 1000 * 1))))%R.
Proof. split; [exact exK_indep|]. split; [vm_compute; discriminate|]. split; [reflexivity|]. unfold indep. cbn [fold_right cons_of map combine exK_i exK_m fst snd con_of c_at c_dims]. reflexivity. Qed.
