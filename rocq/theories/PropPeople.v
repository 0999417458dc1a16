(** C93: the individuals flatten makes of a synthesised population. *)
From Verif Require Import Base Spec NDArray Bind RArray Micro Qis Qisi SynthSpec QisClaims QisiClaims QisExamples QisiExamples RSpec RApi IpfExamples.
From Verif Require Import GrowProofs PeopleSpec PeopleProofs.
Open Scope Z_scope.

(** one row for each person; conv says exactly whether counting the rows gives every marginal *)
Theorem C93_qis : forall L fuel ilist mlist skips res,
  in_range ilist mlist -> py_qis L fuel ilist mlist skips = Ok res ->
  let a := qr_pop_array res in Forall (fun n => n <= 2 ^ 31) (shape a) -> qr_pop res < 2 ^ 61 ->
  exists cols, flatten a = Ok cols /\ length cols = length (shape a) /\ Forall (fun col => Z.of_nat (length col) = qr_pop res) cols /\
    (forall p, Z.of_nat p < qr_pop res -> index_in (shape a) (person cols p)) /\
    (qr_conv res = true <->
     forall c k, In c (cons_of ilist mlist) -> index_in (c_sizes c) k -> head_count cols (qr_pop res) (c_dims c) k = c_at c k).
Proof. exact people_qis. Qed.
Print Assumptions C93_qis.
(** ten people who match their marginals, and ten who do not (C02_ex) *)
Example C93_qis_ex : in_range exB_i exB_m /\ in_range exC_i exC_m /\
  people_of (py_qis L0 40 exB_i exB_m 5) = Ok [[0; 0; 0; 1; 1; 1; 1; 1; 1; 1]; [0; 1; 1; 0; 0; 0; 1; 1; 1; 1]; [0; 1; 1; 0; 1; 1; 0; 0; 0; 1]] /\
  head_count [[0; 0; 0; 1; 1; 1; 1; 1; 1; 1]; [0; 1; 1; 0; 0; 0; 1; 1; 1; 1]; [0; 1; 1; 0; 1; 1; 0; 0; 0; 1]] 10 [1; 2] [1; 0] = 3 /\
  c_at (con_of (NDA [2] [1; 2]) (NDA [2; 2] [2; 2; 3; 3])) [1; 0] = 3 /\
  people_of (py_qis L0 40 exC_i exC_m 0) = Ok [[0; 0; 0; 1; 1; 1; 1; 1; 1; 1]; [0; 1; 1; 0; 0; 0; 1; 1; 1; 1]; [0; 0; 1; 0; 1; 1; 0; 0; 1; 1]].
Proof. split; [exact exB_range|]. split; [exact exC_range|]. vm_compute. repeat split; reflexivity. Qed.

(** the same for qisi *)
Theorem C93_qisi : forall L fuel seed ilist mlist skips res,
  qisi_range ilist mlist seed -> py_qisi L fuel seed ilist mlist skips = Ok res ->
  let a := qr_pop_array res in Forall (fun n => n <= 2 ^ 31) (shape a) ->
  exists cols, flatten a = Ok cols /\ length cols = length (shape a) /\ Forall (fun col => Z.of_nat (length col) = qr_pop res) cols /\
    (forall p, Z.of_nat p < qr_pop res -> index_in (shape a) (person cols p)) /\
    (qr_conv res = true <->
     forall c k, In c (cons_of ilist mlist) -> index_in (c_sizes c) k -> head_count cols (qr_pop res) (c_dims c) k = c_at c k).
Proof. exact people_qisi. Qed.
Print Assumptions C93_qisi.
Example C93_qisi_ex : qisi_range exJ_i exJ_m exJ_s /\
  people_of (py_qisi L0 40 exJ_s exJ_i exJ_m 0) = Ok [[0; 0; 0; 0; 0; 0; 0; 1; 1]; [0; 0; 0; 0; 1; 1; 1; 0; 1]].
Proof. split; [exact exJ_range|]. vm_compute. reflexivity. Qed.

(** in R, where categories are numbered from 1 *)
Theorem C93_r_qis : forall L fuel indices marginals skips res,
  r_range indices marginals -> r_qis L fuel indices marginals skips = Ok res ->
  let a := rr_result res in Forall (fun n => n < 2 ^ 31) (col_sizes a) -> rr_pop res < 2 ^ 31 ->
  exists cols, r_flatten a = Ok cols /\ length cols = length (col_sizes a) /\ Forall (fun col => Z.of_nat (length col) = rr_pop res) cols /\
    (forall p, Z.of_nat p < rr_pop res -> exists i, index_in (col_sizes a) i /\ person cols p = map (Z.add 1) i) /\
    (rr_conv res = true <->
     forall c k, In c (rcons_of indices marginals) -> index_in (c_sizes c) k ->
       head_count cols (rr_pop res) (c_dims c) (map (Z.add 1) k) = c_at c k).
Proof. exact people_r_qis. Qed.
Print Assumptions C93_r_qis.
Example C93_r_qis_ex : r_range exGrR_i exGrR_m /\
  r_people_of (r_qis L0 40 exGrR_i exGrR_m 0) = Ok [[1; 1; 1; 2; 2; 2; 2; 2; 2; 2]; [1; 2; 2; 1; 1; 1; 2; 2; 2; 2]; [2; 1; 2; 1; 1; 2; 1; 1; 2; 2]].
Proof. split; [exact exGrR_range|]. vm_compute. reflexivity. Qed.

(** the same for qisi in R *)
Theorem C93_r_qisi : forall L fuel sdim sdata indices marginals skips res,
  r_range indices marginals -> r_seed sdim sdata ->
  r_qisi L fuel sdim sdata indices marginals skips = Ok res ->
  let a := rr_result res in Forall (fun n => n < 2 ^ 31) sdim -> rr_pop res < 2 ^ 31 ->
  exists cols, r_flatten a = Ok cols /\ length cols = length sdim /\ Forall (fun col => Z.of_nat (length col) = rr_pop res) cols /\
    (forall p, Z.of_nat p < rr_pop res -> exists i, index_in sdim i /\ person cols p = map (Z.add 1) i) /\
    (rr_conv res = true <->
     forall c k, In c (rcons_of indices marginals) -> index_in (c_sizes c) k ->
       head_count cols (rr_pop res) (c_dims c) (map (Z.add 1) k) = c_at c k).
Proof. exact people_r_qisi. Qed.
Print Assumptions C93_r_qisi.
Example C93_r_qisi_ex : r_range exPe_i exPe_m /\ r_seed [2; 2] (dz [1; 2; 3; 1]) /\
  r_people_of (r_qisi L0 40 [2; 2] (dz [1; 2; 3; 1]) exPe_i exPe_m 0) = Ok [[1; 1; 1; 1; 1; 1; 1; 2; 2]; [1; 1; 1; 1; 2; 2; 2; 1; 2]].
Proof. split; [exact exPe_range|]. split; [exact exPe_seed|]. vm_compute. reflexivity. Qed.

(** further marginals append columns to the table and leave the others as they were *)
Theorem C93_extended : forall L fuel ilist mlist ilist' mlist' skips sizes res',
  vectors ilist mlist -> (2 <= length ilist)%nat -> implied (cons_of ilist mlist) sizes -> (2 <= length sizes)%nat ->
  in_range (ilist ++ ilist') (mlist ++ mlist') -> py_qis L fuel (ilist ++ ilist') (mlist ++ mlist') skips = Ok res' -> (32 <= fuel)%nat ->
  Forall (fun n => n <= 2 ^ 31) (shape (qr_pop_array res')) -> qr_pop res' < 2 ^ 61 ->
  exists res cols', py_qis L fuel ilist mlist skips = Ok res /\ flatten (qr_pop_array res') = Ok cols' /\
    flatten (qr_pop_array res) = Ok (firstn (length sizes) cols').
Proof. exact people_extended. Qed.
Print Assumptions C93_extended.
Example C93_extended_ex : vectors exGr_i exGr_m /\ implied (cons_of exGr_i exGr_m) [2; 2; 2] /\ in_range (exGr_i ++ exGr_i2) (exGr_m ++ exGr_m2) /\
  people_of (py_qis L0 40 exGr_i exGr_m 0) = Ok [[0; 0; 0; 1; 1; 1; 1; 1; 1; 1]; [0; 1; 1; 0; 0; 0; 1; 1; 1; 1]; [0; 0; 1; 0; 1; 1; 0; 0; 1; 1]] /\
  people_of (py_qis L0 40 (exGr_i ++ exGr_i2) (exGr_m ++ exGr_m2) 0) =
  Ok [[0; 0; 0; 1; 1; 1; 1; 1; 1; 1]; [0; 1; 1; 0; 0; 0; 1; 1; 1; 1]; [0; 0; 1; 0; 1; 1; 0; 0; 1; 1]; [1; 1; 1; 1; 0; 1; 0; 0; 0; 0]].
Proof. destruct exGr_ex as (r & H1 & H2 & H3 & H4 & _). split; [exact H2|]. split; [exact H3|]. split; [exact H4|]. vm_compute. split; reflexivity. Qed.
