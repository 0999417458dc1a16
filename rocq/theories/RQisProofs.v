(** Proofs for C92: qis in R and qis in Python. *)
From Coq Require Import Permutation.
From Verif Require Import Base Spec SpecFacts NDArray IndexProofs Float64 ArrayOps ArrayProofs Bind BindProofs
  Sobol Micro Stat Qis Ipf Qisi SynthSpec MicroProofs SplitProofs QuantProofs QisProofs QisClaims QisExamples PadProofs ReorderSpec ReorderProofs IpfSpec RArray RArrayProofs RSpec RApi RApiProofs RApiClaims
  RApiExamples GrowProofs.
Open Scope Z_scope.

Lemma implied_np_r indices marginals rs : length indices = length marginals -> implied (rcons_of indices marginals) rs ->
  implied (cons_of (np_il (Z.of_nat (length rs)) indices) (np_ml 0 marginals)) (rev rs).
Proof. intros Hl H. apply implied_np. apply implied_rev1; auto. apply implied_con. exact H. Qed.

Lemma dimension_r indices (marginals : list (rarray Z)) rs : length indices = length marginals -> implied (rcons_of indices marginals) rs ->
  get_dimension indices marginals = Ok rs.
Proof. intros Hl H. apply (implied_dimension 0); auto. apply implied_con. exact H. Qed.

Lemma r_qis_python L fuel indices marginals skips rs : r_range indices marginals -> length indices = length marginals ->
  implied (rcons_of indices marginals) rs -> let n := Z.of_nat (length rs) in
  r_qis L fuel indices marginals skips =
  (let* p := py_qis L fuel (rev (map (fun iv => NDA [Z.of_nat (length iv)] (map (fun d => n - d) iv)) indices))
                           (rev (map (fun m => NDA (col_sizes m) (map (r_entry 0 m) (all_indices (col_sizes m)))) marginals)) skips in
   Ok (RR (RA (Some rs) (map s32 (flat (qr_pop_array p)))) (RA (Some rs) (flat (qr_expectation p))) (qr_conv p) (qr_pop p)
          (qr_chisq p) (qr_pvalue p) (Some (qr_degeneracy p)))).
Proof. intros Hr Hl Hi. apply (r_qis_eq L fuel indices marginals skips rs); auto. now apply dimension_r. Qed.

Lemma r_qisi_python L fuel sdim sdata indices marginals skips res : r_range indices marginals -> r_seed sdim sdata ->
  r_qisi L fuel sdim sdata indices marginals skips = Ok res -> let n := Z.of_nat (length sdim) in exists p,
  py_qisi L fuel (NDA (rev sdim) sdata) (rev (map (fun iv => NDA [Z.of_nat (length iv)] (map (fun d => n - d) iv)) indices))
                 (rev (map (fun m => NDA (col_sizes m) (map (r_entry 0 m) (all_indices (col_sizes m)))) marginals)) skips = Ok p /\
  res = RR (RA (Some sdim) (map s32 (flat (qr_pop_array p)))) (RA (Some sdim) (flat (qr_expectation p))) (qr_conv p) (qr_pop p)
           (qr_chisq p) (qr_pvalue p) None.
Proof. intros Hr Hs E. destruct (r_qisi_inv L fuel sdim sdata indices marginals skips res Hr Hs E) as (_ & _ & p & Ep & Er). exists p. split; [exact Ep|exact Er]. Qed.

Lemma r_ipf_python fuel sdim sdata indices marginals res : rg_range d_zero indices marginals -> r_seed sdim sdata -> r_proper (length sdim) indices ->
  prodZ sdim < Z.of_nat fuel -> r_ipf fuel sdim sdata indices marginals = Ok res -> let n := Z.of_nat (length sdim) in exists p,
  py_ipf fuel (NDA (rev sdim) sdata) (rev (map (fun iv => NDA [Z.of_nat (length iv)] (map (fun d => n - d) iv)) indices))
              (rev (map (fun m => NDA (col_sizes m) (map (r_entry d_zero m) (all_indices (col_sizes m)))) marginals)) = Ok p /\
  res = RI (RA (Some sdim) (flat (ir_array p))) (ir_conv p) (ir_pop p) (ir_iters p) (ir_max p).
Proof.
  intros Hr Hs Hp Hf E. destruct (r_ipf_inv fuel sdim sdata indices marginals res Hr Hs Hp Hf E) as (_ & _ & _ & p & Ep & _ & Er).
  exists p. split; [exact Ep|exact Er].
Qed.

Lemma r_of_entry rs p i : let a := qr_pop_array p in shape a = rev rs -> wf_array a ->
  (forall i, index_in (shape a) i -> 0 <= entry 0 a i < 2 ^ 31) -> index_in rs i ->
  r_entry 0 (rr_result (r_of rs true p)) i = entry 0 a (rev i).
Proof.
  intros a Hsh Hw Hn Hi. unfold r_of. cbn [rr_result]. rewrite r_entry_rev by auto. fold a. rewrite flat_s32 by auto. rewrite <- Hsh. now destruct a.
Qed.

Lemma small_entries L fuel ilist mlist skips p : in_range ilist mlist -> py_qis L fuel ilist mlist skips = Ok p -> qr_pop p < 2 ^ 31 ->
  let a := qr_pop_array p in wf_array a /\ forall i, index_in (shape a) i -> 0 <= entry 0 a i < 2 ^ 31.
Proof.
  intros Hin Ep Hp a. destruct (population_claim _ _ _ _ _ _ Hin Ep) as (Himp & Hw & Hn & Ht & Hc). fold a in Himp, Hw, Hn, Ht. split; auto.
  intros i Hi. split; auto. enough (entry 0 a i <= total (shape a) (entry 0 a)) by lia. now apply (le_total (shape a) (entry 0 a) i).
Qed.

Lemma nth_zrange n k : (k < n)%nat -> nth k (zrange (Z.of_nat n)) 0 = Z.of_nat k.
Proof. intros H. apply nth_error_nth. rewrite <- (Nat2Z.id k) at 1. apply nth_error_zrange. lia. Qed.

Lemma rev_zrange (f : Z -> Z) n : rev (map f (zrange (Z.of_nat n))) = map (fun d => f (Z.of_nat n - 1 - d)) (zrange (Z.of_nat n)).
Proof.
  rewrite <- map_rev. rewrite <- (map_map (fun d => Z.of_nat n - 1 - d) f). f_equal.
  apply (nth_ext _ _ 0 0); [now rewrite rev_length, map_length|]. intros k Hk. rewrite rev_length, length_zrange, Nat2Z.id in Hk.
  rewrite rev_nth by (rewrite length_zrange; lia). rewrite length_zrange, Nat2Z.id, nth_zrange by lia.
  rewrite (nth_indep _ 0 (Z.of_nat n - 1 - 0)) by (rewrite map_length, length_zrange; lia).
  rewrite (map_nth (fun d => Z.of_nat n - 1 - d)), nth_zrange by lia. lia.
Qed.

Lemma margin_rev_dims sizes dims k f : margin sizes (rev dims) (rev k) f = margin sizes dims k f.
Proof.
  unfold margin, sum_where. f_equal. f_equal. apply filter_ext_in. intros i _. unfold proj. rewrite map_rev.
  destruct (idx_eqb (map (fun d => nth (Z.to_nat d) i 0) dims) k) eqn:E.
  - apply idx_eqb_true in E. apply idx_eqb_true. now rewrite E.
  - destruct (idx_eqb (rev (map (fun d => nth (Z.to_nat d) i 0) dims)) (rev k)) eqn:E'; auto. apply idx_eqb_true in E'.
    apply (f_equal (@rev Z)) in E'. rewrite !rev_involutive in E'. apply idx_eqb_true in E'. congruence.
Qed.

Lemma np_il_app n m inew indices : np_il (Z.of_nat (m + n)) (inew ++ map (map (Z.add (Z.of_nat m))) indices) = np_il (Z.of_nat n) indices ++ np_il (Z.of_nat (m + n)) inew.
Proof.
  unfold np_il. rewrite map_app, rev_app_distr. f_equal. f_equal. rewrite map_map. apply map_ext. intros iv. unfold np_iv. rewrite map_length, map_map.
  f_equal. apply map_ext. intros d. lia.
Qed.

Lemma r_grow_claim L fuel indices marginals indices' marginals' skips rs m res' :
  r_range indices marginals -> length indices = length marginals -> (2 <= length indices)%nat ->
  implied (rcons_of indices marginals) rs -> (2 <= length rs)%nat ->
  let long := indices' ++ map (map (Z.add (Z.of_nat m))) indices in
  r_range long (marginals' ++ marginals) -> r_qis L fuel long (marginals' ++ marginals) skips = Ok res' ->
  let sizes' := col_sizes (rr_result res') in
  length sizes' = (m + length rs)%nat -> rr_pop res' < 2 ^ 31 -> (32 <= fuel)%nat ->
  exists res, r_qis L fuel indices marginals skips = Ok res /\ col_sizes (rr_result res) = rs /\ rr_pop res = rr_pop res' /\
    (forall k, index_in rs k -> r_entry 0 (rr_result res) k =
       margin sizes' (map (Z.add (Z.of_nat m)) (zrange (Z.of_nat (length rs)))) k (r_entry 0 (rr_result res'))) /\
    (rr_conv res' = true -> rr_conv res = true).
Proof.
  intros Hr Hl H2 Hi Hd2 long Hr' E sizes' Hlen Hp Hfuel.
  destruct (r_qis_ok_inv _ _ _ _ _ _ Hr' E) as (Hl' & rs' & p' & Eg & Ep' & ->).
  assert (sizes' = rs') as Es by reflexivity. rewrite Es in *. clear Es sizes'. set (n := length rs) in *.
  destruct (np_in_range (Z.of_nat n) _ _ Hr Hl) as [Hin _].
  destruct (np_in_range (Z.of_nat (length rs')) _ _ Hr' Hl') as [Hin' _].
  pose proof Ep' as Ep0. pose proof Hin' as Hin0.
  assert (shape (qr_pop_array p') = rev rs') as Esh'.
  { assert (rs' = rev (shape (qr_pop_array p'))) as ->; [|now rewrite rev_involutive].
    eapply (get_dimension_rev 0); [exact Hl'|exact Eg|]. apply implied_np. now apply (population_claim _ _ _ _ _ _ Hin' Ep'). }
  rewrite Hlen in *. unfold long in Ep', Hin'. rewrite np_il_app in Ep', Hin'.
  assert (np_ml 0 (marginals' ++ marginals) = np_ml 0 marginals ++ np_ml 0 marginals') as Em by (unfold np_ml; now rewrite map_app, rev_app_distr).
  rewrite Em in Ep', Hin'.
  assert (vectors (np_il (Z.of_nat n) indices) (np_ml 0 marginals)) as Hvec.
  { split; [unfold np_il, np_ml; now rewrite !rev_length, !map_length|]. unfold np_il. apply Forall_rev. rewrite Forall_map. apply Forall_forall. intros; reflexivity. }
  pose proof (implied_np_r indices marginals rs Hl Hi) as Hinp. fold n in Hinp.
  destruct (grow_claim L fuel (np_il (Z.of_nat n) indices) (np_ml 0 marginals) _ _ skips (rev rs) p' Hin Hvec
    ltac:(unfold np_il; rewrite rev_length, map_length; lia) Hinp ltac:(rewrite rev_length; fold n; lia) Hin' Ep' Hfuel)
    as (p & Ep & Esh & Epop & Hk & Hcv).
  exists (r_of rs true p). split.
  { rewrite (r_qis_eq L fuel indices marginals skips rs Hr Hl (dimension_r _ _ _ Hl Hi)). fold n. rewrite Ep. reflexivity. }
  split; [reflexivity|]. split; [exact Epop|]. split; [|exact Hcv].
  cbn [r_of rr_pop] in Hp.
  destruct (small_entries L fuel _ _ skips p Hin Ep ltac:(lia)) as [Hw Hsm].
  destruct (small_entries L fuel _ _ skips p' Hin0 Ep0 Hp) as [Hw' Hsm'].
  intros k Hkk. rewrite r_of_entry by auto. rewrite Hk by now apply index_in_rev. rewrite rev_length, Esh'. fold n.
  set (dims := map (fun d => Z.of_nat (m + n) - d) (zrange (Z.of_nat n))).
  assert (zrange (Z.of_nat n) = map (fun d => Z.of_nat (length rs') - d) dims) as Ed.
  { unfold dims. rewrite Hlen, map_map. rewrite (map_ext _ (fun d => d)) by (intros; lia). now rewrite map_id. }
  rewrite Ed at 1. rewrite margin_rev.
  2:{ intros d Hd. unfold dims in Hd. apply in_map_iff in Hd as (x & <- & Hx). apply in_zrange in Hx. lia. }
  assert (map (fun d => d - 1) dims = rev (map (Z.add (Z.of_nat m)) (zrange (Z.of_nat n)))) as ->.
  { unfold dims. rewrite rev_zrange, map_map. apply map_ext. intros; lia. }
  rewrite margin_rev_dims. apply margin_ext. intros i Hi'. symmetry. now apply r_of_entry.
Qed.

(** * Marginals that share no dimension *)
Lemma no_sharing_np n indices (marginals : list (rarray Z)) : length indices = length marginals -> no_sharing (rcons_of indices marginals) ->
  no_sharing (cons_of (np_il n indices) (np_ml 0 marginals)).
Proof.
  intros Hl H. apply (no_sharing_perm (map (fun p => con_of (np_iv n (fst p)) (np_m 0 (snd p))) (combine indices marginals))).
  { unfold cons_of. rewrite np_combine, map_map by auto. apply Permutation_map, Permutation_rev. }
  unfold rcons_of, rcons_from, no_sharing in *. revert H. generalize (combine indices marginals). clear Hl indices marginals.
  induction l as [|[iv m] l IH]; cbn [map]; intros H; [constructor|]. inversion H as [|? ? Hf Ho]; subst. constructor; auto.
  rewrite Forall_map in *. eapply Forall_impl; [|exact Hf]. intros [iv' m'] Hd d H1 H2. cbn [con_of np_iv fst snd c_dims flat] in *.
  apply in_map_iff in H1 as (x & E1 & Hx). apply in_map_iff in H2 as (y & E2 & Hy). assert (x = y) as -> by lia.
  apply (Hd (y - 1)); apply in_map_iff; exists y; auto.
Qed.

Lemma r_no_sharing_claim L fuel indices marginals indices' marginals' skips res :
  r_range indices marginals -> r_range indices' marginals' -> length indices' = length marginals' ->
  r_qis L fuel indices marginals skips = Ok res -> no_sharing (rcons_of indices marginals) ->
  Permutation (combine indices marginals) (combine indices' marginals') -> (32 <= fuel)%nat ->
  exists res', r_qis L fuel indices' marginals' skips = Ok res' /\ rr_result res' = rr_result res /\ rr_pop res' = rr_pop res /\
    rr_conv res' = rr_conv res /\ rr_degeneracy res' = rr_degeneracy res.
Proof.
  intros Hr Hr' Hl' E Hns Hp Hf. destruct (r_qis_claim _ _ _ _ _ _ Hr E) as (Hi & _).
  destruct (r_qis_ok_inv _ _ _ _ _ _ Hr E) as (Hl & rs & p & Eg & Ep & ->). change (col_sizes (rr_result (r_of rs true p))) with rs in Hi.
  assert (implied (rcons_of indices' marginals') rs) as Hi'.
  { apply (implied_perm (rcons_of indices marginals)); auto. unfold rcons_of, rcons_from. now apply Permutation_map. }
  set (n := Z.of_nat (length rs)) in *.
  destruct (np_in_range n _ _ Hr Hl) as [Hin _]. destruct (np_in_range n _ _ Hr' Hl') as [Hin' _].
  assert (vectors (np_il n indices') (np_ml 0 marginals')) as Hvec.
  { split; [unfold np_il, np_ml; now rewrite !rev_length, !map_length|]. unfold np_il. apply Forall_rev. rewrite Forall_map. apply Forall_forall. intros; reflexivity. }
  destruct (no_sharing_claim L fuel _ _ (np_il n indices') (np_ml 0 marginals') skips p Hin Hvec Hin' Ep) as (p' & Ep' & E1 & E2 & E3 & E4); auto.
  { now apply no_sharing_np. }
  { rewrite !np_combine by auto. apply Permutation_map. eapply perm_trans; [apply Permutation_sym, Permutation_rev|]. eapply perm_trans; [exact Hp|]. apply Permutation_rev. }
  exists (r_of rs true p'). rewrite (r_qis_eq L fuel indices' marginals' skips rs Hr' Hl' (dimension_r _ _ _ Hl' Hi')). fold n. rewrite Ep'.
  split; [reflexivity|]. unfold r_of. cbn [rr_result rr_pop rr_conv rr_degeneracy]. rewrite E1, E2, E3, E4. auto.
Qed.

(** * An example: the new dimension is number 1 and its marginal is listed first *)
Definition exRG_i : list (list Z) := [[1; 3]].
Definition exRG_m : list (rarray Z) := [RA (Some [2; 2]) [1; 3; 4; 2]].
Definition exRG_long : list (list Z) := exRG_i ++ map (map (Z.add (Z.of_nat 1))) exGrR_i.
Lemma exRG_range : r_range exRG_long (exRG_m ++ exGrR_m). Proof. apply (r_range_by _ _ [2; 2; 2; 2]); vm_compute; reflexivity. Qed.
Lemma exRG_run : r_view' (r_qis L0 40 exRG_long (exRG_m ++ exGrR_m) 0) =
  Some (true, Some [2; 2; 2; 2], [0; 0; 1; 1; 0; 1; 1; 1; 0; 1; 0; 1; 1; 0; 2; 0]).
Proof. vm_compute. reflexivity. Qed.
Lemma exRG_pop : match r_qis L0 40 exRG_long (exRG_m ++ exGrR_m) 0 with Ok r => rr_pop r | _ => 0 end = 10.
Proof. vm_compute. reflexivity. Qed.

Lemma exRG_ex : exists res', r_range exGrR_i exGrR_m /\ implied (rcons_of exGrR_i exGrR_m) [2; 2; 2] /\
  r_range (exRG_i ++ map (map (Z.add (Z.of_nat 1))) exGrR_i) (exRG_m ++ exGrR_m) /\
  r_qis L0 40 (exRG_i ++ map (map (Z.add (Z.of_nat 1))) exGrR_i) (exRG_m ++ exGrR_m) 0 = Ok res' /\
  rr_result res' = RA (Some [2; 2; 2; 2]) [0; 0; 1; 1; 0; 1; 1; 1; 0; 1; 0; 1; 1; 0; 2; 0] /\ rr_pop res' = 10.
Proof.
  fold exRG_long. pose proof exRG_run as X. pose proof exRG_pop as Y.
  destruct (r_qis L0 40 exRG_long (exRG_m ++ exGrR_m) 0) as [res|e|w|] eqn:E; try discriminate X. cbn [r_view'] in X.
  exists res. split; [exact exGrR_range|]. split; [exact exGrR_implied|]. split; [exact exRG_range|]. split; [reflexivity|].
  split; [|exact Y]. destruct (rr_result res) as [sh fl] eqn:Ea. cbn [r_dim r_data] in X. injection X as _ -> ->. reflexivity.
Qed.

(** the same constraints given to both *)
Definition same_con (c c' : con) : Prop :=
  c_dims c = c_dims c' /\ c_sizes c = c_sizes c' /\ forall k, index_in (c_sizes c) k -> c_at c k = c_at c' k.

Lemma same_refute : exists indices marginals ilist mlist res res', r_range indices marginals /\ in_range ilist mlist /\
  Forall2 same_con (rcons_of indices marginals) (cons_of ilist mlist) /\
  r_qis L0 40 indices marginals 0 = Ok res /\ py_qis L0 40 ilist mlist 0 = Ok res' /\ rr_conv res = true /\ qr_conv res' = true /\
  exists i, index_in (shape (qr_pop_array res')) i /\ r_entry 0 (rr_result res) i <> entry 0 (qr_pop_array res') i.
Proof.
  exists exGrR_i, exGrR_m, exGr_i, exGr_m. pose proof exGrR_run as X. pose proof exGr_run as X'.
  destruct (r_qis L0 40 exGrR_i exGrR_m 0) as [res|e|w|] eqn:E; try discriminate X.
  destruct (py_qis L0 40 exGr_i exGr_m 0) as [res'|e|w|] eqn:E'; try discriminate X'.
  cbn [r_view' PadProofs.outline] in X, X'. exists res, res'.
  destruct (rr_result res) as [sh fl] eqn:Ea. destruct (qr_pop_array res') as [sh' fl'] eqn:Ea'. cbn [r_dim r_data shape flat] in *.
  injection X as Ec -> ->. injection X' as Ec' -> -> _.
  split; [exact exGrR_range|]. split; [exact exGr_range|]. split.
  { unfold rcons_of, rcons_from, cons_of, exGrR_i, exGrR_m, exGr_i, exGr_m. cbn [combine map fst snd].
    constructor; [|constructor; [|constructor]]; (split; [reflexivity|]; split; [reflexivity|]); intros k Hk; apply in_all_indices in Hk;
      cbn [c_sizes c_at con_of] in *; vm_compute in Hk; intuition (subst k; vm_compute; reflexivity). }
  split; [reflexivity|]. split; [reflexivity|]. split; [exact Ec|]. split; [exact Ec'|].
  exists [0; 0; 0]. split; [unfold index_in; repeat constructor; lia|]. vm_compute. discriminate.
Qed.

(** three marginals without a common dimension, in two orders *)
Definition exRF_i : list (list Z) := [[1; 3]; [2]; [4]].
Definition exRF_m : list (rarray Z) := [RA (Some [2; 2]) [1; 3; 2; 4]; RA None [2; 5; 3]; RA None [4; 6]].
Definition exRF_i' : list (list Z) := [[4]; [1; 3]; [2]].
Definition exRF_m' : list (rarray Z) := [RA None [4; 6]; RA (Some [2; 2]) [1; 3; 2; 4]; RA None [2; 5; 3]].
Lemma exRF_range : r_range exRF_i exRF_m. Proof. apply (r_range_by _ _ [2; 3; 2; 2]); vm_compute; reflexivity. Qed.
Lemma exRF_range' : r_range exRF_i' exRF_m'. Proof. apply (r_range_by _ _ [2; 3; 2; 2]); vm_compute; reflexivity. Qed.
Lemma exRF_run : match r_view (r_qis L0 40 exRF_i exRF_m 0) with Some (b, p, _) => Some (b, p) | None => None end = Some (true, 10).
Proof. vm_compute. reflexivity. Qed.
Lemma exRF_ex : exists res, r_range exRF_i exRF_m /\ r_range exRF_i' exRF_m' /\ length exRF_i' = length exRF_m' /\
  r_qis L0 40 exRF_i exRF_m 0 = Ok res /\ rr_pop res = 10 /\ no_sharing (rcons_of exRF_i exRF_m) /\
  Permutation (combine exRF_i exRF_m) (combine exRF_i' exRF_m').
Proof.
  pose proof exRF_run as X. destruct (r_qis L0 40 exRF_i exRF_m 0) as [res|e|w|] eqn:E; try discriminate X. cbn [r_view] in X.
  exists res. split; [exact exRF_range|]. split; [exact exRF_range'|]. split; [reflexivity|]. split; [reflexivity|]. split; [now injection X|]. split.
  - unfold no_sharing, rcons_of, rcons_from, exRF_i, exRF_m. cbn [combine map fst snd]. repeat constructor; simpl; intros; lia.
  - unfold exRF_i, exRF_m, exRF_i', exRF_m'. cbn [combine]. apply Permutation_sym. apply (Permutation_cons_app [_; _] []). apply Permutation_refl.
Qed.
