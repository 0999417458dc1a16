(** Closing lemmas for PropArrays.v. *)
From Coq Require Import Sorted.
From Verif Require Import Base Spec SpecFacts NDArray IndexProofs Float64 ArrayOps ArrayProofs Bind BindProofs
  RArray RArrayProofs Strides StridesProofs.

Lemma offsets_claim (T : Type) sizes : sizes <> [] -> positive sizes -> prodZ sizes < 2 ^ 60 ->
  exists a : nd T, nd_new sizes = Ok a /\ nd_sizes a = sizes /\ Z.of_nat (length (nd_data a)) = prodZ sizes /\
    (forall i, index_in sizes i -> nd_offset a i = Ok (rowmajor sizes i) /\ 0 <= rowmajor sizes i < prodZ sizes) /\
    (forall i j, index_in sizes i -> index_in sizes j -> rowmajor sizes i = rowmajor sizes j -> i = j) /\
    (forall o, 0 <= o < prodZ sizes -> exists i, index_in sizes i /\ rowmajor sizes i = o).
Proof.
  intros Hne Hp Hb. assert (fits sizes) as Hf by (repeat split; auto).
  exists (mkp sizes (fun _ => None)). repeat split; auto.
  - now apply nd_new_ok.
  - simpl. rewrite map_length. apply length_all_indices. now apply positive_nonneg.
  - now apply nd_offset_ok.
  - now apply (rowmajor_bound sizes i).
  - now apply (rowmajor_bound sizes i).
  - apply rowmajor_inj.
  - intros o Ho. pose proof (length_all_indices sizes (positive_nonneg _ Hp)).
    destruct (nth_error (all_indices sizes) (Z.to_nat o)) as [i|] eqn:E.
    + exists i. split.
      * apply in_all_indices. eapply nth_error_In; eauto.
      * rewrite (rowmajor_of_nth _ _ _ Hp E). lia.
    + apply nth_error_None in E. lia.
Qed.

Lemma foldM_collect {A} (l acc : list A) : foldM (fun i s => Ok (s ++ [i])) l acc = Ok (acc ++ l).
Proof.
  revert acc. induction l as [|a l IH]; intros acc; simpl; [now rewrite app_nil_r|].
  rewrite IH, <- app_assoc. reflexivity.
Qed.

Lemma iteration_claim sizes : sizes <> [] -> positive sizes ->
  exists visited, index_loop sizes (fun i s => Ok (s ++ [i])) [] = Ok visited /\
    NoDup visited /\ (forall i, In i visited <-> index_in sizes i) /\ StronglySorted lex_le visited /\
    forall S (body : list Z -> S -> outcome S) s, index_loop sizes body s = foldM body visited s.
Proof.
  intros Hne Hp. exists (all_indices sizes). repeat split.
  - rewrite index_loop_spec by auto. apply foldM_collect.
  - apply NoDup_all_indices.
  - apply in_all_indices.
  - apply in_all_indices.
  - apply sorted_all_indices.
  - intros. now apply index_loop_spec.
Qed.

Lemma reduce_claim (a : ndarray Z) dims : wf_array a -> prodZ (shape a) < 2 ^ 60 ->
  Forall (fun d => 0 <= d < Z.of_nat (length (shape a))) dims -> dims <> [] ->
  prodZ (proj dims (shape a)) < 2 ^ 60 ->
  total (shape a) (fun i => Z.abs (entry 0 a i)) < 2 ^ 63 ->
  exists t r, as_nd a = Ok t /\ reduce IntOps t dims = Ok r /\ nd_sizes r = proj dims (shape a) /\
    (forall c, index_in (proj dims (shape a)) c -> nd_get r c = Ok (margin (shape a) dims c (entry 0 a))) /\
    total (proj dims (shape a)) (fun c => margin (shape a) dims c (entry 0 a)) = total (shape a) (entry 0 a).
Proof.
  intros Hw Hb Hd Hne Hb2 Ht. pose proof (wf_fits a Hw Hb) as Hf.
  assert (fits (proj dims (shape a))) as Hf2.
  { split; [|split]; auto; [destruct dims; simpl; congruence|]. apply positive_proj; auto. }
  exists (mk (shape a) (entry 0 a)). exists (mk (proj dims (shape a)) (fun c => margin (shape a) dims c (entry 0 a))).
  repeat split.
  - now apply as_nd_ok.
  - apply reduce_int_abs; auto.
  - intros c Hc. now rewrite nd_get_mk.
  - apply total_margin; auto.
Qed.

Lemma reduce1_claim (a : ndarray Z) d : wf_array a -> prodZ (shape a) < 2 ^ 60 ->
  0 <= d < Z.of_nat (length (shape a)) -> d < 2 ^ 64 ->
  total (shape a) (fun i => Z.abs (entry 0 a i)) < 2 ^ 63 ->
  exists t v r, as_nd a = Ok t /\ reduce1 IntOps t d = Ok v /\ reduce IntOps t [d] = Ok r /\
    v = map (fun k => margin (shape a) [d] [k] (entry 0 a)) (zrange (nth (Z.to_nat d) (shape a) 0)) /\
    nd_values r = Ok v.
Proof.
  intros Hw Hb Hd H64 Ht. pose proof (wf_fits a Hw Hb) as Hf.
  assert (valid_dims (length (shape a)) [d]) as Hv by (constructor; [auto|constructor]).
  assert (fits (proj [d] (shape a))) as Hf2.
  { apply fits_proj; auto; [congruence|]. constructor; [easy|constructor]. }
  exists (mk (shape a) (entry 0 a)).
  exists (map (fun k => margin (shape a) [d] [k] (entry 0 a)) (zrange (nth (Z.to_nat d) (shape a) 0))).
  exists (mk (proj [d] (shape a)) (fun c => margin (shape a) [d] c (entry 0 a))).
  repeat split.
  - now apply as_nd_ok.
  - apply reduce1_int_abs; auto.
  - apply reduce_int_abs; auto.
  - rewrite nd_values_mk by auto. f_equal. simpl.
    generalize (zrange (nth (Z.to_nat d) (shape a) 0)). induction l; simpl; congruence.
Qed.

Lemma slice_claim {T} (df : T) (a : ndarray T) fixed : wf_array a -> prodZ (shape a) < 2 ^ 60 ->
  Z.of_nat (length (shape a)) < 2 ^ 64 ->
  fixed <> [] -> (length fixed < length (shape a))%nat -> NoDup (map fst fixed) ->
  Forall (fun '(d, v) => 0 <= d < Z.of_nat (length (shape a)) /\ 0 <= v < nth (Z.to_nat d) (shape a) 0) fixed ->
  let free := filter (fun d => negb (existsb (Z.eqb d) (map fst fixed))) (zrange (Z.of_nat (length (shape a)))) in
  exists t s, as_nd a = Ok t /\ slice t fixed = Ok s /\ nd_sizes s = proj free (shape a) /\
    forall i, index_in (shape a) i -> (forall d v, In (d, v) fixed -> nth (Z.to_nat d) i 0 = v) ->
      nd_get s (proj free i) = Ok (entry df a i).
Proof.
  intros Hw Hb H64 Hne Hlt Hn Hf free. pose proof (wf_fits a Hw Hb) as Hft.
  assert (fixed_ok (shape a) fixed) as Hfo by (split; auto).
  assert (fits (proj free (shape a))) as Hff.
  { apply fits_proj; auto.
    - intros E. pose proof (free_dims_length _ _ Hfo) as L. unfold free_dims in L. fold free in L. rewrite E in L. simpl in L. lia.
    - apply free_dims_NoDup.
    - apply free_dims_valid. }
  destruct (slice_mk (shape a) (entry df a) fixed) as (g & Eg & Hg); auto.
  eexists; exists (mk (proj free (shape a)) g). repeat split.
  - now apply (as_nd_ok df).
  - exact Eg.
  - intros i Hi Hag. rewrite nd_get_mk; auto; [f_equal; now apply Hg|].
    apply index_in_proj; auto. apply free_dims_valid.
Qed.

Lemma slice_nothing_claim {T} (df : T) (a : ndarray T) : wf_array a -> prodZ (shape a) < 2 ^ 60 ->
  exists t s, as_nd a = Ok t /\ slice t [] = Ok s /\ nd_sizes s = shape a /\
    forall i, index_in (shape a) i -> nd_get s i = Ok (entry df a i).
Proof.
  intros Hw Hb. pose proof (wf_fits a Hw Hb) as Hf.
  exists (mk (shape a) (entry df a)), (mk (shape a) (entry df a)). repeat split.
  - now apply as_nd_ok.
  - unfold slice. simpl. rewrite nd_new_ok by auto. simpl. rewrite nd_values_mk by auto. simpl.
    rewrite !map_length, Z.leb_refl. rewrite skipn_all2 by (rewrite !map_length; lia).
    rewrite app_nil_r, map_map. reflexivity.
  - intros. now rewrite nd_get_mk.
Qed.

Lemma slice_throws_claim {T} (a : ndarray T) fixed : wf_array a -> prodZ (shape a) < 2 ^ 60 ->
  Z.of_nat (length (shape a)) < 2 ^ 63 ->
  Forall (fun '(d, v) => - 2 ^ 63 <= d < 2 ^ 63) fixed ->
  (exists d v, In (d, v) fixed /\ (~ 0 <= d < Z.of_nat (length (shape a)) \/ nth (Z.to_nat d) (shape a) 0 <= v)) ->
  exists t msg, as_nd a = Ok t /\ slice t fixed = Throw (RuntimeError msg).
Proof.
  intros Hw Hb H63 Hr Hbad. destruct Hw as (Hne & Hp & Hl).
  assert (exists t, as_nd a = Ok t /\ nd_sizes t = shape a) as (t & Et & Es).
  { unfold as_nd. assert (fits (shape a)) as Hf by (repeat split; auto). pose proof (fits_prod _ Hf).
    rewrite storage_size_ok by (auto; lia). simpl. rewrite compute_offs_ok by (auto; lia). simpl. eauto. }
  exists t. unfold slice. rewrite Es.
  assert (exists msg, foldM (fun '(d, v) (_ : unit) =>
      if Z.of_nat (length (shape a)) <=? u64 d then Throw (RuntimeError "dimension out of bounds in slice")
      else let* n := vec_get (shape a) d in
           if n <=? v then Throw (RuntimeError "index out of bounds in slice") else Ok tt) fixed tt = Throw (RuntimeError msg)) as (msg & E).
  { destruct Hbad as (d0 & v0 & Hin & Hb0). induction Hr as [|[d v] l Hd Hr IH]; [easy|].
    simpl. destruct (Z.leb_spec (Z.of_nat (length (shape a))) (u64 d)); [simpl; eauto|].
    assert (0 <= d < Z.of_nat (length (shape a))) as Hd'.
    { unfold u64 in H. destruct (Z_lt_le_dec d 0); [|rewrite Z.mod_small in H by lia; lia].
      replace (d mod 2 ^ 64) with (d + 2 ^ 64) in H; [lia|].
      apply Z.mod_unique with (q := -1); lia. }
    rewrite vec_get_ok with (d := 0) by auto. simpl.
    destruct (Z.leb_spec (nth (Z.to_nat d) (shape a) 0) v); simpl; [eauto|].
    apply IH. destruct Hin as [[= -> ->]|Hin]; auto. exfalso. destruct Hb0; lia. }
  exists msg. split; auto. rewrite E. reflexivity.
Qed.

Lemma zero_shape_offs s mult : In 0 s -> exists w, compute_offs mult s = UB w.
Proof.
  revert mult. induction s as [|n ns IH]; intros mult Hin; [easy|]. simpl.
  destruct (u64 n =? 0) eqn:E; [eauto|].
  destruct Hin as [->|Hin]; [discriminate|].
  destruct (IH (mult / u64 n) Hin) as (w & ->). simpl. eauto.
Qed.

Lemma zero_storage s : In 0 s -> storage_size s = Ok 0.
Proof.
  intros Hin. destruct s as [|n ns]; [easy|]. simpl. f_equal.
  assert (forall ns, fold_left (fun acc n => u64 (acc * u64 n)) ns 0 = 0) as Z0.
  { clear. induction ns; simpl; auto. }
  assert (forall ns acc, In 0 ns -> fold_left (fun acc n => u64 (acc * u64 n)) ns acc = 0) as Z1.
  { clear - Z0. induction ns as [|m ns IH]; intros acc Hin; [easy|]. simpl. destruct Hin as [->|Hin]; auto.
    change (u64 0) with 0. rewrite Z.mul_0_r. apply Z0. }
  destruct Hin as [->|Hin]; [apply Z0|]. now apply Z1.
Qed.

Lemma degenerate_claim {T} (a : ndarray T) : In 0 (shape a) \/ shape a = [] ->
  (exists w, as_nd a = UB w) /\ (exists w, to_nd a = UB w).
Proof.
  intros [Hin|He].
  - destruct (zero_shape_offs _ 0 Hin) as (w & Ew). split; exists w.
    + unfold as_nd. rewrite zero_storage by auto. simpl. now rewrite Ew.
    + unfold to_nd, nd_new, nd_resize. rewrite zero_storage by auto. simpl. now rewrite Ew.
  - unfold as_nd, to_nd, nd_new, nd_resize. rewrite He. simpl. eauto.
Qed.

Lemma flatten_claim (a : ndarray Z) : wf_array a -> prodZ (shape a) < 2 ^ 60 ->
  Forall (fun n => n <= 2 ^ 31) (shape a) ->
  (forall i, index_in (shape a) i -> 0 <= entry 0 a i) ->
  total (shape a) (entry 0 a) < 2 ^ 61 ->
  exists rows, flatten a = Ok (map (fun j => map (fun r => nth j r 0) rows) (seq 0 (length (shape a)))) /\
    Z.of_nat (length rows) = total (shape a) (entry 0 a) /\
    Forall (index_in (shape a)) rows /\
    (forall i, index_in (shape a) i -> Z.of_nat (count_occ (list_eq_dec Z.eq_dec) rows i) = entry 0 a i) /\
    StronglySorted lex_le rows.
Proof.
  intros Hw Hb Hs Hn Ht. exists (expand (shape a) (entry 0 a)). repeat split.
  - now apply flatten_ok.
  - apply length_expand_app. intros i Hi. apply Hn. now apply in_all_indices.
  - apply Forall_forall. intros i. apply in_expand.
  - intros i Hi. rewrite count_occ_expand by auto. specialize (Hn i Hi). lia.
  - apply sorted_expand.
Qed.

Lemma r_flatten_claim (a : rarray Z) : wf_rarray a -> prodZ (col_sizes a) < 2 ^ 60 ->
  Forall (fun n => n < 2 ^ 31) (col_sizes a) ->
  (forall i, index_in (col_sizes a) i -> 0 <= r_entry 0 a i) ->
  total (col_sizes a) (r_entry 0 a) < 2 ^ 61 ->
  exists rows, r_flatten a = Ok (map (fun j => map (fun r => 1 + nth j r 0) rows) (seq 0 (length (col_sizes a)))) /\
    Z.of_nat (length rows) = total (col_sizes a) (r_entry 0 a) /\
    Forall (index_in (col_sizes a)) rows /\
    (forall i, index_in (col_sizes a) i -> Z.of_nat (count_occ (list_eq_dec Z.eq_dec) rows i) = r_entry 0 a i) /\
    StronglySorted lex_le rows.
Proof.
  intros Hw Hb Hs Hn Ht. exists (expand (col_sizes a) (r_entry 0 a)). repeat split.
  - now apply r_flatten_ok.
  - apply length_expand_app. intros i Hi. apply Hn. now apply in_all_indices.
  - apply Forall_forall. intros i. apply in_expand.
  - intros i Hi. rewrite count_occ_expand by auto. specialize (Hn i Hi). lia.
  - apply sorted_expand.
Qed.

Lemma convert_claim {T} (d : T) (a : rarray T) : wf_rarray a -> prodZ (col_sizes a) < 2 ^ 60 ->
  exists t, convert_array a = Ok t /\ nd_sizes t = col_sizes a /\
    forall i, index_in (col_sizes a) i -> nd_get t i = Ok (r_entry d a i).
Proof.
  intros Hw Hb. eexists. split; [now apply (convert_array_ok d)|]. split; auto.
  intros. rewrite nd_get_mk; auto. destruct Hw as (?&?&?). repeat split; auto.
Qed.

Lemma contiguous_claim {T} (a : nparray T) : np_strides a = c_strides (np_shape a) ->
  np_shape a <> [] -> positive (np_shape a) -> prodZ (np_shape a) < 2 ^ 60 ->
  0 <= np_base a -> np_base a + prodZ (np_shape a) <= Z.of_nat (length (np_buf a)) ->
  forall i, index_in (np_shape a) i -> exists x t t', np_entry a i = Some x /\
    as_nd_np a = Ok t /\ nd_get t i = Ok x /\ to_nd_np a = Ok t' /\ nd_get t' i = Ok x.
Proof.
  intros Hs Hne Hp Hb H0 Hl i Hi. assert (fits (np_shape a)) as Hf by (repeat split; auto).
  assert (np_holds a) as Hh by (split; auto).
  destruct (as_nd_np_get a i Hf Hh Hi) as (t & Et & Gt).
  destruct (to_nd_np_get a i Hf Hh Hi) as (t' & Et' & Gt').
  rewrite <- np_entry_contiguous in * by auto.
  destruct (np_entry a i) as [x|]; [|easy]. exists x, t, t'. auto.
Qed.
