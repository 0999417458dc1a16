(** flatten on arbitrary integer arrays (C32). *)
From Coq Require Import Sorted Psatz.
From Verif Require Import Base Spec SpecFacts NDArray IndexProofs ArrayOps ArrayProofs Bind BindProofs.
Open Scope Z_scope.

Section Rows.
Context (off : Z) (dim pop : nat).
(** one write of the inner loop of listify *)
Definition put_row (i : list Z) (st : list (list Z) * Z) : outcome (list (list Z) * Z) :=
  let '(l, p) := st in
  let* l' := foldM (fun '(j, v) l =>
                      let* col := vec_get l j in
                      let* w := i32 (off + v) in
                      let* col' := vec_set col p w in
                      vec_set l j col') (numbered 0 i) l in
  Ok (l', p + 1).

Definition usable (i : list Z) : Prop := length i = dim /\ Forall (fun v => in_i32 (off + v) = true) i.

Lemma put_full rows i : usable i -> (0 < dim)%nat -> length rows = pop ->
  put_row i (cols_of off dim pop rows, Z.of_nat (length rows)) = UB "vector index out of range".
Proof.
  intros [Hl Hv] Hd Hr. destruct i as [|v i]; [cbn in Hl; lia|]. unfold put_row. cbn [numbered foldM].
  rewrite vec_get_ok with (d := []) by (unfold cols_of; rewrite map_length, seq_length; lia). cbn [bind].
  inversion Hv as [|? ? Hv1 _]; subst. unfold i32. rewrite Hv1. cbn [bind].
  assert (length (nth (Z.to_nat 0) (cols_of off (length (v :: i)) (length rows) rows) []) = length rows) as E.
  { unfold cols_of. cbn [length seq map Z.to_nat nth]. rewrite app_length, Nat.sub_diag. unfold column. rewrite map_length. cbn [repeat length]. lia. }
  unfold vec_set at 1. cbn [length] in E |- *. change (Pos.to_nat 1) with 1%nat. change (Z.to_nat 0) with 0%nat in *. rewrite E. destruct (Z.ltb_spec (Z.of_nat (length rows)) (Z.of_nat (length rows))); [lia|].
  rewrite andb_false_r. reflexivity.
Qed.

Lemma put_one rows i : usable i -> (length rows < pop)%nat ->
  put_row i (cols_of off dim pop rows, Z.of_nat (length rows)) = Ok (cols_of off dim pop (rows ++ [i]), Z.of_nat (length (rows ++ [i]))).
Proof.
  intros [H1 H2] Hl. unfold put_row. rewrite write_row by auto. cbn [bind]. do 2 f_equal. rewrite app_length. cbn [length]. lia.
Qed.

Lemma put_rows_ok new : forall rows, Forall usable new -> (length rows + length new <= pop)%nat ->
  foldM put_row new (cols_of off dim pop rows, Z.of_nat (length rows)) = Ok (cols_of off dim pop (rows ++ new), Z.of_nat (length (rows ++ new))).
Proof.
  induction new as [|i new IH]; intros rows Hu Hl; cbn [foldM]; [now rewrite app_nil_r|]. inversion Hu as [|? ? Hi H3]; subst. cbn [length] in Hl.
  rewrite put_one by (auto; lia). cbn [bind].
  rewrite IH by (auto; rewrite app_length; cbn [length]; lia). now rewrite <- app_assoc.
Qed.

Lemma put_rows_full new : forall rows, Forall usable new -> (0 < dim)%nat -> (length rows <= pop)%nat -> (pop < length rows + length new)%nat ->
  foldM put_row new (cols_of off dim pop rows, Z.of_nat (length rows)) = UB "vector index out of range".
Proof.
  induction new as [|i new IH]; intros rows Hu Hd Hr Hl; [cbn in Hl; lia|]. inversion Hu as [|? ? Hi H3]; subst. cbn [length] in Hl. cbn [foldM].
  destruct (Nat.eq_dec (length rows) pop) as [E|E]; [rewrite put_full by auto; reflexivity|].
  rewrite put_one by (auto; lia). cbn [bind].
  apply IH; auto; rewrite app_length; cbn [length]; lia.
Qed.
End Rows.

Lemma foldM_repeat {A S} (f : A -> S -> outcome S) a n s : foldM (fun _ => f a) (repeat tt n) s = foldM f (repeat a n) s.
Proof. revert s. induction n as [|n IH]; intros s; cbn [repeat foldM]; auto. destruct (f a s); cbn [bind]; auto. Qed.

Lemma foldM_flat {A S} (f : A -> S -> outcome S) (g : A -> list A) l s : foldM (fun i => foldM f (g i)) l s = foldM f (flat_map g l) s.
Proof. revert s. induction l as [|i l IH]; intros s; cbn [flat_map foldM]; auto. rewrite foldM_app. destruct (foldM f (g i) s); cbn [bind]; auto. Qed.

Lemma length_expand sizes f : Z.of_nat (length (expand sizes f)) = total sizes (fun i => Z.max 0 (f i)).
Proof.
  unfold expand, total. induction (all_indices sizes) as [|i l IH]; [reflexivity|]. cbn [flat_map map]. rewrite app_length, repeat_length.
  change (sumZ (Z.max 0 (f i) :: map (fun i => Z.max 0 (f i)) l)) with (Z.max 0 (f i) + sumZ (map (fun i => Z.max 0 (f i)) l)). lia.
Qed.

Lemma usable_expand sizes f off : (forall i, index_in sizes i -> Forall (fun v => in_i32 (off + v) = true) i) ->
  Forall (usable off (length sizes)) (expand sizes f).
Proof.
  intros H. apply Forall_forall. intros i Hi. unfold expand in Hi. apply in_flat_map in Hi as (j & Hj & Hi). apply repeat_spec in Hi. subst j.
  apply in_all_indices in Hj. split; [now apply index_in_length|auto].
Qed.

(** every outcome of listify *)
Lemma listify_all sizes f off p : fits sizes -> (forall i, index_in sizes i -> Forall (fun v => in_i32 (off + v) = true) i) -> 0 <= p < 2 ^ 64 ->
  listify p (mk sizes f) off =
    if 2 ^ 61 <=? p then Throw LengthError else
    if total sizes (fun i => Z.max 0 (f i)) <=? p then Ok (cols_of off (length sizes) (Z.to_nat p) (expand sizes f))
    else UB "vector index out of range".
Proof.
  intros Hf Hi Hp. unfold listify. rewrite u64_id by lia. destruct (Z.leb_spec (2 ^ 61) p); [reflexivity|].
  rewrite sizes_mk. pose proof Hf as (Hne & Hpos & _). rewrite index_loop_spec by auto.
  assert (repeat (repeat 0 (Z.to_nat p)) (length sizes) = cols_of off (length sizes) (Z.to_nat p) []) as ->.
  { unfold cols_of. cbn [column map length app]. rewrite Nat.sub_0_r.
    rewrite <- (seq_length (length sizes) 0) at 1. generalize (seq 0 (length sizes)) as l. induction l as [|a l IH]; [reflexivity|]. cbn [length repeat map]. now rewrite IH. }
  match goal with |- context [foldM ?g (all_indices sizes) ?s] =>
    assert (foldM g (all_indices sizes) s = foldM (put_row off) (expand sizes f) s) as -> end.
  { unfold expand. rewrite <- foldM_flat. apply foldM_ext. intros i s Hi'. apply in_all_indices in Hi'. rewrite nd_get_mk by auto. cbn [bind].
    rewrite <- (foldM_repeat (put_row off) i). apply foldM_ext. intros _ [l q] _. reflexivity. }
  pose proof (usable_expand sizes f off Hi) as Hu. pose proof (length_expand sizes f) as Hl.
  assert (0 < length sizes)%nat as Hd by (destruct sizes; [easy|cbn; lia]).
  change 0 with (Z.of_nat (length (@nil (list Z)))) at 1.
  destruct (Z.leb_spec (total sizes (fun i => Z.max 0 (f i))) p).
  - rewrite put_rows_ok by (auto; cbn [length]; lia). reflexivity.
  - rewrite put_rows_full by (auto; cbn [length]; lia). reflexivity.
Qed.

Lemma pop_loop_all sizes f : fits sizes ->
  index_loop sizes (fun i p => let* x := nd_get (mk sizes f) i in Ok (u64 (p + x))) 0 = Ok (total sizes f mod 2 ^ 64).
Proof.
  intros Hf. pose proof Hf as (Hne & Hpos & _). rewrite index_loop_spec by auto. unfold total.
  assert (forall l acc, (forall i, In i l -> index_in sizes i) ->
    foldM (fun i p => let* x := nd_get (mk sizes f) i in Ok (u64 (p + x))) l (u64 acc) = Ok (u64 (acc + sumZ (map f l)))) as G.
  { induction l as [|i l IH]; intros acc Hl; cbn [foldM map]; [change (sumZ []) with 0; now rewrite Z.add_0_r|].
    rewrite nd_get_mk by (auto; apply Hl; now left). cbn [bind]. change (sumZ (f i :: map f l)) with (f i + sumZ (map f l)).
    assert (u64 (u64 acc + f i) = u64 (acc + f i)) as -> by (unfold u64; apply Zplus_mod_idemp_l). rewrite IH by (intros; apply Hl; now right). now rewrite Z.add_assoc. }
  change 0 with (u64 0) at 1. rewrite G by (intros; now apply in_all_indices). reflexivity.
Qed.

Lemma small_index sizes i : Forall (fun n => n <= 2 ^ 31) sizes -> index_in sizes i -> Forall (fun v => in_i32 (0 + v) = true) i.
Proof.
  intros Hs Hi. induction Hi; constructor; inversion Hs; subst; auto.
  unfold in_i32. apply andb_true_intro. split; [apply Z.leb_le|apply Z.ltb_lt]; lia.
Qed.

Lemma flatten_all (a : ndarray Z) : wf_array a -> prodZ (shape a) < 2 ^ 60 -> Forall (fun n => n <= 2 ^ 31) (shape a) ->
  let p := total (shape a) (entry 0 a) mod 2 ^ 64 in
  flatten a = if 2 ^ 61 <=? p then Throw LengthError else
    if total (shape a) (fun i => Z.max 0 (entry 0 a i)) <=? p then Ok (cols_of 0 (length (shape a)) (Z.to_nat p) (expand (shape a) (entry 0 a)))
    else UB "vector index out of range".
Proof.
  intros Hw Hb Hs p. pose proof (wf_fits a Hw Hb) as Hf. unfold flatten. rewrite (as_nd_ok 0) by auto. cbn [bind]. rewrite sizes_mk, pop_loop_all by auto.
  cbn [bind]. apply listify_all; auto; [intros; eapply small_index; eauto|]. apply Z.mod_pos_bound. lia.
Qed.

(** ** the claims *)
Lemma flatten_outcome_claim : forall (a : ndarray Z), wf_array a -> prodZ (shape a) < 2 ^ 60 -> Forall (fun n => n <= 2 ^ 31) (shape a) ->
  let p := total (shape a) (entry 0 a) mod 2 ^ 64 in
  let w := total (shape a) (fun i => Z.max 0 (entry 0 a i)) in
  (2 ^ 61 <= p -> flatten a = Throw LengthError) /\
  (p < 2 ^ 61 -> p < w -> flatten a = UB "vector index out of range") /\
  (p < 2 ^ 61 -> w <= p -> exists rows,
     flatten a = Ok (map (fun j => map (fun r => nth j r 0) rows ++ repeat 0 (Z.to_nat (p - w))) (seq 0 (length (shape a)))) /\
     Z.of_nat (length rows) = w /\ Forall (index_in (shape a)) rows /\
     (forall i, index_in (shape a) i -> Z.of_nat (count_occ (list_eq_dec Z.eq_dec) rows i) = Z.max 0 (entry 0 a i)) /\
     StronglySorted lex_le rows).
Proof.
  intros a Hw Hb Hs p w. pose proof (flatten_all a Hw Hb Hs) as H. cbv zeta in H. fold p w in H.
  assert (0 <= p) as Hp by (apply Z.mod_pos_bound; lia).
  split; [|split].
  - intros H1. destruct (Z.leb_spec (2 ^ 61) p); [exact H|lia].
  - intros H1 H2. destruct (Z.leb_spec (2 ^ 61) p); [lia|]. destruct (Z.leb_spec w p); [lia|exact H].
  - intros H1 H2. destruct (Z.leb_spec (2 ^ 61) p); [lia|]. destruct (Z.leb_spec w p); [|lia].
    exists (expand (shape a) (entry 0 a)). pose proof (length_expand (shape a) (entry 0 a)) as El. fold w in El.
    split; [|split; [exact El|split; [apply Forall_forall; intros; eapply in_expand; eauto|split]]].
    + rewrite H. f_equal. unfold cols_of. apply map_ext. intros j. unfold column. f_equal. f_equal. lia.
    + intros i Hi. rewrite count_occ_expand by auto. lia.
    + apply sorted_expand.
Qed.

Lemma total_max_lt sizes f i : index_in sizes i -> f i < 0 -> total sizes f < total sizes (fun j => Z.max 0 (f j)).
Proof.
  intros Hi Hf. apply in_all_indices in Hi. unfold total. induction (all_indices sizes) as [|j l IH]; [destruct Hi|]. cbn [map].
  change (f j + sumZ (map f l) < Z.max 0 (f j) + sumZ (map (fun j => Z.max 0 (f j)) l)).
  assert (sumZ (map f l) <= sumZ (map (fun j => Z.max 0 (f j)) l)) as Hle.
  { clear. induction l as [|j l IH]; [reflexivity|]. cbn [map]. change (f j + sumZ (map f l) <= Z.max 0 (f j) + sumZ (map (fun j => Z.max 0 (f j)) l)). lia. }
  destruct Hi as [->|Hi]; [lia|]. specialize (IH Hi). lia.
Qed.

Lemma flatten_negative_claim : forall (a : ndarray Z) i, wf_array a -> prodZ (shape a) < 2 ^ 60 -> Forall (fun n => n <= 2 ^ 31) (shape a) ->
  index_in (shape a) i -> entry 0 a i < 0 -> - 2 ^ 63 <= total (shape a) (entry 0 a) < 2 ^ 61 ->
  flatten a = if total (shape a) (entry 0 a) <? 0 then Throw LengthError else UB "vector index out of range".
Proof.
  intros a i Hw Hb Hs Hi Hn Ht. destruct (flatten_outcome_claim a Hw Hb Hs) as (H1 & H2 & _).
  pose proof (total_max_lt _ _ _ Hi Hn) as Hm. destruct (Z.ltb_spec (total (shape a) (entry 0 a)) 0) as [Hz|Hz].
  - apply H1. rewrite <- (Z_mod_plus_full _ 1). rewrite Z.mod_small; lia.
  - rewrite Z.mod_small in H2 by lia. apply H2; lia.
Qed.
