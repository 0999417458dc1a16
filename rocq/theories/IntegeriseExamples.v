(** Checking the hypotheses of the integerisation theorems by computation, and the counterexamples. *)
From Coq Require Import ZArith Reals Lra Lia List Bool Psatz.
From Flocq Require Import Core.Core IEEE754.BinarySingleNaN.
From Verif Require Import Base Spec SpecFacts Float64 FloatProofs FloatExt RealSpec Bind Stat Integerise IntegeriseSpec IntegeriseProofs IntegeriseDbl
  IntegeriseClaims IntegeriseRound IntegeriseNd.
Open Scope Z_scope.

Definition nonneg_b (x : double) : bool := is_finite x && negb (d_ltb x d_zero).
Lemma nonneg_of x : nonneg_b x = true -> nonneg_fin x.
Proof.
  unfold nonneg_b. rewrite andb_true_iff, negb_true_iff. intros [F H]. split; auto.
  apply (d_ltb_false _ _ _ _ (fin_B2R _ F) fin_zero) in H. exact H.
Qed.
Lemma nonneg_by l : forallb nonneg_b l = true -> Forall nonneg_fin l.
Proof. intros H. rewrite forallb_forall in H. apply Forall_forall. intros x Hx. now apply nonneg_of, H. Qed.

Lemma fractions_by l : forallb nonneg_b l && existsb (fun x => is_finite x && d_ltb d_zero x) l && (Z.of_nat (length l) <=? 2 ^ 20) &&
  is_finite (fold_left d_add l d_zero) = true -> fractions l.
Proof.
  rewrite !andb_true_iff. intros [[[H1 H2] H3] H4]. split; [now apply nonneg_by|]. split; [|split; auto; now apply Z.leb_le].
  apply existsb_exists in H2 as (x & Hx & H). apply andb_true_iff in H as [F H]. apply Exists_exists. exists x. split; auto.
  now apply (d_ltb_true _ _ _ _ fin_zero (fin_B2R _ F)) in H.
Qed.

(** every cell below 2^k with 2^k times the number of cells below 2^50 *)
Lemma nd_range_by a : negb (match shape a with [] | [_] => true | _ => false end) && forallb (fun n => 0 <? n) (shape a) &&
  (Z.of_nat (length (flat a)) =? prodZ (shape a)) && (prodZ (shape a) <=? 2 ^ 20) && forallb nonneg_b (flat a) &&
  forallb (fun x => d_ltb x (d_ofZ (2 ^ 20))) (flat a) && (Z.of_nat (length (shape a)) <? 2 ^ 31) = true -> nd_range a.
Proof.
  rewrite !andb_true_iff. intros [[[[[[H1 H2] H3] H4] H5] H6] H7]. apply Z.eqb_eq in H3. apply Z.leb_le in H4. apply Z.ltb_lt in H7.
  rewrite forallb_forall in H2, H6. pose proof (nonneg_by _ H5) as Hn.
  split; [|split; [|split; [lia|split; auto; split; auto]]].
  - split; [intros E; now rewrite E in H1|]. split; auto. apply Forall_forall. intros n Hn'. now apply Z.ltb_lt, H2.
  - destruct (shape a) as [|? [|? ?]]; try discriminate. simpl. lia.
  - apply Rle_lt_trans with (sumR (map (fun _ => IZR (2 ^ 20)) (flat a))).
    + apply sumR_le. intros x Hx. rewrite Forall_forall in Hn. destruct (Hn x Hx) as [F _]. specialize (H6 x Hx).
      apply (d_ltb_true _ _ _ _ (fin_B2R _ F) (d_ofZ_exact (2 ^ 20) ltac:(vm_compute; discriminate))) in H6. lra.
    + rewrite sumR_IZR, sumZ_map_const. apply IZR_lt. lia.
Qed.

(** the cells and the convergence flag *)
Definition int_view (x : outcome (ndarray Z * bool * double)) : option (list Z * bool) :=
  match x with Ok (r, c, _) => Some (flat r, c) | _ => None end.

Lemma int_view_inv x f c : int_view x = Some (f, c) -> exists res rmse, x = Ok (res, c, rmse) /\ flat res = f.
Proof. destruct x as [[[r c'] m]|e|w|]; try discriminate. intros E. injection E as <- <-. eauto. Qed.

(** the frequencies *)
Definition freq (x : outcome (list Z * double)) : option (list Z) := match x with Ok (f, _) => Some f | _ => None end.
Lemma freq_inv x f : freq x = Some f -> exists rmse, x = Ok (f, rmse).
Proof. destruct x as [[g m]|e|w|]; try discriminate. intros E. injection E as <-. eauto. Qed.

Definition is_ub {T} (x : outcome T) : bool := match x with UB _ => true | _ => false end.
Lemma is_ub_inv {T} (x : outcome T) : is_ub x = true -> exists w, x = UB w.
Proof. destruct x; try discriminate. eauto. Qed.

(** C23 *)
Lemma below_claim : forall L, (exists l res rmse, checked_round (array_sum (NDA [10] l)) = Ok 3 /\
    py_integerise L 40 (NDA [10] l) = Ok (res, true, rmse) /\ sumZ (flat res) = 2) /\
  (exists l w, checked_round (array_sum (NDA [10] l)) = Ok 1 /\ py_integerise L 40 (NDA [10] l) = UB w).
Proof.
  intros L. split.
  - exists (repeat (d_lit 5404319552844595 (-54)) 10).
    destruct (int_view_inv (py_integerise L 40 (NDA [10] (repeat (d_lit 5404319552844595 (-54)) 10))) [1; 1; 0; 0; 0; 0; 0; 0; 0; 0] true) as (res & rmse & E & H);
      [vm_compute; reflexivity|].
    exists res, rmse. split; [vm_compute; reflexivity|]. split; [exact E|]. rewrite H. reflexivity.
  - exists (repeat (d_lit 3602879701896397 (-55)) 10).
    destruct (is_ub_inv (py_integerise L 40 (NDA [10] (repeat (d_lit 3602879701896397 (-55)) 10)))) as [w E]; [vm_compute; reflexivity|].
    exists w. split; [vm_compute; reflexivity|exact E].
Qed.

(** C53 *)
Lemma fractions_unchecked_claim :
  (forall fuel n pop, 0 < n -> 0 <= pop < 2 ^ 31 -> exists w, py_integerise1d fuel (NDA [n] (repeat d_zero (Z.to_nat n))) pop = UB w) /\
  (exists frac f rmse, py_integerise1d 40 (NDA [2] frac) 3 = Ok (f, rmse) /\ Exists (fun k => k < 0) f).
Proof.
  split.
  - intros fuel n pop Hn Hp. unfold py_integerise1d. destruct (Z.ltb_spec pop 0); [lia|]. cbn [to_vector shape length Nat.eqb bind flat].
    assert (forall k, fold_left d_add (repeat d_zero k) d_zero = d_zero) as ->.
    { induction k as [|k IH]; auto. }
    destruct (Z.to_nat n) as [|k] eqn:E; [lia|]. cbn [repeat map]. change (d_div d_zero d_zero) with (B754_nan : double).
    unfold integerise_dist. cbn [mapM]. assert (d_mul (B754_nan : double) (d_ofZ pop) = B754_nan) as -> by (destruct (d_ofZ pop); reflexivity).
    unfold d_to_i32 at 1. cbn [is_finite andb bind]. eauto.
  - exists [d_ofZ (-1); d_ofZ 2]. exists [-3; 6]. destruct (freq_inv (py_integerise1d 40 (NDA [2] [d_ofZ (-1); d_ofZ 2]) 3) [-3; 6]) as [m E]; [vm_compute; reflexivity|].
    exists m. split; [exact E|]. left. lia.
Qed.
