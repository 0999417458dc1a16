(** The messages of the Microsynthesis constructor say what is wrong. *)
From Coq Require Import DecimalString DecimalFacts DecimalZ Ascii.
From Verif Require Import Base Spec SpecFacts NDArray IndexProofs Float64 FloatProofs ArrayOps ArrayProofs Bind BindProofs
  Micro SynthSpec MicroProofs Qis Ipf QisClaims QisExamples Sobol MsgSpec Msg.
Open Scope Z_scope.

(** * operator% *)

Fixpoint subst1 (s v : string) : string :=
  match s with
  | EmptyString => EmptyString
  | String a s' => match s' with
                   | String b s'' => if Ascii.eqb a "%" && Ascii.eqb b "%" then (v ++ s'')%string else String a (subst1 s' v)
                   | EmptyString => s
                   end
  end.

Lemma substring_0 s : String.substring 0 (String.length s) s = s.
Proof. induction s as [|a s IH]; cbn; auto. now rewrite IH. Qed.

Lemma percent_subst s v : percent s v = subst1 s v.
Proof.
  unfold percent. induction s as [|a s IH]; [reflexivity|]. destruct s as [|b s].
  { destruct a as [b0 b1 b2 b3 b4 b5 b6 b7]. destruct b0, b1, b2, b3, b4, b5, b6, b7; reflexivity. }
  change (subst1 (String a (String b s)) v) with (if Ascii.eqb a "%" && Ascii.eqb b "%" then (v ++ s)%string else String a (subst1 (String b s) v)).
  assert (String.prefix "%%" (String a (String b s)) = Ascii.eqb a "%" && Ascii.eqb b "%") as Hp.
  { cbn [String.prefix]. destruct (Ascii.ascii_dec "%" a) as [<-|Ha].
    - rewrite Ascii.eqb_refl. cbn [andb]. destruct (Ascii.ascii_dec "%" b) as [<-|Hb]; [now rewrite Ascii.eqb_refl; destruct s|].
      symmetry. apply Ascii.eqb_neq. congruence.
    - symmetry. apply andb_false_iff. left. apply Ascii.eqb_neq. congruence. }
  change (String.index 0 "%%" (String a (String b s))) with
    (if String.prefix "%%" (String a (String b s)) then Some 0%nat else
       match String.index 0 "%%" (String b s) with Some n => Some (S n) | None => None end).
  rewrite Hp. destruct (Ascii.eqb a "%" && Ascii.eqb b "%") eqn:E.
  - cbn [String.length]. replace (S (S (String.length s)) - (0 + 2))%nat with (String.length s) by lia. cbn. now rewrite substring_0.
  - destruct (String.index 0 "%%" (String b s)) as [n|]; [|f_equal; exact IH].
    rewrite <- IH. cbn [String.substring String.length]. change (S n + 2)%nat with (S (n + 2)). cbn [Nat.sub String.append].
    replace (n + 2)%nat with (S (n + 1)) by lia. cbn [String.substring]. reflexivity.
Qed.

(** text without a percent sign passes through *)
Fixpoint no_pct (s : string) : bool := match s with EmptyString => true | String a s' => negb (Ascii.eqb a "%") && no_pct s' end.
Lemma subst1_app s t v : no_pct s = true -> subst1 (s ++ t) v = (s ++ subst1 t v)%string.
Proof.
  induction s as [|a s IH]; [reflexivity|]. cbn [no_pct]. intros H. apply andb_prop in H. destruct H as [Ha Hs]. apply negb_true_iff in Ha.
  specialize (IH Hs). cbn [String.append]. rewrite <- IH. cbn [subst1]. rewrite Ha. cbn [andb]. destruct (s ++ t)%string as [|b r]; reflexivity.
Qed.
Lemma subst1_hit t v : subst1 (String "%" (String "%" t)) v = (v ++ t)%string.
Proof. reflexivity. Qed.
Lemma no_pct_app s t : no_pct (s ++ t) = no_pct s && no_pct t.
Proof. induction s as [|a s IH]; cbn; auto. rewrite IH. apply andb_assoc. Qed.
Lemma append_assoc (a b c : string) : ((a ++ b) ++ c = a ++ (b ++ c))%string.
Proof. induction a as [|x a IH]; cbn; congruence. Qed.
Lemma append_nil (a : string) : (a ++ "" = a)%string.
Proof. induction a as [|x a IH]; cbn; congruence. Qed.

Lemma dec_no_pct n : no_pct (dec n) = true.
Proof.
  assert (forall u, no_pct (NilEmpty.string_of_uint u) = true) as G by (induction u; cbn; auto).
  unfold dec, NilZero.string_of_int, NilZero.string_of_uint. destruct (Z.to_int n) as [u|u]; destruct u; cbn; rewrite ?G; reflexivity.
Qed.
Lemma commas_no_pct l : no_pct (commas l) = true.
Proof. induction l as [|x [|y l] IH]; [reflexivity|apply dec_no_pct|]. cbn [commas]. rewrite !no_pct_app, dec_no_pct. exact IH. Qed.
Lemma brackets_no_pct l : no_pct (brackets l) = true.
Proof. unfold brackets. rewrite !no_pct_app, commas_no_pct. reflexivity. Qed.
Lemma to_string_vec_brackets l : to_string_vec to_string_int l = brackets l.
Proof.
  destruct l as [|x l]; [reflexivity|]. unfold to_string_vec, brackets.
  assert (forall l a x, fold_left (fun r y => (r ++ (", " ++ to_string_int y))%string) l (a ++ dec x)%string = (a ++ commas (x :: l))%string) as G.
  { clear. induction l as [|y l IH]; intros a x; [reflexivity|]. cbn [fold_left].
    change (commas (x :: y :: l)) with (dec x ++ ", " ++ commas (y :: l))%string.
    replace ((a ++ dec x) ++ ", " ++ to_string_int y)%string with ((a ++ dec x ++ ", ") ++ dec y)%string
      by (unfold to_string_int, dec; rewrite !append_assoc; reflexivity).
    rewrite IH, !append_assoc. reflexivity. }
  change (to_string_int x) with (dec x). rewrite G, append_assoc. reflexivity.
Qed.

Lemma pct_step p t v : no_pct p = true -> percent (p ++ String "%" (String "%" t)) v = ((p ++ v) ++ t)%string.
Proof. intros H. rewrite percent_subst, subst1_app, subst1_hit, append_assoc by auto. reflexivity. Qed.

Lemma fill1 a t v : no_pct a = true -> percent (a ++ "%%" ++ t) v = (a ++ v ++ t)%string.
Proof. intros H. change ("%%" ++ t)%string with (String "%" (String "%" t)). rewrite pct_step, append_assoc; auto. Qed.
Lemma fill2 a b t v w : no_pct a = true -> no_pct v = true -> no_pct b = true ->
  percent (percent (a ++ "%%" ++ b ++ "%%" ++ t) v) w = (a ++ v ++ b ++ w ++ t)%string.
Proof.
  intros Ha Hv Hb. rewrite fill1 by auto. replace (a ++ v ++ b ++ "%%" ++ t)%string with ((a ++ v ++ b) ++ "%%" ++ t)%string by now rewrite !append_assoc.
  rewrite fill1 by now rewrite !no_pct_app, Ha, Hv, Hb. now rewrite !append_assoc.
Qed.
Lemma fill3 a b c t v w x : no_pct a = true -> no_pct v = true -> no_pct b = true -> no_pct w = true -> no_pct c = true ->
  percent (percent (percent (a ++ "%%" ++ b ++ "%%" ++ c ++ "%%" ++ t) v) w) x = (a ++ v ++ b ++ w ++ c ++ x ++ t)%string.
Proof.
  intros Ha Hv Hb Hw Hc. rewrite fill2 by auto.
  replace (a ++ v ++ b ++ w ++ c ++ "%%" ++ t)%string with ((a ++ v ++ b ++ w ++ c) ++ "%%" ++ t)%string by now rewrite !append_assoc.
  rewrite fill1 by now rewrite !no_pct_app, Ha, Hv, Hb, Hw, Hc. now rewrite !append_assoc.
Qed.
Lemma fill4 a b c d t v w x y : no_pct a = true -> no_pct v = true -> no_pct b = true -> no_pct w = true -> no_pct c = true ->
  no_pct x = true -> no_pct d = true ->
  percent (percent (percent (percent (a ++ "%%" ++ b ++ "%%" ++ c ++ "%%" ++ d ++ "%%" ++ t) v) w) x) y
    = (a ++ v ++ b ++ w ++ c ++ x ++ d ++ y ++ t)%string.
Proof.
  intros Ha Hv Hb Hw Hc Hx Hd. rewrite fill3 by auto.
  replace (a ++ v ++ b ++ w ++ c ++ x ++ d ++ "%%" ++ t)%string with ((a ++ v ++ b ++ w ++ c ++ x ++ d) ++ "%%" ++ t)%string
    by now rewrite !append_assoc.
  rewrite fill1 by now rewrite !no_pct_app, Ha, Hv, Hb, Hw, Hc, Hx, Hd. now rewrite !append_assoc.
Qed.

Lemma msg_few a b : percent (percent "index list size %% too small or differs from marginal size %%" (dec a)) (dec b) =
  ("index list size " ++ dec a ++ " too small or differs from marginal size " ++ dec b)%string.
Proof. etransitivity; [exact (fill2 "index list size " " too small or differs from marginal size " "" _ _ eq_refl (dec_no_pct _) eq_refl)|now rewrite append_nil]. Qed.
Lemma msg_axes a b : percent (percent "index/marginal dimension mismatch %% vs %%" (dec a)) (dec b) =
  ("index/marginal dimension mismatch " ++ dec a ++ " vs " ++ dec b)%string.
Proof. etransitivity; [exact (fill2 "index/marginal dimension mismatch " " vs " "" _ _ eq_refl (dec_no_pct _) eq_refl)|now rewrite append_nil]. Qed.
Lemma msg_size k d n n' : percent (percent (percent (percent "mismatch at index %%: dimension %% size %% redefined to %%" (dec k)) (dec d)) (dec n)) (dec n') =
  ("mismatch at index " ++ dec k ++ ": dimension " ++ dec d ++ " size " ++ dec n ++ " redefined to " ++ dec n')%string.
Proof.
  etransitivity; [exact (fill4 "mismatch at index " ": dimension " " size " " redefined to " "" _ _ _ _ eq_refl (dec_no_pct _) eq_refl (dec_no_pct _) eq_refl (dec_no_pct _) eq_refl)|].
  now rewrite append_nil.
Qed.
Lemma msg_neg k v : percent (percent "negative value in marginal %%: %%" (dec k)) (dec v) = ("negative value in marginal " ++ dec k ++ ": " ++ dec v)%string.
Proof. etransitivity; [exact (fill2 "negative value in marginal " ": " "" _ _ eq_refl (dec_no_pct _) eq_refl)|now rewrite append_nil]. Qed.
Lemma msg_undef k : percent "dimension %% size not defined" (dec k) = ("dimension " ++ dec k ++ " size not defined")%string.
Proof. exact (fill1 "dimension " " size not defined" _ eq_refl). Qed.
Lemma msg_total k a b : percent (percent (percent "marginal sum mismatch at index %%: %% vs %%" (dec k)) (dec a)) (dec b) =
  ("marginal sum mismatch at index " ++ dec k ++ ": " ++ dec a ++ " vs " ++ dec b)%string.
Proof.
  etransitivity; [exact (fill3 "marginal sum mismatch at index " ": " " vs " "" _ _ _ eq_refl (dec_no_pct _) eq_refl (dec_no_pct _) eq_refl)|now rewrite append_nil].
Qed.
Lemma msg_partial d i a b : percent (percent (percent (percent "marginal partial sum mismatch in dimension %% index %%: %% vs %%" (dec d)) (dec i)) (brackets a)) (brackets b) =
  ("marginal partial sum mismatch in dimension " ++ dec d ++ " index " ++ dec i ++ ": " ++ brackets a ++ " vs " ++ brackets b)%string.
Proof.
  etransitivity; [exact (fill4 "marginal partial sum mismatch in dimension " " index " ": " " vs " "" _ _ _ _ eq_refl (dec_no_pct _) eq_refl (dec_no_pct _) eq_refl (brackets_no_pct _) eq_refl)|].
  now rewrite append_nil.
Qed.

(** * The texts are the only difference *)

Lemma sbt_refl {A} (x : outcome A) : same_but_text x x.
Proof. destruct x as [a|[]|w|]; cbn; auto. Qed.
Lemma sbt_bind {A B} (x y : outcome A) (f g : A -> outcome B) : same_but_text x y -> (forall a, same_but_text (f a) (g a)) ->
  same_but_text (bind x f) (bind y g).
Proof.
  intros H Hf. destruct x as [a|ex|w|], y as [b|ey|w'|]; cbn in H; try discriminate H; try (destruct ex; discriminate H).
  - injection H as <-. apply Hf.
  - cbn. destruct ex, ey; try exact I; try discriminate H; try reflexivity; injection H as <-; reflexivity.
  - injection H as <-. reflexivity.
  - reflexivity.
Qed.
Lemma sbt_foldM {A S} (f g : A -> S -> outcome S) l : (forall a s, In a l -> same_but_text (f a s) (g a s)) ->
  forall s, same_but_text (foldM f l s) (foldM g l s).
Proof.
  induction l as [|a l IH]; intros H s; [apply sbt_refl|]. cbn [foldM]. apply sbt_bind; [apply H; now left|].
  intros s'. apply IH. intros; apply H; now right.
Qed.
Lemma sbt_numbered {A S} (f : Z * A -> S -> outcome S) (g : A -> S -> outcome S) l :
  (forall i a s, same_but_text (f (i, a) s) (g a s)) -> forall k s, same_but_text (foldM f (numbered k l) s) (foldM g l s).
Proof.
  intros H. induction l as [|a l IH]; intros k s; [apply sbt_refl|]. cbn [numbered foldM]. apply sbt_bind; [apply H|]. intros s'. apply IH.
Qed.
Lemma sbt_mapM {A B} (f g : A -> outcome B) l : (forall a, same_but_text (f a) (g a)) -> same_but_text (mapM f l) (mapM g l).
Proof.
  intros H. induction l as [|a l IH]; [apply sbt_refl|]. cbn [mapM]. apply sbt_bind; [apply H|]. intros b.
  apply sbt_bind; [exact IH|]. intros bs. apply sbt_refl.
Qed.

Lemma same_claim {M T} (MO : MargOps M) (ts : M -> string) indices margs :
  same_but_text (micro_new_msg (T := T) MO ts indices margs) (micro_new (T := T) MO indices margs).
Proof.
  unfold micro_new_msg, micro_new. destruct (_ || _); [exact I|].
  apply sbt_bind.
  { unfold collect_sizes_msg, collect_sizes. apply sbt_numbered. intros k [ix a] m. destruct (negb _); [exact I|].
    apply sbt_foldM. intros [d n] s _. unfold add_dim_msg, add_dim. destruct (map_find s d); [|apply sbt_refl]. destruct (_ =? n); [apply sbt_refl|exact I]. }
  intros m. destruct (Nat.ltb (length m) 2); [exact I|]. apply sbt_bind.
  { apply sbt_numbered. intros k a s. apply sbt_bind; [apply sbt_refl|]. intros v. destruct (n_ltb _ v _); [exact I|apply sbt_refl]. }
  intros _. apply sbt_bind.
  { apply sbt_mapM. intros k. destruct (map_find m k); [apply sbt_refl|exact I]. }
  intros sizes. apply sbt_bind.
  { unfold create_mappings_msg, create_mappings. do 4 (apply sbt_bind; [apply sbt_refl|intros ?]). apply sbt_bind.
    { apply sbt_numbered. intros i b s. do 2 (apply sbt_bind; [apply sbt_refl|intros ?]). destruct (_ =? _); [apply sbt_refl|exact I]. }
    intros _. apply sbt_bind; [|intros; apply sbt_refl]. apply sbt_numbered. intros d [|[k0 i0] [|e rest]] s; try apply sbt_refl.
    do 2 (apply sbt_bind; [apply sbt_refl|intros ?]). apply sbt_numbered. intros n [k i] s'.
    do 2 (apply sbt_bind; [apply sbt_refl|intros ?]). destruct (allclose _ _ _); [apply sbt_refl|exact I]. }
  intros pop. apply sbt_refl.
Qed.

(** * What is wrong *)

Lemma foldM_throw {A} (f : A -> unit -> outcome unit) l e : foldM f l tt = Throw e ->
  exists pre x post, l = pre ++ x :: post /\ (forall y, In y pre -> f y tt = Ok tt) /\ f x tt = Throw e.
Proof.
  induction l as [|a l IH]; cbn [foldM]; intros H; [discriminate|]. destruct (f a tt) as [[]|e'|w|] eqn:E; cbn [bind] in H; try discriminate.
  - destruct (IH H) as (pre & x & post & -> & Hp & Hx). exists (a :: pre), x, post. split; auto. split; auto. intros y [<-|Hy]; auto.
  - injection H as <-. exists [], a, l. split; auto. split; auto. intros ? [].
Qed.
Lemma foldM_all {A} (f : A -> unit -> outcome unit) l : foldM f l tt = Ok tt -> forall y, In y l -> f y tt = Ok tt.
Proof.
  induction l as [|a l IH]; cbn [foldM]; intros H y; [intros []|]. destruct (f a tt) as [[]|e'|w|] eqn:E; cbn [bind] in H; try discriminate.
  intros [<-|Hy]; auto.
Qed.

Lemma add_dims_msg k l : forall m l0, repr_map m l0 ->
  (exists m', foldM (add_dim_msg k) l m = Ok m' /\ repr_map m' (l0 ++ l)) \/
  (exists pre d n post n', l = pre ++ (d, n) :: post /\ In (d, n') (l0 ++ pre) /\ n' <> n /\
     foldM (add_dim_msg k) l m = Throw (RuntimeError ("mismatch at index " ++ dec k ++ ": dimension " ++ dec d ++ " size " ++ dec n' ++ " redefined to " ++ dec n)%string)).
Proof.
  induction l as [|[d n] l IH]; intros m l0 [Hn Hm]; cbn [foldM add_dim_msg].
  - left. exists m. rewrite app_nil_r. now repeat split; auto; apply Hm.
  - destruct (map_find m d) as [n'|] eqn:E.
    + apply map_find_some in E; auto. destruct (Z.eqb_spec n' n) as [->|Hne]; cbn [bind].
      * destruct (IH m (l0 ++ [(d, n)])) as [(m' & E' & H')|(pre & d' & x & post & y & -> & Hin & Hne & E')].
        { split; auto. intros e. rewrite in_app_iff, <- Hm. simpl. split; auto. intros [|[<-|[]]]; auto. }
        { left. exists m'. rewrite <- app_assoc in H'. auto. }
        { right. exists ((d, n) :: pre), d', x, post, y. rewrite <- app_assoc in Hin. auto. }
      * right. exists [], d, n, l, n'. split; auto. rewrite app_nil_r. split; [now apply Hm|]. split; auto.
        do 2 f_equal. apply msg_size.
    + apply map_find_none in E. cbn [bind]. destruct (IH ((d, n) :: m) (l0 ++ [(d, n)])) as [(m' & E' & H')|(pre & d' & x & post & y & -> & Hin & Hne & E')].
      { split; [simpl; constructor; auto|]. intros e. rewrite in_app_iff. simpl. rewrite Hm. tauto. }
      { left. exists m'. rewrite <- app_assoc in H'. auto. }
      { right. exists ((d, n) :: pre), d', x, post, y. rewrite <- app_assoc in Hin. auto. }
Qed.

Lemma in_pairs_nth cs d n : In (d, n) (pairs cs) -> exists k c j, nth_error cs k = Some c /\ nth_error (c_dims c) j = Some d /\ nth_error (c_sizes c) j = Some n.
Proof.
  intros H. apply in_pairs in H as (c & Hc & H). apply In_nth_error in Hc as [k Hk]. apply in_combine_nth_error in H as (j & H1 & H2). eauto 6.
Qed.
Lemma combine_split {A B} (l : list A) (l' : list B) pre a b post : combine l l' = pre ++ (a, b) :: post ->
  nth_error l (length pre) = Some a /\ nth_error l' (length pre) = Some b /\
  forall x y, In (x, y) pre -> exists j, (j < length pre)%nat /\ nth_error l j = Some x /\ nth_error l' j = Some y.
Proof.
  revert l l'. induction pre as [|[u v] pre IH]; intros [|x l] [|y l'] H; try discriminate H; cbn in H.
  - injection H as -> -> _. repeat split; auto. intros ? ? [].
  - injection H as -> -> H. destruct (IH l l' H) as (H1 & H2 & H3). repeat split; auto. intros p q [[= -> ->]|Hin]; [exists 0%nat; cbn; split; [lia|auto]|].
    destruct (H3 p q Hin) as (j & Hj & E1 & E2). exists (S j). cbn. split; [lia|auto].
Qed.

Definition collect_step {M} : Z * (list Z * nd M) -> list (Z * Z) -> outcome (list (Z * Z)) :=
  fun '(k, (ix, a)) m =>
           if negb (Nat.eqb (length ix) (length (nd_sizes a)))
           then Throw (RuntimeError (percent (percent "index/marginal dimension mismatch %% vs %%" (to_string_int (Z.of_nat (length ix))))
                                       (to_string_int (Z.of_nat (length (nd_sizes a))))))
           else foldM (add_dim_msg k) (combine ix (nd_sizes a)) m.
Lemma collect_msg cs :
  (exists m, collect_sizes_msg (map c_dims cs) (map nd_of cs) = Ok m /\ repr_map m (pairs cs) /\ lengths_ok cs) \/
  (exists t, collect_sizes_msg (map c_dims cs) (map nd_of cs) = Throw (RuntimeError t) /\ offence cs t).
Proof.
  change (collect_sizes_msg (map c_dims cs) (map nd_of cs)) with (foldM collect_step (numbered 0 (combine (map c_dims cs) (map nd_of cs))) []).
  assert (forall post pre m, cs = pre ++ post -> repr_map m (pairs pre) -> lengths_ok pre ->
    (exists m', foldM collect_step (numbered (Z.of_nat (length pre)) (combine (map c_dims post) (map nd_of post))) m = Ok m' /\
       repr_map m' (pairs cs) /\ lengths_ok cs) \/
    (exists t, foldM collect_step (numbered (Z.of_nat (length pre)) (combine (map c_dims post) (map nd_of post))) m = Throw (RuntimeError t) /\
       offence cs t)) as G.
  { induction post as [|c post IH]; intros pre m Ec Hr Hlen; cbn [map combine numbered foldM].
    - left. exists m. rewrite app_nil_r in Ec. subst pre. auto.
    - assert (nth_error cs (length pre) = Some c) as Hk by (rewrite Ec, nth_error_app2, Nat.sub_diag by lia; reflexivity).
      cbn [collect_step]. change (nd_sizes (nd_of c)) with (c_sizes c).
      destruct (Nat.eqb_spec (length (c_dims c)) (length (c_sizes c))) as [El|El]; cbn [negb].
      + destruct (add_dims_msg (Z.of_nat (length pre)) (combine (c_dims c) (c_sizes c)) m _ Hr) as [(m1 & E1 & H1)|(p & d & n & q & n' & Ep & Hin & Hne & E1)].
        * rewrite E1. cbn [bind]. specialize (IH (pre ++ [c]) m1). rewrite app_length in IH. cbn [length] in IH.
          replace (Z.of_nat (length pre + 1)) with (Z.of_nat (length pre) + 1) in IH by lia. apply IH.
          { now rewrite <- app_assoc. }
          { unfold pairs. rewrite flat_map_app. cbn [flat_map]. rewrite app_nil_r. exact H1. }
          { intros c' Hc'. apply in_app_or in Hc' as [Hc'|[<-|[]]]; auto. }
        * right. rewrite E1. cbn [bind]. eexists. split; [reflexivity|].
          destruct (combine_split _ _ _ _ _ _ Ep) as (J1 & J2 & J3).
          apply in_app_or in Hin as [Hin|Hin].
          { apply in_pairs_nth in Hin as (k' & c' & j' & K1 & K2 & K3).
            assert (k' < length pre)%nat as Hlt by (apply nth_error_Some; congruence).
            eapply (off_size cs (length pre) c (length p) k' c' j' d n' n); eauto. rewrite Ec, nth_error_app1; auto. }
          { destruct (J3 d n' Hin) as (j' & Hj & K2 & K3).
            eapply (off_size cs (length pre) c (length p) (length pre) c j' d n' n); eauto. }
      + right. cbn [bind]. eexists. split; [reflexivity|]. unfold to_string_int. fold (dec (Z.of_nat (length (c_dims c)))).
        fold (dec (Z.of_nat (length (c_sizes c)))). rewrite msg_axes. eapply off_axes; eauto. }
  apply (G cs [] []); auto; [split; [constructor|easy]|intros ? []].
Qed.

Lemma nd_min_int sizes f : fits sizes -> exists v, nd_min IntOps (mk sizes f) = Ok v /\
  (forall i, index_in sizes i -> v <= f i) /\ (v < 0 -> exists i, index_in sizes i /\ f i = v).
Proof.
  intros Hf. unfold nd_min. rewrite sizes_mk, index_loop_spec by auto.
  assert (forall l mv, (forall i, In i l -> index_in sizes i) -> exists v,
    foldM (fun i mv => let* x := nd_get (mk sizes f) i in Ok (if n_ltb IntOps x mv then x else mv)) l mv = Ok v /\
    v <= mv /\ (forall i, In i l -> v <= f i) /\ (v = mv \/ exists i, In i l /\ f i = v)) as G.
  { induction l as [|i l IH]; intros mv Hl; cbn [foldM].
    - exists mv. repeat split; auto; [lia|intros ? []].
    - rewrite nd_get_mk by (auto; apply Hl; now left). cbn [bind].
      destruct (IH (if n_ltb IntOps (f i) mv then f i else mv)) as (v & E & H1 & H2 & H3); [intros; apply Hl; now right|].
      exists v. split; auto. cbn [n_ltb IntOps] in *. destruct (Z.ltb_spec (f i) mv); repeat split; try lia.
      + intros j [<-|Hj]; auto.
      + destruct H3 as [->|(j & Hj & Ej)]; right; [exists i|exists j]; split; auto; [now left|now right].
      + intros j [<-|Hj]; auto. lia.
      + destruct H3 as [->|(j & Hj & Ej)]; [now left|right; exists j; split; auto; now right]. }
  destruct (G (all_indices sizes) (n_max IntOps)) as (v & E & H1 & H2 & H3); [intros i; apply in_all_indices|].
  exists v. split; auto. split; [intros i Hi; apply H2; now apply in_all_indices|]. intros Hv. destruct H3 as [->|(i & Hi & Ei)]; [cbn in Hv; lia|].
  exists i. split; auto. now apply in_all_indices.
Qed.

Lemma mapM_throw {A B} (f : A -> outcome B) l e : mapM f l = Throw e ->
  exists k x, nth_error l k = Some x /\ f x = Throw e /\ forall k' x', (k' < k)%nat -> nth_error l k' = Some x' -> exists r, f x' = Ok r.
Proof.
  induction l as [|a l IH]; cbn [mapM]; intros H; [discriminate|]. destruct (f a) as [b|e'|w|] eqn:E; cbn [bind] in H; try discriminate.
  - destruct (mapM f l) as [bs|e'|w|]; cbn [bind] in H; try discriminate. injection H as ->. destruct (IH eq_refl) as (k & x & Hk & Hx & Hb).
    exists (S k), x. split; auto. split; auto. intros [|k'] x' Hlt Hn; cbn in Hn; [injection Hn as <-; eauto|]. apply (Hb k'); auto. lia.
  - injection H as <-. exists 0%nat, a. split; auto. split; auto. intros k' x' Hlt. lia.
Qed.
Lemma nth_error_zrange n k x : nth_error (zrange n) k = Some x -> x = Z.of_nat k /\ (k < Z.to_nat n)%nat.
Proof.
  unfold zrange. rewrite nth_error_map. intros H. destruct (nth_error (seq 0 (Z.to_nat n)) k) as [y|] eqn:E; [|discriminate].
  assert (k < length (seq 0 (Z.to_nat n)))%nat as Hk by (apply nth_error_Some; congruence). rewrite seq_length in Hk.
  apply nth_error_nth with (d := 0%nat) in E. rewrite seq_nth in E by auto. injection H as <-. split; auto.
Qed.

Lemma numbered_split {A} (l : list A) : forall k pre i a post, numbered k l = pre ++ (i, a) :: post ->
  exists l1 l2, l = l1 ++ a :: l2 /\ i = k + Z.of_nat (length l1) /\ pre = numbered k l1.
Proof.
  induction l as [|x l IH]; intros k pre i a post H; cbn in H; [destruct pre; discriminate|]. destruct pre as [|p pre]; cbn in H.
  - injection H as <- <- _. exists [], l. repeat split; auto. cbn. lia.
  - injection H as <- H. destruct (IH _ _ _ _ _ H) as (l1 & l2 & -> & -> & ->). exists (x :: l1), l2. repeat split; auto. cbn [length]. lia.
Qed.
Lemma numbered_nat {A} (l : list A) dflt : numbered 0 l = map (fun n => (Z.of_nat n, nth n l dflt)) (seq 0 (length l)).
Proof.
  rewrite numbered_zrange. unfold zrange. rewrite Nat2Z.id.
  assert (forall l k, combine (map Z.of_nat (seq k (length l))) l = map (fun n => (Z.of_nat n, nth (n - k) l dflt)) (seq k (length l))) as G.
  { clear. induction l as [|x l IH]; intros k; [reflexivity|]. cbn [length seq map combine]. rewrite Nat.sub_diag. cbn [nth]. f_equal.
    rewrite IH. apply map_ext_in. intros n Hn. apply in_seq in Hn. replace (n - k)%nat with (S (n - S k)) by lia. reflexivity. }
  rewrite G. apply map_ext. intros n. now rewrite Nat.sub_0_r.
Qed.

Lemma filter_map_comm {A B} (h : A -> B) (P : B -> bool) l : filter P (map h l) = map h (filter (fun x => P (h x)) l).
Proof. induction l as [|x l IH]; cbn; auto. destruct (P (h x)); cbn; now rewrite IH. Qed.
Lemma filter_flat_map {A B} (g : A -> list B) (P : B -> bool) l : filter P (flat_map g l) = flat_map (fun x => filter P (g x)) l.
Proof. induction l as [|x l IH]; cbn; auto. now rewrite filter_app, IH. Qed.
Lemma map_flat_map' {A B C} (h : B -> C) (g : A -> list B) l : map h (flat_map g l) = flat_map (fun x => map h (g x)) l.
Proof. induction l as [|x l IH]; cbn; auto. now rewrite map_app, IH. Qed.
Lemma flat_map_map' {A B C} (h : A -> B) (g : B -> list C) l : flat_map g (map h l) = flat_map (fun x => g (h x)) l.
Proof. induction l as [|x l IH]; cbn; auto. now rewrite IH. Qed.
Lemma flat_map_ext_in' {A B} (f g : A -> list B) l : (forall x, In x l -> f x = g x) -> flat_map f l = flat_map g l.
Proof. induction l as [|x l IH]; cbn; auto. intros H. rewrite (H x) by now left. rewrite IH; auto. Qed.

Lemma dim_lookup_axes dim cs : (forall c, In c cs -> valid_dims dim (c_dims c)) ->
  exists lk, dim_lookup dim (map c_dims cs) = Ok lk /\ length lk = dim /\
    forall d, (d < dim)%nat -> nth d lk [] = map (fun p => (Z.of_nat (fst p), Z.of_nat (snd p))) (axes cs (Z.of_nat d)).
Proof.
  intros Hv. unfold dim_lookup.
  set (E := flat_map (fun p => map (fun q => (snd q, (fst p, fst q))) (numbered 0 (snd p))) (numbered 0 (map c_dims cs))).
  destruct (pushes E (repeat [] dim)) as (lk & El & Hl & Hd).
  { rewrite repeat_length. apply Forall_forall. intros [d [k i]] Hin. unfold E in Hin. apply in_flat_map in Hin as ([k' ix] & Hk & Hin).
    apply in_map_iff in Hin as ([i' d'] & Eq & Hin). simpl in *. injection Eq as <- <- <-.
    apply in_numbered in Hk as (n & _ & Hn). apply in_numbered in Hin as (j & _ & Hj).
    apply nth_error_In in Hn, Hj. apply in_map_iff in Hn as (c & <- & Hc). specialize (Hv c Hc). eapply Forall_forall in Hv; eauto. }
  exists lk. rewrite repeat_length in *. split; [|split; auto].
  - rewrite <- El. unfold E. rewrite foldM_flat_map. apply foldM_ext. intros [k ix] s _.
    rewrite foldM_map. apply foldM_ext. intros [i d] s' _. reflexivity.
  - intros d Hdim. rewrite Hd by auto. rewrite nth_repeat. cbn [app]. unfold E, axes.
    rewrite filter_flat_map, map_flat_map', map_flat_map'. set (c0 := CON [] [] (fun _ => 0)).
    rewrite (numbered_nat (map c_dims cs) (c_dims c0)), flat_map_map', map_length. apply flat_map_ext_in'. intros k Hk. cbn [fst snd].
    rewrite map_nth. set (c := nth k cs c0). rewrite filter_map_comm, !map_map. cbn [fst snd].
    rewrite (numbered_nat (c_dims c) 0), filter_map_comm, map_map. cbn [fst snd].
    f_equal. apply filter_ext_in. intros j Hj. apply in_seq in Hj. rewrite (nth_error_nth' (c_dims c) 0) by lia. reflexivity.
Qed.

Lemma axes_in cs d k j : In (k, j) (axes cs d) -> exists c, nth_error cs k = Some c /\ nth_error (c_dims c) j = Some d.
Proof.
  unfold axes. rewrite in_flat_map. intros (k' & Hk & Hin). apply in_map_iff in Hin as (j' & [= -> ->] & Hj). apply in_seq in Hk.
  exists (nth k cs (CON [] [] (fun _ => 0))). split; [apply nth_error_nth'; lia|]. apply filter_In in Hj as [_ Hj].
  destruct (nth_error _ j) as [d'|]; [|discriminate]. apply Z.eqb_eq in Hj. now subst.
Qed.

Lemma create_msg cs sizes : implied cs sizes -> (2 <= length cs)%nat -> (forall c, In c cs -> csmall c) ->
  (forall c, In c cs -> nonneg c) -> (forall c, In c cs -> c_total c < 2 ^ 52) ->
  forall e, create_mappings_msg IntMarg to_string_int (length sizes) (map c_dims cs) (map nd_of cs) = Throw e ->
  exists t, e = RuntimeError t /\ offence cs t.
Proof.
  intros Hi H2 Hs Hn Ht e. unfold create_mappings_msg.
  destruct (dim_lookup_axes (length sizes) cs) as (lk & -> & Hl & Hlk).
  { intros c Hc. eapply implied_valid_dims; eauto. }
  cbn [bind]. destruct cs as [|c0 cs']; [simpl in H2; lia|]. set (cs := c0 :: cs') in *.
  change (map nd_of cs) with (nd_of c0 :: map nd_of cs').
  rewrite (vec_get_ok _ 0 (nd_of c0)) by (simpl length; lia). cbn [bind Z.to_nat nth tl mg_num IntMarg].
  assert (forall c, In c cs -> nd_sum IntOps (nd_of c) = Ok (c_total c) /\ mg_pop IntMarg (c_total c) = Ok (c_total c)) as Hsum.
  { intros c Hc. destruct (Hs c Hc) as (Hf & _ & Hta). pose proof (total_nonneg (c_sizes c) (c_at c) (Hn c Hc)) as H0.
    specialize (Ht c Hc). unfold c_total in *. split.
    - unfold nd_of. apply nd_sum_int; [auto|apply (Hn c Hc)|lia].
    - rewrite pop_of_ok, pop_of_small by lia. reflexivity. }
  destruct (Hsum c0 (or_introl eq_refl)) as [E0 P0]. rewrite E0. cbn [bind]. rewrite P0. cbn [bind].
  destruct (foldM _ (numbered 1 (map nd_of cs')) tt) as [[]|e1|w|] eqn:F1; cbn [bind].
  2:{ intros [= <-]. apply foldM_throw in F1 as (pre & [i a] & post & Esp & Hpre & Hx).
      apply numbered_split in Esp as (l1 & l2 & Em & -> & ->).
      apply map_eq_app in Em as (cs1 & cs2' & -> & <- & Em). destruct cs2' as [|c cs2]; [discriminate|]. injection Em as <- <-.
      assert (In c cs) as Hc by (right; apply in_or_app; right; now left).
      destruct (Hsum c Hc) as [Ec Pc]. rewrite Ec in Hx. cbn [bind] in Hx. rewrite Pc in Hx. cbn [bind] in Hx.
      destruct (Z.eqb_spec (c_total c) (c_total c0)) as [Eq|Ne]; [discriminate Hx|]. injection Hx as <-.
      rewrite map_length in *. eexists. split; [reflexivity|]. unfold to_string_int.
      fold (dec (c_total c)) (dec (c_total c0)) (dec (1 + Z.of_nat (length cs1))). rewrite msg_total.
      replace (1 + Z.of_nat (length cs1)) with (Z.of_nat (S (length cs1))) by lia.
      apply (off_total cs (S (length cs1)) c c0); auto.
      - unfold cs. cbn [nth_error]. rewrite nth_error_app2, Nat.sub_diag by lia. reflexivity.
      - intros c' Hc'. unfold cs in Hc'. cbn [firstn] in Hc'. destruct Hc' as [<-|Hc']; auto.
        rewrite firstn_app, firstn_all, Nat.sub_diag, app_nil_r in Hc'.
        apply In_nth_error in Hc' as [n En].
        assert (In (1 + Z.of_nat n, nd_of c') (numbered 1 (map nd_of cs1))) as Hin
          by (apply in_numbered; exists n; split; auto; rewrite nth_error_map, En; reflexivity).
        specialize (Hpre _ Hin). cbn beta iota in Hpre.
        destruct (Hsum c') as [E' P']; [right; apply in_or_app; left; eapply nth_error_In; eauto|].
        rewrite E' in Hpre. cbn [bind] in Hpre. rewrite P' in Hpre. cbn [bind] in Hpre.
        destruct (Z.eqb_spec (c_total c') (c_total c0)); [auto|discriminate Hpre]. }
  2: discriminate.
  2: discriminate.
  destruct (foldM _ (numbered 0 lk) tt) as [[]|e1|w|] eqn:F2; cbn [bind]; try discriminate.
  intros [= <-]. apply foldM_throw in F2 as (pre & [d mi] & post & Esp & _ & Hx).
  apply numbered_split in Esp as (l1 & l2 & Elk & -> & _).
  assert (length l1 < length sizes)%nat as Hd by (rewrite <- Hl, Elk, app_length; cbn; lia).
  assert (mi = map (fun p => (Z.of_nat (fst p), Z.of_nat (snd p))) (axes cs (Z.of_nat (length l1)))) as Emi
    by (rewrite <- Hlk by auto; rewrite Elk, app_nth2, Nat.sub_diag by lia; reflexivity).
  set (d := length l1) in *. rewrite Z.add_0_l in Hx.
  assert (forall k j, In (k, j) (axes cs (Z.of_nat d)) -> exists c, nth_error cs k = Some c /\
     vec_get (nd_of c0 :: map nd_of cs') (Z.of_nat k) = Ok (nd_of c) /\ reduce1 IntOps (nd_of c) (Z.of_nat j) = Ok (sums_along c j)) as Hred.
  { intros k j Hin. apply axes_in in Hin as (c & Hk & Hj). exists c. split; auto.
    assert (In c cs) as Hc by (eapply nth_error_In; eauto).
    assert (k < length cs)%nat by (apply nth_error_Some; congruence). assert (j < length (c_dims c))%nat by (apply nth_error_Some; congruence).
    split.
    - change (nd_of c0 :: map nd_of cs') with (map nd_of cs). rewrite vec_get_margs by lia. rewrite Nat2Z.id. now rewrite (nth_error_nth _ _ _ Hk).
    - rewrite reduce1_con; [unfold red, sums_along; now rewrite Nat2Z.id|auto|]. rewrite <- (implied_lengths _ _ Hi c Hc). lia. }
  destruct (axes cs (Z.of_nat d)) as [|[k0 j0] [|[k1 j1] rest]] eqn:Eax; subst mi; cbn [map fst snd] in Hx; try discriminate Hx.
  destruct (Hred k0 j0 (or_introl eq_refl)) as (a0 & Hk0 & G0 & R0). rewrite G0 in Hx. cbn [bind] in Hx. rewrite R0 in Hx. cbn [bind] in Hx.
  change ((Z.of_nat k1, Z.of_nat j1) :: map (fun p => (Z.of_nat (fst p), Z.of_nat (snd p))) rest) with
    (map (fun p => (Z.of_nat (fst p), Z.of_nat (snd p))) ((k1, j1) :: rest)) in Hx.
  apply foldM_throw in Hx as (pre' & [n [k j]] & post' & Esp & _ & Hx).
  apply numbered_split in Esp as (m1 & m2 & Em & -> & _).
  apply map_eq_app in Em as (x1 & x2' & Ex & <- & Em). destruct x2' as [|[kk jj] x2]; [discriminate|]. injection Em as <- <- <-.
  destruct (Hred kk jj) as (c & Hk & Gk & Rk). { right. rewrite Ex. apply in_or_app. right. now left. }
  cbn [fst snd] in Hx. rewrite Gk in Hx. cbn [bind] in Hx. rewrite Rk in Hx. cbn [bind] in Hx.
  destruct (allclose IntOps (sums_along c jj) (sums_along a0 j0)) eqn:Hcl; [discriminate Hx|]. injection Hx as <-.
  eexists. split; [reflexivity|]. rewrite !to_string_vec_brackets. unfold to_string_int. rewrite map_length.
  fold (dec (Z.of_nat d)) (dec (1 + Z.of_nat (length x1))). rewrite msg_partial.
  replace (1 + Z.of_nat (length x1)) with (Z.of_nat (S (length x1))) by lia.
  apply (off_partial cs d (S (length x1)) kk jj k0 j0 c a0); auto.
  - rewrite Eax. reflexivity.
  - rewrite Eax, Ex. cbn [nth_error]. rewrite nth_error_app2, Nat.sub_diag by lia. reflexivity.
  - intros Heq. apply allclose_int in Heq. congruence.
Qed.

Lemma micro_msg {T} cs : (forall c, In c cs -> csmall c) -> (forall sizes, implied cs sizes -> prodZ sizes < 2 ^ 60) ->
  (forall c, In c cs -> c_total c < 2 ^ 52) ->
  forall e, micro_new_msg (T := T) IntMarg to_string_int (map c_dims cs) (map nd_of cs) = Throw e ->
  exists t, e = RuntimeError t /\ offence cs t.
Proof.
  intros Hs Hpr Ht e. unfold micro_new_msg. rewrite !map_length, Nat.eqb_refl. cbn [negb orb].
  destruct (Nat.ltb_spec (length cs) 2) as [H2|H2].
  { intros [= <-]. eexists. split; [reflexivity|]. unfold to_string_int. fold (dec (Z.of_nat (length cs))). rewrite msg_few. now apply off_few. }
  destruct (collect_msg cs) as [(m & -> & Hm & Hl)|(t & -> & Ho)]; cbn [bind]; [|intros [= <-]; eauto].
  destruct Hm as [Hnd Hm].
  assert (forall d, In d (map fst m) <-> exists c, In c cs /\ In d (c_dims c)) as Hkeys.
  { intros d. rewrite in_map_iff. split.
    - intros ([d' n] & <- & Hin). apply Hm, in_pairs in Hin as (c & Hc & Hin). exists c. split; auto. now apply in_combine_l in Hin.
    - intros (c & Hc & Hd). destruct (in_dims_pair c d (Hl c Hc) Hd) as (n & Hin). exists (d, n). split; auto. apply Hm, in_pairs. eauto. }
  destruct (Nat.ltb_spec (length m) 2) as [Hm2|Hm2].
  { intros [= <-]. eexists. split; [reflexivity|]. apply off_one. intros c c' d d' Hc Hc' Hd Hd'.
    assert (In d (map fst m)) as K by (apply Hkeys; eauto). assert (In d' (map fst m)) as K' by (apply Hkeys; eauto).
    destruct m as [|p [|q m]]; [destruct K| |cbn in Hm2; lia]. destruct K as [<-|[]], K' as [<-|[]]. reflexivity. }
  destruct (foldM _ (numbered 0 (map nd_of cs)) tt) as [[]|e1|w|] eqn:F1; cbn [bind]; try discriminate.
  2:{ intros [= <-]. apply foldM_throw in F1 as (pre & [i a] & post & Esp & Hpre & Hx).
      apply numbered_split in Esp as (l1 & l2 & Em & -> & ->).
      apply map_eq_app in Em as (cs1 & cs2' & Ecs & <- & Em). destruct cs2' as [|c cs2]; [discriminate|]. injection Em as <- <-.
      assert (In c cs) as Hc by (rewrite Ecs; apply in_or_app; right; now left).
      destruct (nd_min_int (c_sizes c) (c_at c) (proj1 (Hs c Hc))) as (v & Ev & Hmin & Hneg). unfold nd_of in Hx at 1.
      cbn [mg_num IntMarg] in Hx, Hpre. rewrite Ev in Hx. cbn [bind n_ltb n_zero IntOps] in Hx.
      destruct (Z.ltb_spec v 0) as [Hv|Hv]; [|discriminate Hx]. injection Hx as <-. eexists. split; [reflexivity|].
      rewrite map_length, Z.add_0_l. unfold to_string_int. fold (dec (Z.of_nat (length cs1))) (dec v). rewrite msg_neg.
      apply (off_negative cs (length cs1) c v); auto.
      - rewrite Ecs, nth_error_app2, Nat.sub_diag by lia. reflexivity.
      - intros c' Hc' i Hi. rewrite Ecs, firstn_app, firstn_all, Nat.sub_diag, app_nil_r in Hc'.
        apply In_nth_error in Hc' as [n En].
        assert (In (0 + Z.of_nat n, nd_of c') (numbered 0 (map nd_of cs1))) as Hin
          by (apply in_numbered; exists n; split; auto; rewrite nth_error_map, En; reflexivity).
        specialize (Hpre _ Hin). cbn beta iota in Hpre.
        assert (In c' cs) as Hc' by (rewrite Ecs; apply in_or_app; left; eapply nth_error_In; eauto).
        destruct (nd_min_int (c_sizes c') (c_at c') (proj1 (Hs c' Hc'))) as (v' & Ev' & Hmin' & _). unfold nd_of in Hpre.
        rewrite Ev' in Hpre. cbn [bind n_ltb n_zero IntOps] in Hpre. destruct (Z.ltb_spec v' 0); [discriminate Hpre|].
        specialize (Hmin' i Hi). lia. }
  assert (forall c, In c cs -> nonneg c) as Hn.
  { intros c Hc i Hi. apply In_nth_error in Hc as Hc'. destruct Hc' as [n En].
    assert (In (0 + Z.of_nat n, nd_of c) (numbered 0 (map nd_of cs))) as Hin
      by (apply in_numbered; exists n; split; auto; rewrite nth_error_map, En; reflexivity).
    pose proof (foldM_all _ _ F1 _ Hin) as Hx. cbn beta iota in Hx. cbn [mg_num IntMarg] in Hx.
    destruct (nd_min_int (c_sizes c) (c_at c) (proj1 (Hs c Hc))) as (v & Ev & Hmin & _). unfold nd_of in Hx.
    rewrite Ev in Hx. cbn [bind n_ltb n_zero IntOps] in Hx. destruct (Z.ltb_spec v 0); [discriminate Hx|]. specialize (Hmin i Hi). lia. }
  destruct (mapM _ (zrange (Z.of_nat (length m)))) as [sizes|e1|w|] eqn:F2; cbn [bind]; try discriminate.
  2:{ intros [= <-]. apply mapM_throw in F2 as (d & x & Hx & He & Hb). apply nth_error_zrange in Hx as [-> Hd]. rewrite Nat2Z.id in Hd.
      destruct (map_find m (Z.of_nat d)) as [n|] eqn:Ef; [discriminate He|]. injection He as <-. eexists. split; [reflexivity|].
      unfold to_string_int. fold (dec (Z.of_nat d)). rewrite msg_undef. apply map_find_none in Ef.
      apply off_undefined.
      - intros c Hc Hin. apply Ef. apply Hkeys. eauto.
      - intros d' Hd'. apply Hkeys. destruct (Hb (Z.to_nat d') d') as (r & Er); [lia| |].
        { unfold zrange. rewrite nth_error_map, (nth_error_nth' _ 0%nat), seq_nth by (rewrite ?seq_length; lia). cbn. f_equal. lia. }
        destruct (map_find m d') eqn:E'; [|discriminate Er]. apply map_find_some in E'; auto. apply in_map_iff. now exists (d', z).
      - destruct (Exists_dec (fun e => e < 0 \/ Z.of_nat d < e) (map fst m)) as [Hex|Hno].
        { intros y. destruct (Z_lt_dec y 0); [left; now left|]. destruct (Z_lt_dec (Z.of_nat d) y); [left; now right|right; lia]. }
        { apply Exists_exists in Hex as (y & Hy & Hy'). apply Hkeys in Hy as (c & Hc & Hin). exists c, y. auto. }
        exfalso. assert (incl (map fst m) (zrange (Z.of_nat d))) as Hincl.
        { intros y Hy. apply in_zrange. assert (~ (y < 0 \/ Z.of_nat d < y)) as Hb' by (intros Hy'; apply Hno; apply Exists_exists; eauto).
          assert (y <> Z.of_nat d) by (intros ->; auto). lia. }
        pose proof (NoDup_incl_length Hnd Hincl) as Hle. rewrite map_length in Hle. unfold zrange in Hle. rewrite map_length, seq_length in Hle. lia. }
  assert (implied cs sizes /\ length sizes = length m) as [Hi Hlen].
  { apply (sizes_of_map cs m sizes Hl (conj Hnd Hm)). rewrite <- F2. clear -F2.
    assert (forall l r, mapM (fun k => match map_find m k with Some n => Ok n | None => Throw (RuntimeError (percent "dimension %% size not defined" (to_string_int k))) end) l = Ok r ->
      mapM (fun k => match map_find m k with Some n => Ok n | None => Throw (RuntimeError "dimension size not defined") end) l = Ok r) as G.
    { induction l as [|k l IH]; cbn [mapM]; intros r H; auto. destruct (map_find m k); [|discriminate H]. cbn [bind] in *.
      destruct (mapM _ l) as [bs| | |]; cbn [bind] in H; try discriminate H. rewrite (IH bs eq_refl). exact H. }
    rewrite F2. apply G. exact F2. }
  rewrite <- Hlen. destruct (create_mappings_msg _ _ _ _ _) as [pop|e1|w|] eqn:F3; cbn [bind]; try discriminate.
  - destruct (nd_new sizes) as [arr|e1|w|] eqn:F4; cbn [bind]; try discriminate. intros [= <-].
    rewrite (nd_new_ok sizes) in F4; [discriminate F4|]. eapply implied_fits; eauto. lia.
  - intros [= <-]. eapply create_msg; eauto.
Qed.

(** * The numbers can be read back *)

Definition all_in (D : ascii -> bool) : string -> bool := fix go s := match s with EmptyString => true | String a s' => D a && go s' end.
Definition starts_out (D : ascii -> bool) (s : string) : bool := match s with EmptyString => true | String a _ => negb (D a) end.
Lemma sep_inj D u : forall u' t t', all_in D u = true -> all_in D u' = true -> starts_out D t = true -> starts_out D t' = true ->
  (u ++ t = u' ++ t')%string -> u = u' /\ t = t'.
Proof.
  induction u as [|a u IH]; intros [|a' u'] t t' H H' Ht Ht' E; cbn in *.
  - auto.
  - exfalso. subst t. cbn in Ht. apply andb_prop in H' as [Ha _]. rewrite Ha in Ht. discriminate.
  - exfalso. subst t'. cbn in Ht'. apply andb_prop in H as [Ha _]. rewrite Ha in Ht'. discriminate.
  - apply andb_prop in H as [Ha H], H' as [Ha' H']. injection E as <- E. destruct (IH _ _ _ H H' Ht Ht' E) as [-> ->]. auto.
Qed.
Lemma append_cancel p s t : (p ++ s = p ++ t)%string -> s = t.
Proof. induction p as [|a p IH]; cbn; auto. intros [= E]. auto. Qed.

Definition digit (a : ascii) : bool := let n := Ascii.nat_of_ascii a in (Nat.leb 48 n && Nat.leb n 57) || Nat.eqb n 45.
Lemma dec_digits n : all_in digit (dec n) = true.
Proof.
  assert (forall u, all_in digit (NilEmpty.string_of_uint u) = true) as G by (induction u; cbn; auto).
  unfold dec, NilZero.string_of_int, NilZero.string_of_uint. destruct (Z.to_int n) as [u|u]; destruct u; cbn; rewrite ?G; reflexivity.
Qed.
Lemma to_int_nonnil z : Z.to_int z <> Decimal.Pos Decimal.Nil /\ Z.to_int z <> Decimal.Neg Decimal.Nil.
Proof.
  destruct z as [|p|p]; cbn [Z.to_int]; split; intros H; try discriminate; injection H as H; now apply DecimalPos.Unsigned.to_uint_nonnil in H.
Qed.
Lemma dec_inj a b : dec a = dec b -> a = b.
Proof.
  unfold dec. intros H.
  assert (NilZero.int_of_string (NilZero.string_of_int (Z.to_int a)) = NilZero.int_of_string (NilZero.string_of_int (Z.to_int b))) as E by now rewrite H.
  rewrite !NilZero.isi in E by apply to_int_nonnil. injection E as E.
  rewrite <- (DecimalZ.of_to a), <- (DecimalZ.of_to b), E. reflexivity.
Qed.
Lemma ndec_inj a b : ndec a = ndec b -> a = b.
Proof. intros H. apply dec_inj in H. lia. Qed.
Lemma dec_sep a b t t' : starts_out digit t = true -> starts_out digit t' = true -> (dec a ++ t = dec b ++ t')%string -> a = b /\ t = t'.
Proof. intros Ht Ht' E. destruct (sep_inj digit _ _ _ _ (dec_digits a) (dec_digits b) Ht Ht' E) as [E1 E2]. split; auto. now apply dec_inj. Qed.

Definition body (a : ascii) : bool := negb (Ascii.eqb a "]").
Lemma all_in_app D s t : all_in D (s ++ t) = all_in D s && all_in D t.
Proof. induction s as [|a s IH]; cbn; auto. rewrite IH. apply andb_assoc. Qed.
Lemma all_in_impl (D D' : ascii -> bool) s : (forall a, D a = true -> D' a = true) -> all_in D s = true -> all_in D' s = true.
Proof. intros H. induction s as [|a s IH]; cbn; auto. intros E. apply andb_prop in E as [E1 E2]. rewrite H by auto. now apply IH. Qed.
Lemma digit_body a : digit a = true -> body a = true.
Proof. destruct a as [b0 b1 b2 b3 b4 b5 b6 b7]. destruct b0, b1, b2, b3, b4, b5, b6, b7; cbn; auto. Qed.
Lemma dec_body n : all_in body (dec n) = true.
Proof. eapply all_in_impl; [exact digit_body|apply dec_digits]. Qed.
Lemma commas_body l : all_in body (commas l) = true.
Proof. induction l as [|x [|y l] IH]; [reflexivity|apply dec_body|]. cbn [commas]. rewrite !all_in_app, dec_body. exact IH. Qed.
Lemma dec_nonempty a : dec a <> ""%string.
Proof.
  unfold dec, NilZero.string_of_int, NilZero.string_of_uint. destruct (Z.to_int a) as [u|u]; [|discriminate]. destruct u; discriminate.
Qed.
Lemma commas_inj l : forall l', commas l = commas l' -> l = l'.
Proof.
  assert (forall x l, commas (x :: l) <> ""%string) as Hne.
  { intros x [|y r] E; cbn [commas] in E; [now apply dec_nonempty in E|].
    destruct (dec x) eqn:Ex; [now apply dec_nonempty in Ex|discriminate E]. }
  assert (forall x l, exists t, commas (x :: l) = (dec x ++ t)%string /\ starts_out digit t = true /\ (t = ""%string -> l = []) /\
            (forall y r, l = y :: r -> t = (", " ++ commas l)%string)) as Hd.
  { intros x [|y r]; [exists ""%string|exists (", " ++ commas (y :: r))%string]; (split; [cbn [commas]; now rewrite ?append_nil|]); (split; [reflexivity|]).
    - split; auto. discriminate.
    - split; [discriminate|]. auto. }
  induction l as [|x l IH]; intros [|x' l'] E; auto.
  - exfalso. symmetry in E. now apply Hne in E.
  - exfalso. now apply Hne in E.
  - destruct (Hd x l) as (t & Et & St & Nt & Ct), (Hd x' l') as (t' & Et' & St' & Nt' & Ct'). rewrite Et, Et' in E.
    destruct (dec_sep _ _ _ _ St St' E) as [-> Ett]. f_equal. subst t'.
    destruct l as [|y r], l' as [|y' r']; auto.
    + specialize (Ct' _ _ eq_refl). cbn [commas] in Et. rewrite <- (append_nil (dec x')) in Et at 1. apply append_cancel in Et. subst t. discriminate Ct'.
    + cbn [commas] in Et'. rewrite <- (append_nil (dec x')) in Et' at 1. apply append_cancel in Et'. subst t. discriminate (Nt eq_refl).
    + specialize (Ct _ _ eq_refl). specialize (Ct' _ _ eq_refl). rewrite Ct in Ct'. apply (append_cancel ", ") in Ct'. now apply IH.
Qed.
Lemma brackets_sep l l' t t' : (brackets l ++ t = brackets l' ++ t')%string -> l = l' /\ t = t'.
Proof.
  unfold brackets. rewrite !append_assoc. intros E. apply (append_cancel "[") in E.
  destruct (sep_inj body _ _ ("]" ++ t) ("]" ++ t') (commas_body l) (commas_body l') eq_refl eq_refl E) as [E1 E2]. split; [now apply commas_inj|].
  now apply (append_cancel "]") in E2.
Qed.
Lemma brackets_inj l l' : brackets l = brackets l' -> l = l'.
Proof. intros E. apply (brackets_sep l l' "" ""). now rewrite !append_nil. Qed.

Lemma readable_claim :
  (forall k d n n' k1 d1 n1 n1',
     ("mismatch at index " ++ ndec k ++ ": dimension " ++ dec d ++ " size " ++ dec n ++ " redefined to " ++ dec n' =
      "mismatch at index " ++ ndec k1 ++ ": dimension " ++ dec d1 ++ " size " ++ dec n1 ++ " redefined to " ++ dec n1')%string ->
     k = k1 /\ d = d1 /\ n = n1 /\ n' = n1') /\
  (forall k v k1 v1, ("negative value in marginal " ++ ndec k ++ ": " ++ dec v = "negative value in marginal " ++ ndec k1 ++ ": " ++ dec v1)%string ->
     k = k1 /\ v = v1) /\
  (forall d d1, ("dimension " ++ ndec d ++ " size not defined" = "dimension " ++ ndec d1 ++ " size not defined")%string -> d = d1) /\
  (forall k a b k1 a1 b1, ("marginal sum mismatch at index " ++ ndec k ++ ": " ++ dec a ++ " vs " ++ dec b =
      "marginal sum mismatch at index " ++ ndec k1 ++ ": " ++ dec a1 ++ " vs " ++ dec b1)%string -> k = k1 /\ a = a1 /\ b = b1) /\
  (forall d i x y d1 i1 x1 y1,
     ("marginal partial sum mismatch in dimension " ++ ndec d ++ " index " ++ ndec i ++ ": " ++ brackets x ++ " vs " ++ brackets y =
      "marginal partial sum mismatch in dimension " ++ ndec d1 ++ " index " ++ ndec i1 ++ ": " ++ brackets x1 ++ " vs " ++ brackets y1)%string ->
     d = d1 /\ i = i1 /\ x = x1 /\ y = y1).
Proof.
  unfold ndec. repeat apply conj.
  - intros k d n n' k1 d1 n1 n1' E. apply (append_cancel "mismatch at index ") in E.
    apply dec_sep in E as [E1 E]; [|reflexivity|reflexivity]. apply (append_cancel ": dimension ") in E.
    apply dec_sep in E as [E2 E]; [|reflexivity|reflexivity]. apply (append_cancel " size ") in E.
    apply dec_sep in E as [E3 E]; [|reflexivity|reflexivity]. apply (append_cancel " redefined to ") in E. apply dec_inj in E. repeat split; auto. lia.
  - intros k v k1 v1 E. apply (append_cancel "negative value in marginal ") in E.
    apply dec_sep in E as [E1 E]; [|reflexivity|reflexivity]. apply (append_cancel ": ") in E. apply dec_inj in E. split; auto. lia.
  - intros d d1 E. apply (append_cancel "dimension ") in E. apply dec_sep in E as [E1 E]; [|reflexivity|reflexivity]. lia.
  - intros k a b k1 a1 b1 E. apply (append_cancel "marginal sum mismatch at index ") in E.
    apply dec_sep in E as [E1 E]; [|reflexivity|reflexivity]. apply (append_cancel ": ") in E.
    apply dec_sep in E as [E2 E]; [|reflexivity|reflexivity]. apply (append_cancel " vs ") in E. apply dec_inj in E. repeat split; auto. lia.
  - intros d i x y d1 i1 x1 y1 E. apply (append_cancel "marginal partial sum mismatch in dimension ") in E.
    apply dec_sep in E as [E1 E]; [|reflexivity|reflexivity]. apply (append_cancel " index ") in E.
    apply dec_sep in E as [E2 E]; [|reflexivity|reflexivity]. apply (append_cancel ": ") in E.
    apply brackets_sep in E as [E3 E]. apply (append_cancel " vs ") in E. apply brackets_inj in E. repeat split; auto; lia.
Qed.

(** * At the interface *)

Lemma names_claim {T} ilist mlist : in_range ilist mlist -> vectors ilist mlist -> let cs := cons_of ilist mlist in
  (forall c, In c cs -> c_total c < 2 ^ 52) ->
  forall e, (let* '(indices, margs) := py_lists to_nd ilist mlist in micro_new_msg (T := T) IntMarg to_string_int indices margs) = Throw e ->
  exists t, e = RuntimeError t /\ offence cs t.
Proof.
  intros Hr Hv cs Ht e. destruct (py_lists_cases ilist mlist Hr) as [[_ ->]|[Hn _]]; [|contradiction]. cbn [bind]. fold cs.
  apply micro_msg; [intros c; now apply range_small|now apply Hr|exact Ht].
Qed.

(** an offence is a violation of validity *)
Lemma offence_invalid cs t : offence cs t -> ~ valid cs.
Proof.
  intros H (V1 & (sizes & Hi & V2) & V3 & V4 & V5). destruct H.
  - lia.
  - apply H0. apply (implied_lengths cs sizes Hi). eapply nth_error_In; eauto.
  - apply H6. pose proof (implied_functional cs sizes Hi) as Hf. apply (Hf d); apply in_pairs.
    + exists c'. split; [eapply nth_error_In; eauto|]. apply in_combine_nth_error. eauto.
    + exists c. split; [eapply nth_error_In; eauto|]. apply in_combine_nth_error. eauto.
  - destruct Hi as [Hi _]. destruct (proj2 (Hi 0) ltac:(lia)) as (c & Hc & Hd). destruct (proj2 (Hi 1) ltac:(lia)) as (c' & Hc' & Hd').
    discriminate (H c c' 0 1 Hc Hc' Hd Hd').
  - destruct H1 as (i & Hin & E). assert (0 <= c_at c i) by (apply V3; auto; eapply nth_error_In; eauto). lia.
  - destruct H1 as (c & y & Hc & Hy & Hcase). destruct Hi as [Hi _]. pose proof (proj1 (Hi y) ltac:(eauto)) as Hb.
    destruct (proj2 (Hi (Z.of_nat d)) ltac:(lia)) as (c' & Hc' & Hd'). now apply (H c').
  - apply H1. apply V4; eapply nth_error_In; eauto.
  - apply H3. apply nth_error_In in H as A0, H0 as A1. apply axes_in in A0 as (b0 & B0 & D0), A1 as (b & B & D).
    rewrite B in H1. rewrite B0 in H2. injection H1 as <-. injection H2 as <-.
    assert (nth j (c_sizes b) 0 = nth j0 (c_sizes b0) 0) as Esz.
    { destruct Hi as [_ Hi]. destruct (Hi b) as [_ P]; [eapply nth_error_In; eauto|]. destruct (Hi b0) as [_ P0]; [eapply nth_error_In; eauto|].
      rewrite <- P, <- P0. unfold proj. rewrite (nth_error_nth (map _ (c_dims b)) j 0 (x := nth (Z.to_nat (Z.of_nat d)) sizes 0)) by (rewrite nth_error_map, D; reflexivity).
      rewrite (nth_error_nth (map _ (c_dims b0)) j0 0 (x := nth (Z.to_nat (Z.of_nat d)) sizes 0)) by (rewrite nth_error_map, D0; reflexivity). reflexivity. }
    unfold sums_along. rewrite <- Esz. apply map_ext_in. intros v Hv. apply in_zrange in Hv.
    apply (V5 b b0 j j0 (Z.of_nat d)); auto; eapply nth_error_In; eauto.
Qed.

Lemma sobol_msg_claim fuel dim nskip :
  ((1 <= dim <= 1111)%N -> sobol_dim_msg (Z.of_N dim) = Ok tt) /\
  (~ (1 <= dim <= 1111)%N ->
     sobol_dim_msg (Z.of_N dim) = Throw (RangeError ("Dim " ++ dec (Z.of_N dim) ++ " is not in valid range [1,1111]")) /\
     exists t, Sobol.sobol_new fuel dim nskip = Throw (RangeError t)).
Proof.
  unfold sobol_dim_msg, Sobol.sobol_new. split; intros H.
  - destruct (Z.ltb_spec (Z.of_N dim) 1), (Z.ltb_spec 1111 (Z.of_N dim)); cbn [orb]; try lia. reflexivity.
  - split.
    + assert ((Z.of_N dim <? 1) || (1111 <? Z.of_N dim) = true) as -> by lia. reflexivity.
    + destruct (N.ltb_spec dim 1), (N.ltb_spec 1111 dim); cbn [orb]; eauto; exfalso; lia.
Qed.

Lemma seed_msg_claim seed arr : same_but_text (seed_msg seed arr) (check_seed seed arr) /\
  (seed_msg seed arr = Ok tt <-> seed = arr) /\
  (length seed <> length arr -> seed_msg seed arr = Throw (RuntimeError ("seed dimensions " ++ ndec (length seed) ++
     " is inconsistent with that implied by marginals (" ++ ndec (length arr) ++ ")"))) /\
  (length seed = length arr -> seed <> arr -> seed_msg seed arr = Throw (RuntimeError ("seed dimensions " ++ brackets seed ++
     " are inconsistent with that implied by marginals (" ++ brackets arr ++ ")"))).
Proof.
  assert (forall l l' : list Z, forallb (fun p => fst p =? snd p) (combine l l') = forallb (fun '(a, b) => a =? b) (combine l l')) as Ef
    by (induction l as [|x l IH]; intros [|y l']; cbn; auto; now rewrite IH).
  assert (forall l l' : list Z, length l = length l' -> forallb (fun p => fst p =? snd p) (combine l l') = true <-> l = l') as Eq.
  { induction l as [|x l IH]; intros [|y l'] Hl; cbn in *; try discriminate; [tauto|]. injection Hl as Hl. rewrite andb_true_iff, IH, Z.eqb_eq by auto.
    split; [intros [-> ->]; auto|intros [= -> ->]; auto]. }
  unfold seed_msg, check_seed. rewrite <- Ef. destruct (Nat.eqb_spec (length seed) (length arr)) as [El|El]; cbn [negb].
  - specialize (Eq seed arr El). destruct (forallb _ (combine seed arr)).
    + assert (seed = arr) as -> by now apply Eq. repeat split; auto; congruence.
    + split; [exact I|]. split; [split; [discriminate|intros Es; apply Eq in Es; discriminate]|]. split; [congruence|]. intros _ _. do 2 f_equal.
      rewrite !to_string_vec_brackets.
      exact (fill2 "seed dimensions " " are inconsistent with that implied by marginals (" ")" _ _ eq_refl (brackets_no_pct _) eq_refl).
  - split; [exact I|]. split; [split; [discriminate|congruence]|]. split; [|congruence]. intros _. do 2 f_equal.
    exact (fill2 "seed dimensions " " is inconsistent with that implied by marginals (" ")" _ _ eq_refl (dec_no_pct _) eq_refl).
Qed.

(** * Concrete cases *)
Definition exNeg_m : list (ndarray Z) := [NDA [2; 2] [1; 2; 3; 4]; NDA [2; 2] [2; -3; -12; 3]].
Definition exSum_m : list (ndarray Z) := [NDA [2; 2] [1; 2; 3; 4]; NDA [2; 2] [2; 3; 3; 3]].
Lemma exNeg_range : in_range exB_i exNeg_m. Proof. apply (in_range_by _ _ [2; 2; 2]); vm_compute; reflexivity. Qed.
Lemma exNeg_vectors : vectors exB_i exNeg_m. Proof. split; [reflexivity|]. repeat constructor. Qed.
Lemma exNeg_total c : In c (cons_of exB_i exNeg_m) -> c_total c < 2 ^ 52.
Proof. intros [<-|[<-|[]]]; vm_compute; reflexivity. Qed.

Definition exIdx_i : list (ndarray Z) := [ind1 [0; 1]; ind1 [0]; ind1 [1]].
Definition exIdx_m : list (ndarray Z) := [NDA [2; 2] [2; 1; 3; 4]; NDA [2] [3; 7]; NDA [2] [4; 6]].
Lemma index_claim : exists ilist mlist c, in_range ilist mlist /\ vectors ilist mlist /\
  nth_error (cons_of ilist mlist) 1 = Some c /\ ~ In 1 (c_dims c) /\
  (let* '(indices, margs) := py_lists to_nd ilist mlist in micro_new_msg (T := Z) IntMarg to_string_int indices margs) =
    Throw (RuntimeError "marginal partial sum mismatch in dimension 1 index 1: [4, 6] vs [5, 5]").
Proof.
  exists exIdx_i, exIdx_m, (con_of (ind1 [0]) (NDA [2] [3; 7])). split; [apply (in_range_by _ _ [2; 2]); vm_compute; reflexivity|].
  split; [split; [reflexivity|repeat constructor]|]. split; [reflexivity|]. split; [intros [H|[]]; discriminate H|]. vm_compute. reflexivity.
Qed.
