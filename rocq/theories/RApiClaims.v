(** The claims about the R functions. *)
From Flocq Require Import IEEE754.BinarySingleNaN.
From Verif Require Import Base Spec SpecFacts NDArray IndexProofs Float64 ArrayOps ArrayProofs Bind BindProofs Sobol Micro Stat Qis Ipf Qisi
  Integerise SynthSpec IpfSpec RSpec RArray RArrayProofs RApi MicroProofs SampleProofs SplitProofs QisProofs QisClaims IpfClaims IpfDbl QisiClaims IntegeriseNd RApiProofs.
Open Scope Z_scope.

(** * qis *)

Lemma i64_prod_ok l : positive l -> prodZ l < 2 ^ 60 -> i64_prod l = Ok (prodZ l).
Proof.
  intros Hp Hb. unfold i64_prod.
  assert (forall l acc, 0 < acc -> positive l -> acc * prodZ l < 2 ^ 60 -> foldM (fun n p => i64 (p * n)) l acc = Ok (acc * prodZ l)) as G.
  { clear. induction l as [|n l IH]; intros acc Ha Hp Hb; cbn [foldM prodZ] in *; [f_equal; ring|].
    inversion Hp; subst. pose proof (prodZ_pos l ltac:(auto)). assert (0 < acc * n) by nia. assert (acc * n < 2 ^ 60) by nia.
    unfold i64, in_i64. destruct (Z.leb_spec (- 2 ^ 63) (acc * n)); [|lia]. destruct (Z.ltb_spec (acc * n) (2 ^ 63)); [|lia]. cbn [andb bind].
    rewrite IH; auto; [f_equal; ring|]. nia. }
  rewrite G; auto; try lia. f_equal. ring.
Qed.

(** R's view of a result of the Python function *)
Definition r_of (rs : list Z) (deg : bool) (p : qis_result) : r_result :=
  RR (RA (Some rs) (map s32 (flat (qr_pop_array p)))) (RA (Some rs) (flat (qr_expectation p))) (qr_conv p) (qr_pop p)
     (qr_chisq p) (qr_pvalue p) (if deg then Some (qr_degeneracy p) else None).

Lemma r_copy_ok {A B} (cv : A -> B) z n (a : nd A) arr : nd_values a = Ok arr -> Z.of_nat (length arr) = n -> r_copy cv z n a = Ok (map cv arr).
Proof.
  intros E H. unfold r_copy. rewrite E. cbn [bind]. rewrite H, Z.leb_refl. replace (Z.to_nat n - length arr)%nat with 0%nat by lia. cbn [repeat]. now rewrite app_nil_r.
Qed.

Lemma nd_values_cases {T} (a : nd T) : (exists l, nd_values a = Ok l) \/ (exists w, nd_values a = UB w).
Proof.
  unfold nd_values. destruct (_ <=? _); [|eauto]. induction (firstn _ _) as [|[x|] l IH]; cbn [mapM bind]; eauto.
  destruct IH as [(v & ->)|(w & ->)]; cbn [bind]; eauto.
Qed.

Lemma r_qis_eq L fuel indices marginals skips rs : r_range indices marginals -> length indices = length marginals ->
  get_dimension indices marginals = Ok rs ->
  r_qis L fuel indices marginals skips =
  (let* p := py_qis L fuel (np_il (Z.of_nat (length rs)) indices) (np_ml 0 marginals) skips in Ok (r_of rs true p)).
Proof.
  intros Hr Hl Eg. unfold r_qis. rewrite Hl, Nat.eqb_refl. cbn [negb]. rewrite Eg. cbn [bind]. set (dim := Z.of_nat (length rs)).
  destruct (np_in_range dim _ _ Hr Hl) as [Hin H61].
  assert (forall w, py_qis L fuel (np_il dim indices) (np_ml 0 marginals) skips <> UB w) as Hsafe by (intros w; now apply safe_claim).
  pose proof (fun res => qis_ok_inv L fuel _ _ skips res Hin) as Hinv.
  rewrite (r_args_py 0 to_nd) by (auto using to_nd_ok; eapply r_range_ok; eauto). revert Hsafe Hinv. unfold py_qis.
  destruct (py_lists_cases _ _ Hin) as [[Hv ->]|[Hv (e & ->)]]; cbn [bind]; auto. intros Hsafe Hinv.
  destruct (qis_new fuel _ _ skips) as [q|e|w|] eqn:Eq; cbn [bind] in *; auto.
  assert (exists sizes, valid_code (cons_of (np_il dim indices) (np_ml 0 marginals)) sizes) as (sizes & Hvc0).
  { pose proof Hin as [_ Hprod]. assert (forall c, In c (cons_of (np_il dim indices) (np_ml 0 marginals)) -> csmall c) as Hsm by (intros c; now apply range_small).
    destruct (micro_new_spec (T := Z) _ Hsm Hprod) as [(sizes & Hvc & _)|[_ (e & E)]]; [now exists sizes|].
    unfold qis_new in Eq. rewrite E in Eq. discriminate. }
  pose proof Hvc0 as (_ & Himp & Hd2 & _).
  assert (rs = rev sizes) as Ers by (apply (get_dimension_rev 0 dim indices marginals); auto; now apply implied_np).
  assert (fits sizes) as Hfit by (apply (implied_fits (cons_of (np_il dim indices) (np_ml 0 marginals))); auto;
     [intros c; now apply range_small|now apply (proj2 Hin)]).
  assert (i64_prod rs = Ok (prodZ sizes)) as ->.
  { rewrite <- (prodZ_rev sizes), <- Ers. apply i64_prod_ok.
    - apply positive_rev. rewrite Ers, rev_involutive. apply Hfit.
    - rewrite Ers, prodZ_rev. now apply Hin. }
  cbn [bind].
  destruct (qis_solve L q _) as [[st [[c p] g]]|e|w|] eqn:Es; cbn [bind] in *; auto.
  unfold from_nd in *. destruct (nd_values_cases (q_expect q)) as [(ve & Ee)|(w & Ee)]; rewrite Ee in *; cbn [bind] in *; [|now destruct (Hsafe w)].
  destruct (nd_values_cases (q_arr st)) as [(va & Ea)|(w & Ea)]; rewrite Ea in *; cbn [bind] in *; [|now destruct (Hsafe w)].
  destruct (Hinv _ eq_refl) as (sizes' & r & Hvc & _ & _ & _ & _ & E1 & E2 & _). cbn [qr_pop_array qr_expectation qr_pop] in E1, E2.
  rewrite <- (implied_unique _ _ _ Himp ltac:(apply Hvc)) in *. clear Hsafe Hinv.
  pose proof (length_all_indices _ (positive_nonneg _ (fits_pos _ Hfit))) as Hlen.
  rewrite (r_copy_ok _ _ _ _ va) by (auto; injection E1 as _ ->; now rewrite map_length). cbn [bind].
  rewrite (r_copy_ok _ _ _ _ ve) by (auto; injection E2 as _ ->; now rewrite map_length). cbn [bind].
  rewrite map_id. reflexivity.
Qed.

(** ** What is in the result *)

Lemma flat_s32 (a : ndarray Z) : wf_array a -> (forall i, index_in (shape a) i -> 0 <= entry 0 a i < 2 ^ 31) -> map s32 (flat a) = flat a.
Proof.
  intros Hw H. rewrite <- (map_entry 0 a Hw). rewrite map_map. apply map_ext_in. intros i Hi. apply s32_id. apply H. now apply in_all_indices.
Qed.

Lemma meets_ext sizes f g c : (forall i, index_in sizes i -> f i = g i) -> meets sizes f c -> meets sizes g c.
Proof.
  intros H Hm k Hk. rewrite <- (Hm k Hk). unfold margin, sum_where. f_equal. apply map_ext_in. intros i Hi. apply filter_In in Hi as [Hi _].
  symmetry. apply H. now apply in_all_indices.
Qed.

Lemma meets_bound sizes f c i : (forall i, index_in sizes i -> 0 <= f i) -> meets sizes f c -> index_in sizes i ->
  index_in (c_sizes c) (proj (c_dims c) i) -> f i <= c_at c (proj (c_dims c) i).
Proof.
  intros Hn Hm Hi Hp. rewrite <- (Hm _ Hp). unfold margin, sum_where. replace (f i) with (sumZ (map f [i])) by (simpl; lia). apply sumZ_incl.
  - constructor; [easy|constructor].
  - intros x [<-|[]]. apply filter_In. split; [now apply in_all_indices|apply idx_eqb_refl].
  - intros x Hx. apply filter_In in Hx as [Hx _]. apply Hn. now apply in_all_indices.
Qed.

Lemma np_total dim indices marginals t : length indices = length marginals ->
  (forall c, In c (cons_of (np_il dim indices) (np_ml 0 marginals)) -> c_total c = t) ->
  forall c, In c (rcons_of indices marginals) -> c_total c = t.
Proof.
  intros Hl H c Hc. unfold rcons_of, rcons_from in Hc. apply in_map_iff in Hc as (p & <- & Hp).
  rewrite <- (H (con_of (np_iv dim (fst p)) (np_m 0 (snd p)))).
  - unfold c_total, con_of. cbn [c_sizes c_at np_m shape]. unfold total. f_equal. apply map_ext_in. intros i Hi. apply in_all_indices in Hi.
    unfold np_m. now rewrite entry_NDA_map.
  - unfold cons_of. rewrite np_combine, map_map by auto. apply in_map_iff. exists p. split; auto. now apply -> in_rev.
Qed.

Lemma np_small dim indices marginals c k : r_range indices marginals -> length indices = length marginals ->
  In c (cons_of (np_il dim indices) (np_ml 0 marginals)) -> index_in (c_sizes c) k -> c_at c k < 2 ^ 31.
Proof.
  intros (Hi & _) Hl Hc Hk. unfold cons_of in Hc. rewrite np_combine, map_map in Hc by auto. apply in_map_iff in Hc as (p & <- & Hp).
  apply in_rev in Hp. cbn [fst snd con_of c_at c_sizes np_m shape] in *. unfold np_m. rewrite entry_NDA_map by auto.
  unfold r_entry. destruct p as [iv m]. apply in_combine_r in Hp. rewrite Forall_forall in Hi. destruct (Hi m Hp) as [Hd _]. cbn [snd].
  rewrite Forall_forall in Hd. destruct (nth_in_or_default (Z.to_nat (colmajor (col_sizes m) k)) (r_data m) 0) as [Hin| ->]; [|lia].
  specialize (Hd _ Hin). lia.
Qed.

(** the common part of the claims about qis and qisi *)
Lemma r_result_claim indices marginals rs p deg : r_range indices marginals -> length indices = length marginals ->
  let cs := cons_of (np_il (Z.of_nat (length rs)) indices) (np_ml 0 marginals) in
  let a := qr_pop_array p in
  cs <> [] -> shape a = rev rs -> implied cs (shape a) -> wf_array a -> (forall i, index_in (shape a) i -> 0 <= entry 0 a i) ->
  total (shape a) (entry 0 a) = qr_pop p -> (forall c, In c cs -> c_total c = qr_pop p) ->
  (qr_conv p = true <-> forall c, In c cs -> meets (shape a) (entry 0 a) c) ->
  let res := r_of rs deg p in let b := rr_result res in
  col_sizes b = rs /\ wf_rarray b /\ implied (rcons_of indices marginals) rs /\
  (forall c, In c (rcons_of indices marginals) -> c_total c = rr_pop res) /\
  (rr_conv res = true -> forall c, In c (rcons_of indices marginals) -> meets rs (r_entry 0 b) c) /\
  (rr_pop res < 2 ^ 31 \/ rr_conv res = true -> (forall i, index_in rs i -> 0 <= r_entry 0 b i) /\ total rs (r_entry 0 b) = rr_pop res /\
     ((forall c, In c (rcons_of indices marginals) -> meets rs (r_entry 0 b) c) -> rr_conv res = true)).
Proof.
  intros Hr Hl cs a Hne Hsh Himp Hw Hn Ht Hc Hcv res b. rewrite Hsh in *. cbn [res r_of rr_result rr_pop rr_conv] in *.
  assert (col_sizes b = rs) as Hcb by reflexivity. split; auto.
  pose proof Hw as (Hne1 & Hp1 & Hl1). rewrite Hsh in Hne1, Hp1, Hl1.
  split. { split; [rewrite Hcb; intros ->; now apply Hne1|]. split; [rewrite Hcb; now apply positive_rev|].
    rewrite Hcb. unfold b, res, r_of. cbn [rr_result r_data]. fold a. now rewrite map_length, Hl1, prodZ_rev. }
  split. { apply implied_con, implied_rev1; auto. now apply implied_np. }
  split. { eapply np_total; eauto. }
  assert ((forall i, index_in (rev rs) i -> entry 0 a i < 2 ^ 31) -> forall i, index_in rs i -> r_entry 0 b i = entry 0 a (rev i)) as Hb.
  { intros Hs i Hi. unfold b, res, r_of. cbn [rr_result]. rewrite r_entry_rev by auto. fold a.
    rewrite flat_s32 by (auto; rewrite Hsh; intros j Hj; split; auto). rewrite <- Hsh. now destruct a. }
  assert ((forall c, In c cs -> meets (rev rs) (entry 0 a) c) -> forall i, index_in (rev rs) i -> entry 0 a i < 2 ^ 31) as Hs1.
  { intros Hm i Hi. destruct cs as [|c0 cs'] eqn:Ecs; [easy|]. assert (In c0 cs) as Hc0 by (rewrite Ecs; now left).
    assert (index_in (c_sizes c0) (proj (c_dims c0) i)) as Hp by (apply (proj_in cs (rev rs)); auto; now rewrite Ecs).
    pose proof (meets_bound (rev rs) (entry 0 a) c0 i Hn (Hm c0 ltac:(now left)) Hi Hp).
    pose proof (np_small _ _ _ c0 _ Hr Hl Hc0 Hp). lia. }
  assert (qr_pop p < 2 ^ 31 -> forall i, index_in (rev rs) i -> entry 0 a i < 2 ^ 31) as Hs2.
  { intros Hp i Hi. enough (entry 0 a i <= total (rev rs) (entry 0 a)) by lia. unfold total. replace (entry 0 a i) with (sumZ (map (entry 0 a) [i])) by (simpl; lia).
    apply sumZ_incl; [constructor; [easy|constructor]| |].
    - intros x [<-|[]]. now apply in_all_indices.
    - intros x Hx. apply Hn. now apply in_all_indices. }
  pose proof (meets_rev indices marginals rs (entry 0 a) Hl Himp) as Hmr. fold cs in Hmr.
  assert ((forall i, index_in (rev rs) i -> entry 0 a i < 2 ^ 31) ->
    (qr_conv p = true <-> forall c, In c (rcons_of indices marginals) -> meets rs (r_entry 0 b) c)) as Hcv'.
  { intros Hs. rewrite Hcv, Hmr. split; intros H c Hin; specialize (H c Hin); (eapply meets_ext; [|exact H]); cbn beta; intros i Hi; rewrite Hb; auto. }
  split.
  - intros Hc1. apply Hcv'; auto. apply Hs1. now apply Hcv.
  - intros Hor. assert (forall i, index_in (rev rs) i -> entry 0 a i < 2 ^ 31) as Hs.
    { destruct Hor as [Hp|Hc1]; [auto|]. apply Hs1. now apply Hcv. }
    split; [|split].
    + intros i Hi. rewrite Hb by auto. apply Hn. now apply index_in_rev.
    + rewrite <- Ht, total_rev. unfold total. f_equal. apply map_ext_in. intros i Hi. apply in_all_indices in Hi. now apply Hb.
    + apply (Hcv' Hs).
Qed.

Lemma r_qis_ok_inv L fuel indices marginals skips res : r_range indices marginals -> r_qis L fuel indices marginals skips = Ok res ->
  length indices = length marginals /\ exists rs p, get_dimension indices marginals = Ok rs /\
    py_qis L fuel (np_il (Z.of_nat (length rs)) indices) (np_ml 0 marginals) skips = Ok p /\ res = r_of rs true p.
Proof.
  intros Hr E. destruct (Nat.eq_dec (length indices) (length marginals)) as [Hl|Nl].
  2:{ unfold r_qis in E. apply Nat.eqb_neq in Nl. rewrite Nl in E. discriminate. }
  split; auto. destruct (get_dimension_total indices marginals) as [(rs & Eg & _)|(w & Eg & _)].
  - rewrite (r_qis_eq _ _ _ _ _ rs) in E by auto. destruct (py_qis _ _ _ _ _) as [p| | |] eqn:Ep; try discriminate. cbn [bind] in E.
    exists rs, p. split; auto. split; auto. now inversion E.
  - unfold r_qis in E. rewrite Hl, Nat.eqb_refl, Eg in E. discriminate.
Qed.

Definition r_fine (indices : list (list Z)) (marginals : list (rarray Z)) (rs : list Z) (res : r_result) : Prop :=
  let b := rr_result res in let cs := rcons_of indices marginals in
  col_sizes b = rs /\ wf_rarray b /\ implied cs rs /\ (forall c, In c cs -> c_total c = rr_pop res) /\
  (rr_conv res = true -> forall c, In c cs -> meets rs (r_entry 0 b) c) /\
  (rr_pop res < 2 ^ 31 \/ rr_conv res = true -> (forall i, index_in rs i -> 0 <= r_entry 0 b i) /\ total rs (r_entry 0 b) = rr_pop res /\
     ((forall c, In c cs -> meets rs (r_entry 0 b) c) -> rr_conv res = true)).

Lemma r_qis_fine L fuel indices marginals skips res : r_range indices marginals -> r_qis L fuel indices marginals skips = Ok res ->
  exists rs, r_fine indices marginals rs res.
Proof.
  intros Hr E. destruct (r_qis_ok_inv _ _ _ _ _ _ Hr E) as (Hl & rs & p & Eg & Ep & ->). exists rs.
  destruct (np_in_range (Z.of_nat (length rs)) _ _ Hr Hl) as [Hin _].
  destruct (population_claim _ _ _ _ _ _ Hin Ep) as (Himp & Hw & Hn & Ht & Hc).
  apply r_result_claim; auto.
  - destruct (qis_ok_inv _ _ _ _ _ _ Hin Ep) as (sizes & r & ((Hl2 & _) & _)). intros E0. rewrite E0 in Hl2. simpl in Hl2. lia.
  - assert (rs = rev (shape (qr_pop_array p))) as ->; [|now rewrite rev_involutive].
    eapply (get_dimension_rev 0); eauto. apply implied_np. exact Himp.
  - now apply (conv_claim _ _ _ _ _ _ Hin Ep).
Qed.

(** C37 *)
Lemma r_qis_claim L fuel indices marginals skips res : r_range indices marginals -> r_qis L fuel indices marginals skips = Ok res ->
  let a := rr_result res in implied (rcons_of indices marginals) (col_sizes a) /\ wf_rarray a /\
  (rr_conv res = true -> forall c, In c (rcons_of indices marginals) -> meets (col_sizes a) (r_entry 0 a) c).
Proof.
  intros Hr E a. destruct (r_qis_fine _ _ _ _ _ _ Hr E) as (rs & H1 & H2 & H3 & H4 & H5 & H6). fold a in H1, H2, H5. rewrite H1. auto.
Qed.

Lemma r_qis_pop_claim L fuel indices marginals skips res : r_range indices marginals -> r_qis L fuel indices marginals skips = Ok res ->
  let a := rr_result res in (forall c, In c (rcons_of indices marginals) -> c_total c = rr_pop res) /\
  (rr_pop res < 2 ^ 31 -> (forall i, index_in (col_sizes a) i -> 0 <= r_entry 0 a i) /\ total (col_sizes a) (r_entry 0 a) = rr_pop res /\
     (rr_conv res = true <-> forall c, In c (rcons_of indices marginals) -> meets (col_sizes a) (r_entry 0 a) c)).
Proof.
  intros Hr E a. destruct (r_qis_fine _ _ _ _ _ _ Hr E) as (rs & H1 & H2 & H3 & H4 & H5 & H6). fold a in H1, H2, H5, H6. rewrite H1.
  split; auto. intros Hp. destruct (H6 (or_introl Hp)) as (G1 & G2 & G3). split; auto. split; auto. split; auto.
Qed.

(** returning, raising, and reading past the end of an index vector *)
Lemma r_qis_safe_claim L fuel indices marginals skips : r_range indices marginals -> u32 skips <= 2 ^ 31 -> (32 <= fuel)%nat ->
  (length indices = length marginals -> Forall2 (fun iv m => (length (col_sizes m) <= length iv)%nat) indices marginals) ->
  (exists res, r_qis L fuel indices marginals skips = Ok res) \/ (exists e, r_qis L fuel indices marginals skips = Throw e).
Proof.
  intros Hr Hu Hf Hlen. destruct (Nat.eq_dec (length indices) (length marginals)) as [Hl|Nl].
  2:{ unfold r_qis. apply Nat.eqb_neq in Nl. rewrite Nl. right. eexists. reflexivity. }
  destruct (get_dimension_total indices marginals) as [(rs & Eg & _)|(w & Eg & iv & mv & Hin & Hlt)].
  - rewrite (r_qis_eq _ _ _ _ _ rs) by auto. destruct (np_in_range (Z.of_nat (length rs)) _ _ Hr Hl) as [Hin _].
    destruct (returns_claim L fuel _ _ skips Hin Hu Hf) as [(p & ->)|(e & ->)]; cbn [bind]; eauto.
  - exfalso. specialize (Hlen Hl). clear - Hlen Hin Hlt. induction Hlen; simpl in Hin; [easy|]. destruct Hin as [E|Hin]; [inversion E; subst; lia|auto].
Qed.

Lemma in_combine_len {A B} (P : A -> B -> Prop) a b x y : Forall2 P a b -> In (x, y) (combine a b) -> P x y.
Proof. induction 1; simpl; [easy|]. intros [E|Hin]; [inversion E; subst; auto|auto]. Qed.

Lemma get_dimension_short {T} indices (marginals : list (rarray T)) iv mv : In (iv, mv) (combine indices marginals) ->
  (length iv < length (col_sizes mv))%nat -> exists w, get_dimension indices marginals = UB w.
Proof.
  intros Hin Hlt. destruct (get_dimension_total indices marginals) as [(rs & Eg & H)|(w & Eg & _)]; [|eauto]. specialize (H iv mv Hin). lia.
Qed.

Lemma r_short_claim L fuel sdim sdata indices marginals skips iv m : length indices = length marginals ->
  In (iv, m) (combine indices marginals) -> (length iv < length (col_sizes m))%nat ->
  (exists w, r_qis L fuel indices marginals skips = UB w) /\ (exists w, r_qisi L fuel sdim sdata indices marginals skips = UB w).
Proof.
  intros Hl Hin Hlt. destruct (get_dimension_short _ _ _ _ Hin Hlt) as (w & Eg). unfold r_qis, r_qisi. rewrite Hl, Nat.eqb_refl, Eg. cbn [negb bind]. eauto.
Qed.
Lemma r_ipf_short_claim fuel sdim sdata indices marginals iv m : length indices = length marginals ->
  In (iv, m) (combine indices marginals) -> (length iv < length (col_sizes m))%nat -> exists w, r_ipf fuel sdim sdata indices marginals = UB w.
Proof.
  intros Hl Hin Hlt. destruct (get_dimension_short _ _ _ _ Hin Hlt) as (w & Eg). unfold r_ipf. rewrite Hl, Nat.eqb_refl, Eg. cbn [negb bind]. eauto.
Qed.

(** * qisi *)

Lemma check_seed_inv sdim sdata impl x : r_check_seed sdim sdata impl = Ok x ->
  (exists rest, impl = sdim ++ rest) /\ existsb (fun x => d_ltb x d_zero) sdata = false.
Proof.
  unfold r_check_seed. intros E.
  assert (forall l k, (exists rest, skipn k impl = l ++ rest) \/
    forall u, foldM (fun '(i, n) _ => let* n' := vec_get impl i in if n =? n' then Ok tt else Throw (RuntimeError "mismatch between seed dimension and marginal"))
      (numbered (Z.of_nat k) l) tt <> Ok u) as G.
  { induction l as [|n l IH]; intros k; cbn [numbered foldM]; [left; exists (skipn k impl); reflexivity|].
    unfold vec_get at 1. destruct (Z.leb_spec 0 (Z.of_nat k)); [|lia]. rewrite Nat2Z.id.
    destruct (nth_error impl k) as [n'|] eqn:En; cbn [bind]; [|right; discriminate].
    destruct (Z.eqb_spec n n'); cbn [bind]; [|right; discriminate]. subst n'.
    replace (Z.of_nat k + 1) with (Z.of_nat (S k)) by lia. destruct (IH (S k)) as [(rest & Er)|Hno]; [left|now right].
    exists rest. clear - En Er. revert impl En Er. induction k as [|k IHk]; intros [|x impl] En Er; cbn in *; try discriminate; auto.
    now inversion En; subst. }
  destruct (foldM _ _ tt) as [u| | |] eqn:Ef; try discriminate. cbn [bind] in E.
  split; [|destruct (existsb _ _); [discriminate|auto]].
  destruct (G sdim 0%nat) as [(rest & Er)|Hno]; [exists rest; exact Er|]. exfalso. apply (Hno u). exact Ef.
Qed.

Lemma seed_wf sdim sdata : r_seed sdim sdata -> wf_array (NDA (rev sdim) sdata) /\ prodZ (rev sdim) < 2 ^ 60.
Proof.
  intros [(H1 & H2 & H3) H4]. cbn [col_sizes r_dim r_data] in *. rewrite prodZ_rev. split; auto. split; [|split]; cbn [shape flat].
  - intros E. apply H1. now rewrite <- (rev_involutive sdim), E.
  - apply positive_rev. now rewrite rev_involutive.
  - now rewrite prodZ_rev.
Qed.

Lemma np_qisi_range indices marginals sdim sdata : r_range indices marginals -> length indices = length marginals -> r_seed sdim sdata ->
  qisi_range (np_il (Z.of_nat (length sdim)) indices) (np_ml 0 marginals) (NDA (rev sdim) sdata).
Proof.
  intros Hr Hl Hs. destruct (np_in_range (Z.of_nat (length sdim)) _ _ Hr Hl) as [Hin H61]. destruct (seed_wf _ _ Hs) as [Hw Hb]. exact (conj Hin (conj H61 (conj Hw Hb))).
Qed.

Lemma r_copy_values {A B} (cv : A -> B) z n (a : nd A) l : r_copy cv z n a = Ok l -> exists arr, nd_values a = Ok arr.
Proof. unfold r_copy. destruct (nd_values a); try discriminate. eauto. Qed.

Lemma r_qisi_inv L fuel sdim sdata indices marginals skips res : r_range indices marginals -> r_seed sdim sdata ->
  r_qisi L fuel sdim sdata indices marginals skips = Ok res ->
  length indices = length marginals /\ existsb (fun x => d_ltb x d_zero) sdata = false /\ exists p,
    py_qisi L fuel (NDA (rev sdim) sdata) (np_il (Z.of_nat (length sdim)) indices) (np_ml 0 marginals) skips = Ok p /\ res = r_of sdim false p.
Proof.
  intros Hr Hs E. unfold r_qisi in E. destruct (Nat.eqb_spec (length indices) (length marginals)) as [Hl|]; cbn [negb] in E; [|discriminate].
  split; auto. destruct (get_dimension indices marginals) as [impl| | |]; try discriminate. cbn [bind] in E.
  destruct (r_check_seed sdim sdata impl) as [x| | |] eqn:Ec; try discriminate. cbn [bind] in E. split; [apply (check_seed_inv _ _ _ _ Ec)|].
  pose proof (np_qisi_range _ _ _ _ Hr Hl Hs) as Hq. set (ilist := np_il _ _) in *. set (mlist := np_ml 0 marginals) in *.
  rewrite (r_args_py 0 to_nd) in E by (auto using to_nd_ok; eapply r_range_ok; eauto). fold ilist mlist in E.
  pose proof (qisi_cases L fuel _ _ _ skips Hq) as Hc. cbv zeta in Hc. cbn [shape] in Hc. revert Hc. unfold py_qisi at 1 2.
  destruct (py_lists to_nd ilist mlist) as [[idx m]| | |]; try discriminate. cbn [bind] in *.
  destruct (seed_wf _ _ Hs) as [Hw Hb]. rewrite (as_nd_ok d_zero) in * by auto. cbn [bind] in E |- *.
  destruct (qisi_new fuel idx m skips) as [q| | |]; try discriminate. cbn [bind] in *.
  destruct (qisi_solve L fuel q m _) as [[[st ex] [[c p] g]]| | |]; try discriminate. cbn [bind] in *.
  destruct (r_copy s32 0 (prodZ sdim) (i_arr st)) as [r| | |] eqn:E1; try discriminate. cbn [bind] in E.
  destruct (r_copy (fun x => x) d_zero (prodZ sdim) ex) as [e| | |] eqn:E2; try discriminate. cbn [bind] in E.
  destruct (r_copy_values _ _ _ _ _ E1) as (va & Va). destruct (r_copy_values _ _ _ _ _ E2) as (ve & Ve).
  unfold from_nd at 1 2 3 4. rewrite Va, Ve. cbn [bind]. cbn [qr_pop_array qr_expectation qr_conv qr_pop].
  intros (_ & _ & Hfit & _ & _ & _ & rr & _ & _ & G1 & exx & G2 & _). eexists. split; [reflexivity|].
  unfold r_of. cbn [qr_pop_array qr_expectation qr_conv qr_pop qr_chisq qr_pvalue flat].
  pose proof (length_all_indices _ (positive_nonneg _ (fits_pos _ Hfit))) as Hlen. rewrite prodZ_rev in Hlen.
  rewrite (r_copy_ok _ _ _ _ va Va) in E1 by (injection G1 as _ ->; now rewrite map_length).
  rewrite (r_copy_ok _ _ _ _ ve Ve) in E2 by (injection G2 as _ ->; now rewrite map_length).
  injection E1 as <-. injection E2 as <-. rewrite map_id in E. now injection E as <-.
Qed.

Lemma r_qisi_fine L fuel sdim sdata indices marginals skips res : r_range indices marginals -> r_seed sdim sdata ->
  r_qisi L fuel sdim sdata indices marginals skips = Ok res -> r_fine indices marginals sdim res.
Proof.
  intros Hr Hs E. destruct (r_qisi_inv _ _ _ _ _ _ _ _ Hr Hs E) as (Hl & _ & p & Ep & ->).
  pose proof (np_qisi_range _ _ _ _ Hr Hl Hs) as Hq.
  destruct (qisi_population_claim _ _ _ _ _ _ _ Hq Ep) as (Hsh & Himp & Hw & Hn & Ht & Hc). cbn [shape] in Hsh.
  apply r_result_claim; auto.
  - pose proof (qisi_cases L fuel _ _ _ skips Hq) as H. rewrite Ep in H. destruct H as (_ & (Hl2 & _) & _). intros E0. rewrite E0 in Hl2. simpl in Hl2. lia.
  - now apply (qisi_conv_claim _ _ _ _ _ _ _ Hq Ep).
Qed.

Lemma r_qisi_claim L fuel sdim sdata indices marginals skips res : r_range indices marginals -> r_seed sdim sdata ->
  r_qisi L fuel sdim sdata indices marginals skips = Ok res ->
  let a := rr_result res in col_sizes a = sdim /\ wf_rarray a /\ implied (rcons_of indices marginals) sdim /\
  (rr_conv res = true -> forall c, In c (rcons_of indices marginals) -> meets sdim (r_entry 0 a) c) /\
  (forall c, In c (rcons_of indices marginals) -> c_total c = rr_pop res) /\
  (rr_pop res < 2 ^ 31 -> (forall i, index_in sdim i -> 0 <= r_entry 0 a i) /\ total sdim (r_entry 0 a) = rr_pop res /\
     (rr_conv res = true <-> forall c, In c (rcons_of indices marginals) -> meets sdim (r_entry 0 a) c)).
Proof.
  intros Hr Hs E a. destruct (r_qisi_fine _ _ _ _ _ _ _ _ Hr Hs E) as (H1 & H2 & H3 & H4 & H5 & H6).
  split; [exact H1|]. split; [exact H2|]. split; [exact H3|]. split; [exact H5|]. split; [exact H4|].
  intros Hp. destruct (H6 (or_introl Hp)) as (G1 & G2 & G3). split; [exact G1|]. split; [exact G2|]. split; [exact H5|exact G3].
Qed.

(** * Seeds of the wrong shape *)

Lemma implied_dimension {M} (df : M) indices marginals impl : length indices = length marginals ->
  implied (map outline (rgcons_of df indices marginals)) impl -> get_dimension indices marginals = Ok impl.
Proof.
  intros Hl Hi. apply implied_rev1 in Hi; auto. destruct (get_dimension_total indices marginals) as [(rs & Eg & _)|(w & Eg & iv & mv & Hin & Hlt)].
  - rewrite Eg. f_equal. rewrite (get_dimension_rev df _ _ _ _ _ Hl Eg Hi). apply rev_involutive.
  - exfalso. destruct Hi as [_ Hi]. unfold gcons_of in Hi. rewrite np_combine, !map_map in Hi by auto.
    specialize (Hi (outline (gcon_of df (np_iv (Z.of_nat (length impl)) iv) (np_m df mv)))). cbn in Hi. rewrite map_length in Hi.
    destruct Hi as [Hi _]; [|lia]. apply in_map_iff. exists (iv, mv). split; [reflexivity|]. now apply -> in_rev.
Qed.

Lemma check_seed_long impl extra sdata : extra <> [] -> exists w, r_check_seed (impl ++ extra) sdata impl = UB w.
Proof.
  intros He. unfold r_check_seed.
  assert (forall l k, skipn k impl = l -> exists w, foldM (fun '(i, n) _ => let* n' := vec_get impl i in
      if n =? n' then Ok tt else Throw (RuntimeError "mismatch between seed dimension and marginal")) (numbered (Z.of_nat k) (l ++ extra)) tt = UB w) as G.
  { induction l as [|n l IH]; intros k Hk; cbn [app].
    - destruct extra as [|x extra]; [easy|]. cbn [numbered foldM]. unfold vec_get at 1. destruct (Z.leb_spec 0 (Z.of_nat k)); [|lia]. rewrite Nat2Z.id.
      destruct (nth_error impl k) as [n'|] eqn:En; cbn [bind]; [|eauto]. exfalso. clear - Hk En. revert impl Hk En.
      induction k as [|k IH]; intros [|y impl] Hk En; cbn in *; try discriminate. eauto.
    - cbn [numbered foldM]. unfold vec_get at 1. destruct (Z.leb_spec 0 (Z.of_nat k)); [|lia]. rewrite Nat2Z.id.
      assert (nth_error impl k = Some n /\ skipn (S k) impl = l) as [-> Hk'].
      { clear - Hk. revert impl Hk. induction k as [|k IH]; intros [|y impl] Hk; cbn in *; try discriminate; [inversion Hk; auto|]. apply (IH impl Hk). }
      cbn [bind]. rewrite Z.eqb_refl. cbn [bind]. replace (Z.of_nat k + 1) with (Z.of_nat (S k)) by lia. auto. }
  destruct (G impl 0%nat eq_refl) as (w & E). change (Z.of_nat 0) with 0 in E. rewrite E. cbn [bind]. eauto.
Qed.

Lemma r_long_seed_claim L fuel sdata indices marginals skips impl extra : length indices = length marginals ->
  implied (rcons_of indices marginals) impl -> extra <> [] ->
  exists w, r_qisi L fuel (impl ++ extra) sdata indices marginals skips = UB w.
Proof.
  intros Hl Hi He. apply implied_con in Hi. pose proof (implied_dimension 0 _ _ _ Hl Hi) as Eg.
  destruct (check_seed_long impl extra sdata He) as (w & Ec). unfold r_qisi. rewrite Hl, Nat.eqb_refl, Eg. cbn [negb bind]. rewrite Ec. cbn [bind]. eauto.
Qed.
Lemma r_ipf_long_seed_claim fuel sdata indices marginals impl extra : length indices = length marginals ->
  implied (map outline (rgcons_of d_zero indices marginals)) impl -> extra <> [] ->
  exists w, r_ipf fuel (impl ++ extra) sdata indices marginals = UB w.
Proof.
  intros Hl Hi He. pose proof (implied_dimension d_zero _ _ _ Hl Hi) as Eg.
  destruct (check_seed_long impl extra sdata He) as (w & Ec). unfold r_ipf. rewrite Hl, Nat.eqb_refl, Eg. cbn [negb bind]. rewrite Ec. cbn [bind]. eauto.
Qed.

Lemma check_seed_tri sdim sdata impl : (length sdim <= length impl)%nat ->
  (r_check_seed sdim sdata impl = Ok tt) \/ exists e, r_check_seed sdim sdata impl = Throw e.
Proof.
  intros Hl. unfold r_check_seed.
  assert (forall l k, (k + length l <= length impl)%nat ->
    foldM (fun '(i, n) _ => let* n' := vec_get impl i in if n =? n' then Ok tt else Throw (RuntimeError "mismatch between seed dimension and marginal"))
      (numbered (Z.of_nat k) l) tt = Ok tt \/ exists e,
    foldM (fun '(i, n) _ => let* n' := vec_get impl i in if n =? n' then Ok tt else Throw (RuntimeError "mismatch between seed dimension and marginal"))
      (numbered (Z.of_nat k) l) tt = Throw e) as G.
  { induction l as [|n l IH]; intros k Hk; cbn [numbered foldM]; auto. unfold vec_get at 1 3. destruct (Z.leb_spec 0 (Z.of_nat k)); [|lia]. rewrite Nat2Z.id.
    simpl in Hk. destruct (nth_error impl k) as [n'|] eqn:En; [|apply nth_error_None in En; lia]. cbn [bind].
    destruct (n =? n'); cbn [bind]; [|right; eauto]. replace (Z.of_nat k + 1) with (Z.of_nat (S k)) by lia. apply IH. lia. }
  specialize (G sdim 0%nat Hl). change (Z.of_nat 0) with 0 in G. destruct G as [->|(e & ->)]; cbn [bind]; [|eauto]. destruct (existsb _ _); eauto.
Qed.

(** shorter seeds are rejected *)
Lemma r_short_seed_claim L fuel sdim sdata indices marginals skips impl : r_range indices marginals -> r_seed sdim sdata ->
  length indices = length marginals -> implied (rcons_of indices marginals) impl -> sdim <> impl -> (length sdim <= length impl)%nat ->
  u32 skips <= 2 ^ 31 -> (32 <= fuel)%nat -> exists e, r_qisi L fuel sdim sdata indices marginals skips = Throw e.
Proof.
  intros Hr Hs Hl Hi Hne Hlen Hu Hf. pose proof (implied_dimension 0 _ _ _ Hl (proj2 (implied_con _ _ _ _) Hi)) as Eg.
  unfold r_qisi. rewrite Hl, Nat.eqb_refl, Eg. cbn [negb bind].
  destruct (check_seed_tri sdim sdata impl Hlen) as [->|(e & ->)]; cbn [bind]; [|eauto].
  pose proof (np_qisi_range _ _ _ _ Hr Hl Hs) as Hq. set (ilist := np_il _ _) in *. set (mlist := np_ml 0 marginals) in *.
  destruct (qisi_seed_claim L fuel (NDA (rev sdim) sdata) ilist mlist skips Hq) as (e & E); auto.
  { cbn [shape]. intros Hc. apply Hne. pose proof (get_dimension_rev 0 _ _ _ _ _ Hl Eg (proj2 (implied_np _ _ _ _) Hc)) as ->. now rewrite rev_involutive. }
  rewrite (r_args_py 0 to_nd) by (auto using to_nd_ok; eapply r_range_ok; eauto). fold ilist mlist.
  unfold py_qisi in E. destruct (py_lists to_nd ilist mlist) as [[idx m]| | |]; cbn [bind] in *; try discriminate; eauto.
  destruct (seed_wf _ _ Hs) as [Hw Hb]. rewrite (as_nd_ok d_zero) in * by auto. cbn [bind] in *.
  destruct (qisi_new fuel idx m skips) as [q| | |]; cbn [bind] in *; try discriminate; eauto.
  destruct (qisi_solve L fuel q m _) as [[[st ex] [[c p] g]]| | |]; cbn [bind] in *; try discriminate; eauto.
  exfalso. unfold from_nd in E. destruct (nd_values_cases ex) as [(v & Ev)|(w & Ev)]; rewrite Ev in E; cbn [bind] in E; try discriminate.
  destruct (nd_values_cases (i_arr st)) as [(v' & Ev')|(w & Ev')]; rewrite Ev' in E; cbn [bind] in E; discriminate.
Qed.
(** negative seeds are rejected *)
Lemma r_negative_seed_claim L fuel sdim sdata indices marginals skips impl : length indices = length marginals ->
  implied (rcons_of indices marginals) impl -> (length sdim <= length impl)%nat -> Exists (fun x => d_ltb x d_zero = true) sdata ->
  exists e, r_qisi L fuel sdim sdata indices marginals skips = Throw e.
Proof.
  intros Hl Hi Hlen Hn. pose proof (implied_dimension 0 _ _ _ Hl (proj2 (implied_con _ _ _ _) Hi)) as Eg.
  unfold r_qisi. rewrite Hl, Nat.eqb_refl, Eg. cbn [negb bind].
  destruct (check_seed_tri sdim sdata impl Hlen) as [E|(e & ->)]; cbn [bind]; [|eauto].
  apply check_seed_inv in E as [_ E]. exfalso. apply Exists_exists in Hn as (x & Hx & Hlt).
  assert (existsb (fun x => d_ltb x d_zero) sdata = true) by (apply existsb_exists; eauto). congruence.
Qed.

(** * ipf *)

Lemma np_d_range indices marginals dim : rg_range d_zero indices marginals -> length indices = length marginals ->
  d_range (np_il dim indices) (np_ml d_zero marginals).
Proof.
  intros (Hm & Hp) Hl. rewrite Forall_forall in Hm. split.
  - rewrite Forall_forall. intros m Hin. unfold np_ml in Hin. apply in_rev in Hin. apply in_map_iff in Hin as (a & <- & Ha).
    destruct (Hm a Ha) as (Hw & Hb & Hd). split; [apply np_m_wf; split; auto|]. auto.
  - intros sizes Hs. rewrite <- (rev_involutive sizes), implied_rev in Hs by auto. apply Hp in Hs. now rewrite prodZ_rev in Hs.
Qed.

Lemma r_ipf_inv fuel sdim sdata indices marginals res : rg_range d_zero indices marginals -> r_seed sdim sdata -> r_proper (length sdim) indices ->
  prodZ sdim < Z.of_nat fuel -> r_ipf fuel sdim sdata indices marginals = Ok res ->
  length indices = length marginals /\ existsb (fun x => d_ltb x d_zero) sdata = false /\
  all_proper d_zero (np_il (Z.of_nat (length sdim)) indices) (np_ml d_zero marginals) /\ exists p,
    py_ipf fuel (NDA (rev sdim) sdata) (np_il (Z.of_nat (length sdim)) indices) (np_ml d_zero marginals) = Ok p /\
    shape (ir_array p) = rev sdim /\
    res = RI (RA (Some sdim) (flat (ir_array p))) (ir_conv p) (ir_pop p) (ir_iters p) (ir_max p).
Proof.
  intros Hr Hs Hpr Hfu E. unfold r_ipf in E. destruct (Nat.eqb_spec (length indices) (length marginals)) as [Hl|]; cbn [negb] in E; [|discriminate].
  split; auto. destruct (get_dimension indices marginals) as [impl| | |] eqn:Eg; try discriminate. cbn [bind] in E.
  destruct (r_check_seed sdim sdata impl) as [x| | |] eqn:Ec; try discriminate. cbn [bind] in E.
  destruct (check_seed_inv _ _ _ _ Ec) as [(rest & Eimpl) Hneg]. split; auto.
  assert (all_proper d_zero (np_il (Z.of_nat (length sdim)) indices) (np_ml d_zero marginals)) as Hap.
  { intros sizes c Hi Hc. pose proof (get_dimension_rev d_zero _ _ _ _ _ Hl Eg Hi) as Er.
    assert (length sdim <= length sizes)%nat as Hle by (rewrite <- (rev_length sizes), <- Er, Eimpl, app_length; lia).
    unfold gcons_of in Hc. rewrite np_combine, map_map in Hc by auto. apply in_map_iff in Hc as ([iv m] & <- & Hc). apply in_rev, in_combine_l in Hc.
    unfold r_proper in Hpr. rewrite Forall_forall in Hpr. destruct (Hpr iv Hc) as [Hnd Hll]. cbn. split; [|rewrite map_length; lia].
    apply FinFun.Injective_map_NoDup; auto. intros a b H. lia. }
  split; auto. pose proof (np_d_range indices marginals (Z.of_nat (length sdim)) Hr Hl) as Hdr. destruct (seed_wf _ _ Hs) as [Hw Hb].
  set (ilist := np_il _ _) in *. set (mlist := np_ml d_zero marginals) in *.
  assert (Forall r_ok marginals) as Hok by (destruct Hr as [Hm _]; eapply Forall_impl; [|exact Hm]; intros m (H1 & H2 & _); split; auto).
  rewrite (r_args_py d_zero as_nd) in E by (auto; intros; now apply as_nd_ok). fold ilist mlist in E.
  assert (forall p, py_ipf fuel (NDA (rev sdim) sdata) ilist mlist = Ok p -> shape (ir_array p) = rev sdim /\ Z.of_nat (length (flat (ir_array p))) = prodZ sdim) as Hsh.
  { intros p Ep. destruct (ipf_ok fuel (NDA (rev sdim) sdata) ilist mlist Hdr Hap Hw Hb ltac:(cbn [shape]; rewrite prodZ_rev; auto) p Ep) as (f' & pop & _ & Hf & _ & _ & -> & _).
    cbn [shape flat]. split; auto. rewrite map_length, length_all_indices by (apply positive_nonneg; apply Hw). apply prodZ_rev. }
  revert Hsh. unfold py_ipf, py_ipf_gen. destruct (py_lists as_nd ilist mlist) as [[idx m]| | |]; try discriminate. cbn [bind] in *.
  rewrite (as_nd_ok d_zero) in * by auto. cbn [bind] in E |- *.
  destruct (micro_new DblMarg idx m) as [ms| | |]; try discriminate. cbn [bind] in *.
  destruct (ipf_solve _ _ fuel ms m _) as [st| | |]; try discriminate. cbn [bind] in *.
  destruct (r_copy (fun x => x) d_zero (prodZ sdim) (is_arr st)) as [r| | |] eqn:E1; try discriminate. cbn [bind] in E.
  destruct (r_copy_values _ _ _ _ _ E1) as (va & Va). unfold from_nd. rewrite Va. cbn [bind]. intros Hsh. eexists. split; [reflexivity|].
  destruct (Hsh _ eq_refl) as [S1 S2]. cbn [ir_array] in S1, S2. split; auto. cbn [flat] in S2.
  rewrite (r_copy_ok _ _ _ _ va Va) in E1 by auto. injection E1 as <-. rewrite map_id in E. cbn [ir_array flat ir_conv ir_pop ir_iters ir_max]. now injection E as <-.
Qed.

Lemma marginD_rev rs dims k (f : list Z -> double) : (forall d, In d dims -> 1 <= d <= Z.of_nat (length rs)) ->
  marginD (rev rs) (map (fun d => Z.of_nat (length rs) - d) dims) k f = r_marginD rs (map (fun d => d - 1) dims) k (fun i => f (rev i)).
Proof.
  intros Hd. unfold marginD, r_marginD, r_indices. rewrite filter_map', map_map. f_equal.
  rewrite (map_ext (fun x => f (rev (rev x))) f) by (intros; now rewrite rev_involutive). f_equal. apply filter_ext_in. intros i Hi. apply in_all_indices in Hi.
  rewrite <- (proj_rev dims rs (rev i)); auto; [now rewrite rev_involutive|].
  rewrite rev_length. rewrite <- (rev_length rs). apply (index_in_length _ _ Hi).
Qed.

Lemma r_ipf_claim fuel sdim sdata indices marginals res : rg_range d_zero indices marginals -> r_seed sdim sdata -> r_proper (length sdim) indices ->
  prodZ sdim < Z.of_nat fuel -> r_ipf fuel sdim sdata indices marginals = Ok res ->
  let a := ri_result res in col_sizes a = sdim /\ wf_rarray a /\ (forall i, index_in sdim i -> d_ltb (r_entry d_zero a i) d_zero = false) /\
  forall c k, In c (rgcons_of d_zero indices marginals) -> index_in (g_sizes c) k ->
    let s := r_marginD sdim (g_dims c) k (r_entry d_zero a) in is_nan s = false ->
    d_leb (d_abs (d_sub s (g_at c k))) (ri_max res) = true /\ (ri_conv res = true -> d_ltb (d_abs (d_sub s (g_at c k))) d_1em8 = true).
Proof.
  intros Hr Hs Hpr Hfu E a. destruct (r_ipf_inv _ _ _ _ _ _ Hr Hs Hpr Hfu E) as (Hl & Hneg & Hap & p & Ep & Hsh & ->).
  destruct (seed_wf _ _ Hs) as [Hw Hb]. pose proof (np_d_range indices marginals (Z.of_nat (length sdim)) Hr Hl) as Hdr.
  assert (prodZ (shape (NDA (rev sdim) sdata)) < Z.of_nat fuel) as Hfu' by (cbn [shape]; rewrite prodZ_rev; auto).
  unfold a. cbn [ri_result ri_max ri_conv] in *. clear a. split; [reflexivity|].
  destruct (ipf_ok fuel (NDA (rev sdim) sdata) _ _ Hdr Hap Hw Hb Hfu' p Ep) as (f' & pop & Hacc & Hf & _ & _ & Earr & _). cbn [shape] in Earr.
  assert (forall i, index_in sdim i -> r_entry d_zero (RA (Some sdim) (flat (ir_array p))) i = entry d_zero (ir_array p) (rev i)) as He.
  { intros i Hi. rewrite r_entry_rev by auto. rewrite <- Hsh. now destruct (ir_array p). }
  split. { destruct Hs as [(H1 & H2 & H3) _]. cbn [col_sizes r_dim r_data] in *. split; [exact H1|]. split; [exact H2|]. cbn [r_data col_sizes r_dim].
    rewrite Earr. cbn [flat]. rewrite map_length, length_all_indices by (apply positive_nonneg; apply Hw). apply prodZ_rev. }
  split.
  { intros i Hi. rewrite He by auto. apply index_in_rev in Hi.
    destruct (ipf_nonneg_claim fuel _ _ _ Hdr Hap Hw Hb Hfu' p Ep) as [_ H]; [|apply H; auto].
    cbn [shape]. intros j Hj. destruct (d_ltb (entry d_zero (NDA (rev sdim) sdata) j) d_zero) eqn:El; auto. exfalso.
    unfold entry in El. cbn [flat shape] in El. destruct (nth_in_or_default (Z.to_nat (rowmajor (rev sdim) j)) sdata d_zero) as [Hin|E0].
    - assert (existsb (fun x => d_ltb x d_zero) sdata = true) by (apply existsb_exists; eauto). congruence.
    - rewrite E0 in El. vm_compute in El. discriminate. }
  intros c k Hc Hk. set (s := r_marginD sdim _ k _). intros Hnan. unfold rgcons_of, rgcons_from in Hc. apply in_map_iff in Hc as ([iv m] & <- & Hin). cbn [g_sizes g_at g_dims fst snd] in *.
  assert (In (gcon_of d_zero (np_iv (Z.of_nat (length sdim)) iv) (np_m d_zero m)) (dcons_of (np_il (Z.of_nat (length sdim)) indices) (np_ml d_zero marginals))) as Hc'.
  { unfold dcons_of, gcons_of. rewrite np_combine, map_map by auto. apply in_map_iff. exists (iv, m). split; auto. now apply -> in_rev. }
  assert (implied (map outline (dcons_of (np_il (Z.of_nat (length sdim)) indices) (np_ml d_zero marginals))) (rev sdim)) as Himp by apply Hacc.
  assert (forall d, In d iv -> 1 <= d <= Z.of_nat (length sdim)) as Hd.
  { intros d Hd. assert (0 <= Z.of_nat (length sdim) - d < Z.of_nat (length (rev sdim))) as H; [|rewrite rev_length in H; lia].
    apply (proj1 Himp). exists (outline (gcon_of d_zero (np_iv (Z.of_nat (length sdim)) iv) (np_m d_zero m))). split; [now apply in_map|].
    cbn. apply in_map_iff. eauto. }
  pose proof (ipf_conv_claim fuel _ _ _ Hdr Hap Hw Hb Hfu' p Ep _ k Hc' Hk) as H. cbv zeta in H. cbn [g_sizes g_at g_dims gcon_of np_iv np_m flat shape] in H.
  rewrite marginD_rev in H by auto. unfold np_m in H. rewrite entry_NDA_map in H by auto.
  assert (s = r_marginD sdim (map (fun d => d - 1) iv) k (fun i => entry d_zero (ir_array p) (rev i))) as Es.
  { unfold s, r_marginD. f_equal. apply map_ext_in. intros i Hi. apply filter_In in Hi as [Hi _]. apply He. unfold r_indices in Hi.
    apply in_map_iff in Hi as (j & <- & Hj). apply in_all_indices in Hj. apply index_in_rev in Hj. now rewrite rev_involutive in Hj. }
  rewrite Es in *. auto.
Qed.

(** * integerise *)

Lemma r_integerise_claim L fuel pdim pdata : nd_range (NDA (rev pdim) pdata) ->
  r_integerise L fuel pdim pdata =
  (let* '(b, conv, rmse) := py_integerise L fuel (NDA (rev pdim) pdata) in Ok (RA (Some pdim) (map s32 (flat b)), conv, rmse)).
Proof.
  intros Hr. unfold r_integerise. pose proof (fun b c r => nd_conv_claim L fuel (NDA (rev pdim) pdata) b c r Hr) as H. revert H. unfold py_integerise.
  destruct (as_nd _) as [s| | |]; cbn [bind]; auto. destruct (integeriser_new L fuel s) as [g| | |]; cbn [bind]; auto. intros H.
  unfold from_nd in *. destruct (nd_values_cases (in_result g)) as [(v & E)|(w & E)]; rewrite E in *; cbn [bind] in *.
  - destruct (H _ _ _ eq_refl) as (Hsh & (_ & _ & Hl) & _). cbn [shape flat] in Hsh, Hl.
    rewrite (r_copy_ok _ _ _ _ v E); [reflexivity|]. rewrite Hl, Hsh. apply prodZ_rev.
  - unfold r_copy. now rewrite E.
Qed.

(** qisi returns or raises if the seed has no more dimensions than the constraints imply *)
Lemma r_qisi_safe_claim L fuel sdim sdata indices marginals skips impl : r_range indices marginals -> r_seed sdim sdata -> r_proper (length sdim) indices ->
  length indices = length marginals -> implied (rcons_of indices marginals) impl -> (length sdim <= length impl)%nat ->
  prodZ sdim < Z.of_nat fuel -> u32 skips <= 2 ^ 31 -> (32 <= fuel)%nat ->
  (exists res, r_qisi L fuel sdim sdata indices marginals skips = Ok res) \/ (exists e, r_qisi L fuel sdim sdata indices marginals skips = Throw e).
Proof.
  intros Hr Hs Hpr Hl Hi Hlen Hfu Hu Hf. pose proof (implied_dimension 0 _ _ _ Hl (proj2 (implied_con _ _ _ _) Hi)) as Eg.
  unfold r_qisi. rewrite Hl, Nat.eqb_refl, Eg. cbn [negb bind].
  destruct (check_seed_tri sdim sdata impl Hlen) as [->|(e & ->)]; cbn [bind]; [|eauto].
  pose proof (np_qisi_range _ _ _ _ Hr Hl Hs) as Hq. set (ilist := np_il _ _) in *. set (mlist := np_ml 0 marginals) in *.
  assert (qisi_good fuel ilist mlist (NDA (rev sdim) sdata)) as Hg.
  { split; cbn [shape]; [|now rewrite prodZ_rev]. intros c Hc. unfold cons_of, ilist, mlist in Hc. rewrite np_combine in Hc by auto.
    rewrite map_map in Hc. apply in_map_iff in Hc as ([iv m] & <- & Hc). apply in_rev, in_combine_l in Hc.
    unfold r_proper in Hpr. rewrite Forall_forall in Hpr. destruct (Hpr iv Hc) as [Hnd Hll]. cbn. split; [|rewrite map_length, rev_length; lia].
    apply FinFun.Injective_map_NoDup; auto. intros a b H. lia. }
  pose proof (qisi_safe_claim L fuel _ _ _ skips Hq Hg Hu Hf) as H. pose proof (qisi_cases L fuel _ _ _ skips Hq) as Hc. cbv zeta in Hc. cbn [shape] in Hc. revert H Hc.
  rewrite (r_args_py 0 to_nd) by (auto using to_nd_ok; eapply r_range_ok; eauto). fold ilist mlist.
  unfold py_qisi. destruct (py_lists to_nd ilist mlist) as [[idx m]| | |]; cbn [bind]; try (intros [[? E]|[? E]]; try discriminate E; injection E as ->; eauto; fail).
  destruct (seed_wf _ _ Hs) as [Hw Hb]. rewrite (as_nd_ok d_zero) by auto. cbn [bind].
  destruct (qisi_new fuel idx m skips) as [q| | |]; cbn [bind]; try (intros [[? E]|[? E]]; try discriminate E; injection E as ->; eauto; fail).
  destruct (qisi_solve L fuel q m _) as [[[st ex] [[c p] g]]| | |]; cbn [bind]; try (intros [[? E]|[? E]]; try discriminate E; injection E as ->; eauto; fail).
  unfold from_nd. destruct (nd_values_cases (i_arr st)) as [(va & Va)|(w & Va)]; rewrite Va; cbn [bind].
  2:{ intros [[? E]|[? E]]; destruct (nd_values_cases ex) as [(ve & Ve)|(w' & Ve)]; rewrite Ve in E; discriminate E. }
  destruct (nd_values_cases ex) as [(ve & Ve)|(w & Ve)]; rewrite Ve; cbn [bind]; [|intros [[? E]|[? E]]; discriminate E].
  cbn [qr_pop_array qr_expectation qr_conv qr_pop]. intros _ (_ & _ & Hfit & _ & _ & _ & rr & _ & _ & G1 & exx & G2 & _).
  pose proof (length_all_indices _ (positive_nonneg _ (fits_pos _ Hfit))) as Hlen'. rewrite prodZ_rev in Hlen'. left.
  rewrite (r_copy_ok _ _ _ _ va Va) by (injection G1 as _ ->; now rewrite map_length).
  rewrite (r_copy_ok _ _ _ _ ve Ve) by (injection G2 as _ ->; now rewrite map_length). cbn [bind]. eauto.
Qed.
