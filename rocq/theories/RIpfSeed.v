(** R's ipf refuses seeds of the wrong shape. *)
From Flocq Require Import IEEE754.BinarySingleNaN.
From Verif Require Import Base Spec SpecFacts NDArray IndexProofs Float64 ArrayOps ArrayProofs Bind BindProofs Micro Ipf
  SynthSpec IpfSpec RSpec RArray RArrayProofs RApi MicroProofs MicroDbl IpfClaims IpfDbl RApiProofs RApiClaims.
Open Scope Z_scope.

Lemma r_ipf_short_seed_claim fuel sdim sdata indices marginals impl : rg_range d_zero indices marginals -> r_seed sdim sdata ->
  length indices = length marginals -> implied (map outline (rgcons_of d_zero indices marginals)) impl -> sdim <> impl -> (length sdim <= length impl)%nat ->
  (forall m, In m marginals -> exists p, d_to_i64 (d_add (fold_left d_add (map (r_entry d_zero m) (all_indices (col_sizes m))) d_zero) d_half) = Ok p) ->
  exists e, r_ipf fuel sdim sdata indices marginals = Throw e.
Proof.
  intros Hr Hs Hl Hi Hne Hlen Hsum. pose proof (implied_dimension d_zero _ _ _ Hl Hi) as Eg.
  unfold r_ipf. rewrite Hl, Nat.eqb_refl, Eg. cbn [negb bind].
  destruct (check_seed_tri sdim sdata impl Hlen) as [->|(e & ->)]; cbn [bind]; [|eauto].
  pose proof (np_d_range indices marginals (Z.of_nat (length sdim)) Hr Hl) as Hdr. destruct (seed_wf _ _ Hs) as [Hw Hb].
  assert (Forall r_ok marginals) as Hok by (destruct Hr as [Hm _]; eapply Forall_impl; [|exact Hm]; intros m (H1 & H2 & _); split; auto).
  rewrite (r_args_py d_zero as_nd) by (auto; intros; now apply as_nd_ok).
  destruct (py_lists_gen d_zero (np_il (Z.of_nat (length sdim)) indices) (np_ml d_zero marginals) Hdr) as [[_ ->]|[_ (e & ->)]]; cbn [bind]; [|eauto].
  rewrite (as_nd_ok d_zero) by auto. cbn [bind].
  pose proof (micro_new_tri DblMarg d_add (fun _ _ => eq_refl) dpop_cases (T := double) _ (range_gsmall d_zero _ _ Hdr) (proj2 Hdr)) as H.
  destruct (micro_new DblMarg _ _) as [ms|e|w|]; cbn [bind]; [|eauto| |easy].
  - destruct H as (sizes & pop & Hi' & _ & _ & _ & _ & _ & ->). unfold ipf_solve. cbn [ms_array]. rewrite sizes_mk, sizes_mkp. cbn [shape].
    destruct (check_seed_cases (rev sdim) sizes) as [[<- _]|[_ (e & ->)]]; cbn [bind]; [|eauto].
    exfalso. apply Hne. rewrite (get_dimension_rev d_zero _ _ _ _ _ Hl Eg Hi'). now rewrite rev_involutive.
  - exfalso. destruct H as (c & Hc & Hw'). unfold gcons_of in Hc. rewrite np_combine, map_map in Hc by auto.
    apply in_map_iff in Hc as ([iv m] & <- & Hin). apply in_rev, in_combine_r in Hin. destruct (Hsum m Hin) as (p & Ep).
    unfold gsum in Hw'. cbn [gcon_of g_at g_sizes np_m shape fst snd mg_pop DblMarg mg_num DblOps n_zero] in Hw'.
    rewrite (map_ext_in _ (r_entry d_zero m)) in Hw'; [congruence|]. intros i Hx. apply in_all_indices in Hx. unfold np_m. now rewrite entry_NDA_map.
Qed.

Lemma r_ipf_negative_seed_claim fuel sdim sdata indices marginals impl : length indices = length marginals ->
  implied (map outline (rgcons_of d_zero indices marginals)) impl -> (length sdim <= length impl)%nat -> Exists (fun x => d_ltb x d_zero = true) sdata ->
  exists e, r_ipf fuel sdim sdata indices marginals = Throw e.
Proof.
  intros Hl Hi Hlen Hn. pose proof (implied_dimension d_zero _ _ _ Hl Hi) as Eg.
  unfold r_ipf. rewrite Hl, Nat.eqb_refl, Eg. cbn [negb bind].
  destruct (check_seed_tri sdim sdata impl Hlen) as [E|(e & ->)]; cbn [bind]; [|eauto].
  apply check_seed_inv in E as [_ E]. exfalso. apply Exists_exists in Hn as (x & Hx & Hlt).
  assert (existsb (fun x => d_ltb x d_zero) sdata = true) by (apply existsb_exists; eauto). congruence.
Qed.
