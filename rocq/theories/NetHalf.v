(** One point of every aligned block of 2^d in each of the 2^d half-boxes of the first d <= 32 coordinates. *)
From Verif Require Import Base SpecFacts SobolTable Sobol SobolSpec SobolTableProofs SobolProofs SobolClaims NetLin NetPoly NetSpec NetProofs.
Open Scope N_scope.
#[local] Arguments N.pow : simpl never.

Definition dir32 : list (list N) := match init_m 32 with Ok c => c | _ => [] end.

(** for every d, numbers whose leading bits in the first d coordinates are the unit vectors (found by elimination,
    checked below) *)
Definition units : list (list N) :=
  [[1];
   [2; 3];
   [6; 3; 4];
   [6; 11; 4; 8];
   [6; 31; 16; 28; 20];
   [62; 31; 16; 36; 44; 56];
   [62; 67; 76; 36; 44; 100; 92];
   [62; 67; 164; 36; 196; 140; 92; 232];
   [62; 499; 164; 404; 372; 316; 492; 232; 432];
   [62; 731; 164; 404; 604; 532; 492; 960; 664; 808];
   [1090; 1703; 1240; 404; 1568; 1640; 492; 960; 1764; 1876; 1148];
   [3294; 1703; 1240; 404; 3772; 3828; 2416; 2908; 3704; 1876; 3296; 2204];
   [6350; 1703; 4296; 5508; 6828; 6884; 2416; 2908; 3704; 4932; 6384; 2204; 5136];
   [6350; 1703; 15648; 14444; 6828; 14092; 9368; 9908; 3704; 16044; 6384; 2204; 14840; 11752];
   [6350; 1703; 16764; 14444; 26352; 19280; 9368; 23272; 3704; 17136; 6384; 2204; 17828; 20916; 31836];
   [42298; 1703; 64648; 14444; 56068; 63140; 9368; 23272; 45964; 65284; 6384; 46440; 63568; 20916; 49576; 48628];
   [86022; 127899; 68020; 14444; 77368; 66456; 119204; 23272; 45964; 65284; 126412; 46440; 68972; 20916; 49576; 84168; 128316];
   [167446; 127899; 68020; 14444; 77368; 66456; 119204; 23272; 45964; 65284; 144348; 46440; 68972; 20916; 49576; 169688; 128316; 253456];
   [167446; 399651; 68020; 512724; 443520; 452896; 119204; 503888; 481588; 65284; 383332; 483280; 68972; 20916; 49576; 359520; 128316; 253456; 518840];
   [167446; 724479; 793960; 512724; 774236; 452896; 119204; 697484; 675304; 912344; 383332; 483280; 68972; 20916; 49576; 551100; 844256; 253456; 720484; 857308];
   [167446; 724479; 1959456; 1452444; 1714964; 1512040; 119204; 1793988; 675304; 1839248; 383332; 1483928; 68972; 1157884; 1129184; 551100; 844256; 253456; 720484; 857308; 1178440];
   [167446; 724479; 2172228; 1452444; 1714964; 2871564; 119204; 2596000; 675304; 1839248; 383332; 1483928; 68972; 2976152; 3012996; 551100; 3154564; 253456; 3554560; 857308; 1178440; 3982180];
   [6797666; 724479; 2172228; 7544552; 8330336; 5170808; 6612688; 2596000; 675304; 7940068; 6352400; 1483928; 6568472; 2976152; 4771568; 7167944; 3154564; 253456; 3554560; 6824872; 1178440; 3982180; 6633332];
   [12899670; 11035083; 8538480; 13660892; 8330336; 5170808; 13077220; 2596000; 675304; 7940068; 6352400; 1483928; 6568472; 2976152; 4771568; 13513724; 9653936; 10531364; 3554560; 6824872; 1178440; 3982180; 12999488; 10710068];
   [28348882; 11035083; 32902644; 13660892; 17520868; 5170808; 28560992; 2596000; 675304; 7940068; 6352400; 1483928; 17858204; 22621468; 20744820; 13513724; 31918644; 10531364; 21133700; 6824872; 23445452; 3982180; 12999488; 30877872; 24396932];
   [28348882; 37596911; 56869584; 13660892; 60725184; 47917404; 28560992; 45241220; 675304; 7940068; 6352400; 1483928; 17858204; 22621468; 20744820; 39582936; 57853200; 37059840; 21133700; 6824872; 66089192; 44633152; 12999488; 30877872; 65112992; 43372324];
   [71051482; 37596911; 116358104; 89967572; 101854920; 123179092; 28560992; 121563788; 675304; 99983084; 99374872; 1483928; 77383572; 22621468; 20744820; 131548624; 117341208; 129614856; 21133700; 6824872; 108841440; 44633152; 12999488; 73109944; 107819688; 43372324; 93108488];
   [176456058; 210044751; 116358104; 199516788; 101854920; 166672884; 28560992; 121563788; 246604872; 189609804; 99374872; 1483928; 170159668; 22621468; 260318164; 131548624; 138859960; 151088552; 268095524; 248547848; 147087424; 44633152; 243200736; 73109944; 107819688; 204301956; 93108488; 246983072];
   [176456058; 510642827; 116358104; 420392880; 101854920; 453375024; 324600740; 121563788; 475539852; 189609804; 386308828; 318531932; 170159668; 22621468; 493809168; 131548624; 447486076; 151088552; 487595488; 248547848; 147087424; 44633152; 243200736; 380722300; 107819688; 516401984; 392590540; 246983072; 317377988];
   [176456058; 510642827; 116358104; 420392880; 844427464; 792930864; 324600740; 863515788; 673118092; 1057745228; 591414492; 649770844; 1046655028; 891286300; 690499600; 131548624; 447486076; 1028109224; 693552096; 248547848; 147087424; 921686592; 243200736; 380722300; 107819688; 516401984; 589343436; 989755296; 317377988; 877059584];
   [176456058; 1540218387; 116358104; 420392880; 2012669008; 1793146536; 324600740; 1994006548; 1841095444; 1057745228; 1726107716; 1662559172; 1046655028; 1891493764; 690499600; 131548624; 447486076; 1028109224; 1827985272; 1265802896; 1298560216; 1934477016; 243200736; 1393772772; 107819688; 1533394904; 1719844436; 2136761144; 1464392028; 877059584; 1168250008];
   [2285371354; 1540218387; 116358104; 2612908304; 4114979568; 3897704456; 324600740; 1994006548; 4010778036; 3182991340; 1726107716; 3786136932; 1046655028; 1891493764; 2879082160; 2237938544; 2552194780; 1028109224; 3997673944; 1265802896; 3486845560; 1934477016; 243200736; 1393772772; 107819688; 3654730104; 1719844436; 2136761144; 1464392028; 877059584; 1168250008; 2192801440]].

Definition unit_b (d : nat) (rs : list N) : bool :=
  forallb (fun j => (nth j rs 0 <? 2 ^ N.of_nat d) &&
    forallb (fun i => Bool.eqb (phi (nth i dir32 []) 0 (nth j rs 0)) (Nat.eqb i j)) (seq 0 d)) (seq 0 d).
Definition units_b : bool := forallb (fun d => unit_b (S d) (nth d units [])) (seq 0 32).
Lemma units_ok : units_b = true. Proof. vm_compute. reflexivity. Qed.

Lemma unit_ok d j : (0 < d <= 32)%nat -> (j < d)%nat ->
  exists r, r < 2 ^ N.of_nat d /\ forall i, (i < d)%nat -> phi (nth i dir32 []) 0 r = Nat.eqb i j.
Proof.
  intros Hd Hj. pose proof units_ok as U. unfold units_b in U. rewrite forallb_forall in U.
  specialize (U (d - 1)%nat ltac:(apply in_seq; lia)). replace (S (d - 1)) with d in U by lia. unfold unit_b in U.
  rewrite forallb_forall in U. specialize (U j ltac:(apply in_seq; lia)). rewrite andb_true_iff, N.ltb_lt, forallb_forall in U.
  destruct U as [U1 U2]. exists (nth j (nth (d - 1) units []) 0). split; auto. intros i Hi.
  apply eqb_prop, U2, in_seq. lia.
Qed.

Lemma dir32_ok i m : (i < 32)%nat -> is_directions i m -> m = nth i dir32 [].
Proof.
  intros Hi Hm. destruct (init_m_ok 32 ltac:(lia)) as (cols & E & [Hl Ht] & _). unfold dir32. rewrite E.
  apply (is_directions_unique i); [|exact Hm|apply Ht; exact Hi]. clear -Hi. lia.
Qed.

Lemma conds_shape cols b : conds cols b = flat_map (fun '(i, k) => map (phi (nth i cols [])) (seq 0 (N.to_nat k))) (map (fun '(i, k, _) => (i, k)) b).
Proof. unfold conds. induction b as [|[[i k] v] b IH]; auto. cbn [flat_map map]. now rewrite IH. Qed.

Lemma conds_halves cols d b : halves d b -> conds cols b = map (fun i => phi (nth i cols []) 0) (seq 0 d).
Proof.
  intros H. rewrite conds_shape, H. generalize (seq 0 d). induction l as [|i l IH]; auto. cbn [map flat_map]. now rewrite IH.
Qed.

Lemma dot_unit cs s j : (s <= j)%nat -> dot cs (map (fun i => Nat.eqb i j) (seq s (length cs))) = nth (j - s) cs false.
Proof.
  revert s. induction cs as [|c cs IH]; intros s Hj; [now destruct (j - s)%nat|]. cbn [length seq map dot].
  destruct (Nat.eqb_spec s j) as [->|Hn].
  - rewrite Nat.sub_diag, andb_true_r. cbn [nth].
    assert (forall s', (j < s')%nat -> dot cs (map (fun i => Nat.eqb i j) (seq s' (length cs))) = false) as Hz; [|rewrite Hz by lia; apply xorb_false_r].
    clear. induction cs as [|c cs IH]; intros s' Hs; auto. cbn [length seq map dot]. rewrite IH by lia.
    destruct (Nat.eqb_spec s' j); [lia|]. now rewrite andb_false_r.
  - rewrite andb_false_r, xorb_false_l, IH by lia. replace (j - s)%nat with (S (j - S s)) by lia. reflexivity.
Qed.

Lemma half_claim dim d t b : 1 <= dim <= 1111 -> (0 < d <= 32)%nat -> is_box dim b -> halves d b ->
  (t + 1) * 2 ^ N.of_nat d <= 2 ^ 32 -> block_count dim (N.of_nat d) t b 1.
Proof.
  intros Hdim Hd [Hnd Hg] Hh Ht. destruct (init_m_ok dim Hdim) as (cols & _ & Htab & Hval).
  assert (bits b = N.of_nat d) as Hb.
  { transitivity (fold_right (fun '(_, k) s => k + s) 0 (map (fun '(i, k, _) => (i, k)) b : list (nat * N))).
    - clear. induction b as [|[[i k] v] b IH]; auto. cbn [bits map fold_right]. now rewrite <- IH.
    - rewrite Hh. rewrite <- (seq_length d 0) at 2. generalize (seq 0 d). induction l as [|x l IH]; auto. cbn [map fold_right length]. rewrite IH. lia. }
  destruct (net_count dim cols Hdim Htab Hval (N.of_nat d) t b Hnd Hg) as [H _]; auto; [|lia|].
  2: { now rewrite Hb, N.sub_diag in H. }
  rewrite (conds_halves cols d b Hh). intros cs Hl Hz c Hc. rewrite map_length, seq_length in Hl.
  destruct (In_nth _ _ false Hc) as (j & Hj & <-). destruct (unit_ok d j Hd ltac:(lia)) as (r & Hr & Hu).
  specialize (Hz r Hr). rewrite <- (Nat.sub_0_r j), <- dot_unit by lia. rewrite <- Hz. f_equal. unfold vals. rewrite map_map, Hl.
  apply map_ext_in. intros i Hi. apply in_seq in Hi. rewrite <- Hu by lia. f_equal. symmetry. apply dir32_ok; [lia|].
  apply Htab. assert (In (i, 1) (map (fun '(i, k, _) => (i, k)) b)) as Hin.
  { rewrite Hh. apply in_map_iff. exists i. split; auto. apply in_seq. lia. }
  apply in_map_iff in Hin. destruct Hin as ([[i' k] v] & [= -> ->] & Hin). apply Hg in Hin. apply Hin.
Qed.

(** two points of the first 2^14 in one quarter-box of seven coordinates *)
Lemma quarters_box : is_box 7 quarters7 /\ bits quarters7 = 14.
Proof.
  split; [|reflexivity]. split.
  - change (NoDup (seq 0 7)). apply seq_NoDup.
  - intros i k v H. unfold quarters7 in H. apply in_map_iff in H. destruct H as (j & [= <- <- <-] & Hj). apply in_seq in Hj.
    change (2 ^ 2) with 4. lia.
Qed.
Lemma box_b_ok p n : nth_draw 7 n = Ok p -> forallb (fun i => nth i p 0 <? 2 ^ 30) (seq 0 7) = true -> in_box p quarters7.
Proof.
  intros _ H i k v Hin. unfold quarters7 in Hin. apply in_map_iff in Hin. destruct Hin as (j & [= <- <- <-] & Hj).
  rewrite forallb_forall in H. specialize (H j Hj). apply N.ltb_lt in H. change (32 - 2) with 30. lia.
Qed.
Lemma two_in_quarter : exists p p', nth_draw 7 0 = Ok p /\ nth_draw 7 13376 = Ok p' /\ in_box p quarters7 /\ in_box p' quarters7.
Proof.
  set (q := [108265472; 979107840; 530841600; 941359104; 630456320; 790364160; 219938816]).
  assert (nth_draw 7 0 = Ok (repeat 0 7)) as E by (vm_compute; reflexivity).
  assert (nth_draw 7 13376 = Ok q) as E' by (vm_cast_no_check (@eq_refl (outcome (list N)) (Ok q))).
  exists (repeat 0 7), q. split; [exact E|]. split; [exact E'|].
  split; [apply (box_b_ok _ 0 E)|apply (box_b_ok _ 13376 E')]; vm_compute; reflexivity.
Qed.
Lemma quarters_claim : ~ block_count 7 14 0 quarters7 1.
Proof.
  intros (L & _ & Hl & HL). destruct two_in_quarter as (p & p' & E & E' & H & H').
  assert (In 0 L) as H0 by (apply (proj2 (HL 0)); split; [clear; change (2 ^ 14) with 16384; lia|exists p; split; assumption]).
  assert (In 13376 L) as H1 by (apply (proj2 (HL 13376)); split; [clear; change (2 ^ 14) with 16384; lia|exists p'; split; assumption]).
  destruct L as [|x [|y L]]; cbn in Hl; try lia. destruct H0 as [H0|[]], H1 as [H1|[]]. congruence.
Qed.
