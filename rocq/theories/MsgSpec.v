(** What the messages of the Microsynthesis constructor say: decimal numbers and vectors as text, and the offences. *)
From Coq Require Import DecimalString.
From Verif Require Import Base Spec SynthSpec.
Local Open Scope string_scope.

(** decimal text of a number and of a vector *)
Definition dec (n : Z) : string := NilZero.string_of_int (Z.to_int n).
Definition ndec (n : nat) : string := dec (Z.of_nat n).
Fixpoint commas (l : list Z) : string :=
  match l with [] => "" | [x] => dec x | x :: l' => dec x ++ ", " ++ commas l' end.
Definition brackets (l : list Z) : string := "[" ++ commas l ++ "]".

(** sums of the marginal of [c] along its axis [j] *)
Definition sums_along (c : con) (j : nat) : list Z := map (c_partial c (Z.of_nat j)) (zrange (nth j (c_sizes c) 0%Z)).

(** the axes (marginal number, axis number) that refer to dimension [d], in order *)
Definition axes (cs : list con) (d : Z) : list (nat * nat) :=
  flat_map (fun k => map (pair k) (filter (fun j => match nth_error (c_dims (nth k cs (CON [] [] (fun _ => 0%Z)))) j with
                                                   | Some d' => (d' =? d)%Z | None => false end)
                                         (seq 0 (length (c_dims (nth k cs (CON [] [] (fun _ => 0%Z)))))))) (seq 0 (length cs)).

(** what is wrong with the constraints [cs], and how the message says it *)
Inductive offence (cs : list con) : string -> Prop :=
| off_few : (length cs < 2)%nat ->
    offence cs ("index list size " ++ ndec (length cs) ++ " too small or differs from marginal size " ++ ndec (length cs))
| off_axes k c : nth_error cs k = Some c -> length (c_dims c) <> length (c_sizes c) ->
    offence cs ("index/marginal dimension mismatch " ++ ndec (length (c_dims c)) ++ " vs " ++ ndec (length (c_sizes c)))
| off_size k c j k' c' j' d n n' : nth_error cs k = Some c -> nth_error (c_dims c) j = Some d -> nth_error (c_sizes c) j = Some n' ->
    nth_error cs k' = Some c' -> nth_error (c_dims c') j' = Some d -> nth_error (c_sizes c') j' = Some n ->
    (k' < k \/ k' = k /\ j' < j)%nat -> n <> n' ->
    offence cs ("mismatch at index " ++ ndec k ++ ": dimension " ++ dec d ++ " size " ++ dec n ++ " redefined to " ++ dec n')
| off_one : (forall c c' d d', In c cs -> In c' cs -> In d (c_dims c) -> In d' (c_dims c') -> d = d') ->
    offence cs "problem needs to have more than 1 dimension!"
| off_negative k c v : nth_error cs k = Some c -> (v < 0)%Z -> (exists i, index_in (c_sizes c) i /\ c_at c i = v) ->
    (forall i, index_in (c_sizes c) i -> (v <= c_at c i)%Z) -> (forall c', In c' (firstn k cs) -> nonneg c') ->
    offence cs ("negative value in marginal " ++ ndec k ++ ": " ++ dec v)
| off_undefined d : (forall c, In c cs -> ~ In (Z.of_nat d) (c_dims c)) ->
    (forall d', (0 <= d' < Z.of_nat d)%Z -> exists c, In c cs /\ In d' (c_dims c)) ->
    (exists c e, In c cs /\ In e (c_dims c) /\ (e < 0 \/ Z.of_nat d < e)%Z) ->
    offence cs ("dimension " ++ ndec d ++ " size not defined")
| off_total k c c0 : nth_error cs 0 = Some c0 -> nth_error cs k = Some c -> c_total c <> c_total c0 ->
    (forall c', In c' (firstn k cs) -> c_total c' = c_total c0) ->
    offence cs ("marginal sum mismatch at index " ++ ndec k ++ ": " ++ dec (c_total c) ++ " vs " ++ dec (c_total c0))
| off_partial d i k j k0 j0 c c0 : nth_error (axes cs (Z.of_nat d)) 0 = Some (k0, j0) -> nth_error (axes cs (Z.of_nat d)) i = Some (k, j) ->
    nth_error cs k = Some c -> nth_error cs k0 = Some c0 -> sums_along c j <> sums_along c0 j0 ->
    offence cs ("marginal partial sum mismatch in dimension " ++ ndec d ++ " index " ++ ndec i ++ ": "
                ++ brackets (sums_along c j) ++ " vs " ++ brackets (sums_along c0 j0)).

(** two outcomes differ at most in the text of a runtime_error *)
Definition same_but_text {A} (x y : outcome A) : Prop :=
  match x, y with
  | Throw (RuntimeError _), Throw (RuntimeError _) => True
  | _, _ => x = y
  end.
