(** Model of src/Log.h and of the messages of src/Microsynthesis.h, src/Sobol.cpp and the seed checks. *)
From Coq Require Import DecimalString.
From Verif Require Import Base Spec NDArray Float64 ArrayOps Micro.
Local Open Scope string_scope.
Open Scope Z_scope.

(** src/Log.h:9-13 to_string_impl(T v): std::to_string of an integer type, the decimal text (the library function is
    not modelled further) *)
Definition to_string_int (v : Z) : string := NilZero.string_of_int (Z.to_int v).

(** src/Log.h:36-49 to_string_impl(const std::vector<T>&); [ts] is the text of an element *)
Definition to_string_vec {T} (ts : T -> string) (v : list T) : string :=
  match v with
  | [] => "[]"
  | x :: v' => (fold_left (fun r y => r ++ (", " ++ ts y)) v' ("[" ++ ts x) ++ "]")%string
  end.

(** src/Log.h:52-61 operator%: str.find("%%"), str.replace(s, 2, value) *)
Definition percent (str value : string) : string :=
  match String.index 0 "%%" str with
  | Some s => (String.substring 0 s str ++ (value ++ String.substring (s + 2) (String.length str - (s + 2)) str))%string
  | None => str
  end.
Notation "s '%%' v" := (percent s v) (at level 40, left associativity, only parsing).

(** src/Microsynthesis.h:45-52 *)
Definition add_dim_msg (k : Z) (e : Z * Z) (m : list (Z * Z)) : outcome (list (Z * Z)) :=
  let '(d, n) := e in
  match map_find m d with
  | None => Ok ((d, n) :: m)
  | Some n' => if n' =? n then Ok m
               else Throw (RuntimeError ("mismatch at index %%: dimension %% size %% redefined to %%" %% to_string_int k %% to_string_int d
                                           %% to_string_int n' %% to_string_int n))
  end.

(** src/Microsynthesis.h:39-54 *)
Definition collect_sizes_msg {M} (indices : list (list Z)) (margs : list (nd M)) : outcome (list (Z * Z)) :=
  foldM (fun '(k, (ix, a)) m =>
           if negb (Nat.eqb (length ix) (length (nd_sizes a)))
           then Throw (RuntimeError ("index/marginal dimension mismatch %% vs %%" %% to_string_int (Z.of_nat (length ix))
                                       %% to_string_int (Z.of_nat (length (nd_sizes a)))))
           else foldM (add_dim_msg k) (combine ix (nd_sizes a)) m)
        (numbered 0 (combine indices margs)) [].

Section Msg.
Context {M : Type} (MO : MargOps M) (ts : M -> string).

(** src/Microsynthesis.h:202-238 createMappings *)
Definition create_mappings_msg (dim : nat) (indices : list (list Z)) (margs : list (nd M)) : outcome Z :=
  let* lk := dim_lookup dim indices in
  let* m0 := vec_get margs 0 in
  let* s0 := nd_sum (mg_num MO) m0 in
  let* pop := mg_pop MO s0 in
  let* _sums := foldM (fun '(i, a) (_ : unit) =>
      let* s := nd_sum (mg_num MO) a in
      let* p := mg_pop MO s in
      if p =? pop then Ok tt
      else Throw (RuntimeError ("marginal sum mismatch at index %%: %% vs %%" %% to_string_int i %% to_string_int p %% to_string_int pop)))
      (numbered 1 (tl margs)) tt in
  let* _parts := foldM (fun '(d, mi) (_ : unit) =>
      match mi with
      | (k0, i0) :: ((_ :: _) as rest) =>
          let* a0 := vec_get margs k0 in
          let* ms0 := reduce1 (mg_num MO) a0 i0 in
          foldM (fun '(n, (k, i)) (_ : unit) =>
                   let* a := vec_get margs k in
                   let* msi := reduce1 (mg_num MO) a i in
                   if allclose (mg_num MO) msi ms0 then Ok tt
                   else Throw (RuntimeError ("marginal partial sum mismatch in dimension %% index %%: %% vs %%" %% to_string_int d
                                               %% to_string_int n %% to_string_vec ts msi %% to_string_vec ts ms0))) (numbered 1 rest) tt
      | _ => Ok tt
      end) (numbered 0 lk) tt in
  Ok pop.

(** src/Microsynthesis.h:30-111 the constructor, with the text of its messages *)
Definition micro_new_msg {T} (indices : list (list Z)) (margs : list (nd M)) : outcome (micro T) :=
  if negb (Nat.eqb (length indices) (length margs)) || Nat.ltb (length indices) 2
  then Throw (RuntimeError ("index list size %% too small or differs from marginal size %%" %% to_string_int (Z.of_nat (length indices))
                              %% to_string_int (Z.of_nat (length margs))))
  else
    let* m := collect_sizes_msg indices margs in
    if Nat.ltb (length m) 2 then Throw (RuntimeError "problem needs to have more than 1 dimension!")
    else
      let* _neg := foldM (fun '(k, a) (_ : unit) =>
          let* v := nd_min (mg_num MO) a in
          if n_ltb (mg_num MO) v (n_zero (mg_num MO))
          then Throw (RuntimeError ("negative value in marginal %%: %%" %% to_string_int k %% ts v))
          else Ok tt) (numbered 0 margs) tt in
      let* sizes := mapM (fun k => match map_find m k with
                                   | Some n => Ok n
                                   | None => Throw (RuntimeError ("dimension %% size not defined" %% to_string_int k))
                                   end) (zrange (Z.of_nat (length m))) in
      let* pop := create_mappings_msg (length m) indices margs in
      let* arr := nd_new sizes in
      Ok (MS sizes indices pop arr).
End Msg.

(** src/Sobol.cpp:11-13 the range check of the constructor, with its text *)
Definition sobol_dim_msg (dim : Z) : outcome unit :=
  if (dim <? 1) || (1111 <? dim) then Throw (RangeError ("Dim %% is not in valid range [1,1111]" %% to_string_int dim)) else Ok tt.

(** src/IPF.h:39-46, src/QISI.cpp:79-86 the check of the seed's shape, with its text *)
Definition seed_msg (seed arr : list Z) : outcome unit :=
  if negb (Nat.eqb (length seed) (length arr))
  then Throw (RuntimeError ("seed dimensions %% is inconsistent with that implied by marginals (%%)"
                              %% to_string_int (Z.of_nat (length seed)) %% to_string_int (Z.of_nat (length arr))))
  else if forallb (fun p => fst p =? snd p) (combine seed arr) then Ok tt
  else Throw (RuntimeError ("seed dimensions %% are inconsistent with that implied by marginals (%%)"
                              %% to_string_vec to_string_int seed %% to_string_vec to_string_int arr)).
