(** Model of src/Microsynthesis.h: the class Microsynthesis<T, M>. *)
From Verif Require Import Base Spec NDArray Float64 ArrayOps.

(** What the class needs of the marginals' element type M: its arithmetic, and the conversion
    static_cast<int64_t>(sum + 0.5) of src/Microsynthesis.h:214, 217. *)
Record MargOps (M : Type) : Type := { mg_num : NumOps M; mg_pop : M -> outcome Z }.
Arguments mg_num {M}. Arguments mg_pop {M}.

(** M = int64_t: the sum is converted to double before 0.5 is added *)
Definition IntMarg : MargOps Z :=
  {| mg_num := IntOps; mg_pop := fun s => d_to_i64 (d_add (d_ofZ s) d_half) |}.
(** M = double *)
Definition DblMarg : MargOps double :=
  {| mg_num := DblOps; mg_pop := fun s => d_to_i64 (d_add s d_half) |}.

(** std::map<int64_t, int64_t>::find; the map is an association list with distinct keys *)
Fixpoint map_find (m : list (Z * Z)) (k : Z) : option Z :=
  match m with
  | [] => None
  | (k', v) :: m' => if k' =? k then Some v else map_find m' k
  end.

(** src/Microsynthesis.h:45-52 (the text of the message is abbreviated, as in all messages of this file) *)
Definition add_dim (e : Z * Z) (m : list (Z * Z)) : outcome (list (Z * Z)) :=
  let '(d, n) := e in
  match map_find m d with
  | None => Ok ((d, n) :: m)
  | Some n' => if n' =? n then Ok m else Throw (RuntimeError "dimension size redefined")
  end.

(** src/Microsynthesis.h:38-54 *)
Definition collect_sizes {M} (indices : list (list Z)) (margs : list (nd M)) : outcome (list (Z * Z)) :=
  foldM (fun '(ix, a) m =>
           if negb (Nat.eqb (length ix) (length (nd_sizes a)))
           then Throw (RuntimeError "index/marginal dimension mismatch")
           else foldM add_dim (combine ix (nd_sizes a)) m)
        (combine indices margs) [].

(** src/Microsynthesis.h:240-248; the marginals are held by reference and passed separately, m_dim is
    [length ms_sizes], m_dim_lookup is only used inside the constructor *)
Record micro (T : Type) : Type := MS {
  ms_sizes : list Z;
  ms_indices : list (list Z);
  ms_pop : Z;
  ms_array : nd T
}.
Arguments MS {T}. Arguments ms_sizes {T}. Arguments ms_indices {T}. Arguments ms_pop {T}. Arguments ms_array {T}.

(** src/Microsynthesis.h:205-209 m_dim_lookup *)
Definition dim_lookup (dim : nat) (indices : list (list Z)) : outcome (list (list (Z * Z))) :=
  foldM (fun '(k, ix) lk =>
           foldM (fun '(i, d) lk => let* l := vec_get lk d in vec_set lk d (l ++ [(k, i)])) (numbered 0 ix) lk)
        (numbered 0 indices) (repeat [] dim).

Section Micro.
Context {M : Type} (MO : MargOps M).

(** src/Microsynthesis.h:202-238 createMappings; returns m_population *)
Definition create_mappings (dim : nat) (indices : list (list Z)) (margs : list (nd M)) : outcome Z :=
  let* lk := dim_lookup dim indices in
  let* m0 := vec_get margs 0 in
  let* s0 := nd_sum (mg_num MO) m0 in
  let* pop := mg_pop MO s0 in
  let* _sums := foldM (fun a (_ : unit) =>
      let* s := nd_sum (mg_num MO) a in
      let* p := mg_pop MO s in
      if p =? pop then Ok tt else Throw (RuntimeError "marginal sum mismatch")) (tl margs) tt in
  let* _parts := foldM (fun mi (_ : unit) =>
      match mi with
      | (k0, i0) :: ((_ :: _) as rest) =>
          let* a0 := vec_get margs k0 in
          let* ms0 := reduce1 (mg_num MO) a0 i0 in
          foldM (fun '(k, i) (_ : unit) =>
                   let* a := vec_get margs k in
                   let* msi := reduce1 (mg_num MO) a i in
                   if allclose (mg_num MO) msi ms0 then Ok tt
                   else Throw (RuntimeError "marginal partial sum mismatch")) rest tt
      | _ => Ok tt
      end) lk tt in
  Ok pop.

(** src/Microsynthesis.h:30-111 the constructor *)
Definition micro_new {T} (indices : list (list Z)) (margs : list (nd M)) : outcome (micro T) :=
  if negb (Nat.eqb (length indices) (length margs)) || Nat.ltb (length indices) 2
  then Throw (RuntimeError "index list size too small or differs from marginal size")
  else
    let* m := collect_sizes indices margs in
    if Nat.ltb (length m) 2 then Throw (RuntimeError "problem needs to have more than 1 dimension!")
    else
      let* _neg := foldM (fun a (_ : unit) =>
          let* v := nd_min (mg_num MO) a in
          if n_ltb (mg_num MO) v (n_zero (mg_num MO)) then Throw (RuntimeError "negative value in marginal")
          else Ok tt) margs tt in
      let* sizes := mapM (fun k => match map_find m k with
                                   | Some n => Ok n
                                   | None => Throw (RuntimeError "dimension size not defined")
                                   end) (zrange (Z.of_nat (length m))) in
      let* pop := create_mappings (length m) indices margs in
      let* arr := nd_new sizes in
      Ok (MS sizes indices pop arr).

(** src/Microsynthesis.h:122-131 makeMarginalMappings *)
Definition make_mappings (indices : list (list Z)) (ix : index) : outcome (list mindex) :=
  mapM (mindex_new ix) indices.

(** src/Microsynthesis.h:136-148 invert: reserve() throws when max - excluded.size() wraps around *)
Definition invert (max : Z) (excluded : list Z) : outcome (list Z) :=
  if max <? Z.of_nat (length excluded) then Throw LengthError
  else Ok (filter (fun i => negb (existsb (Z.eqb i) excluded)) (zrange max)).

(** The arithmetic of the array's element type T: double in the code, also instantiated with exact rationals.
    [s_scale a m r] is a *= m / r; [s_diff a m] is a - m. *)
Record ScaleOps (T : Type) : Type := {
  sc_num : NumOps T;
  sc_scale : T -> M -> T -> T;
  sc_diff : T -> M -> T
}.
Arguments sc_num {T}. Arguments sc_scale {T}. Arguments sc_diff {T}.

Context {T : Type} (SO : ScaleOps T).

(** a MappedIndex loop whose body may itself move the main index: for (; !m.end(); ++m) body.  [fuel] bounds the
    tests of the loop condition. *)
Fixpoint mindex_loop_m {S} (fuel : nat) (body : list Z -> S -> outcome (list Z * S)) (m : mindex) (main : list Z) (s : S)
  : outcome (list Z * S) :=
  match fuel with
  | O => Diverge
  | S f =>
      if mi_end m then Ok (main, s)
      else let* '(main1, s1) := body main s in
           let* '(m', main') := mindex_next m main1 in
           mindex_loop_m f body m' main' s1
  end.

(** src/Microsynthesis.h:189-194 (the branch compiled with NDEBUG): [idx] is the dereferenced mapped index *)
Definition rscale_cell (r : nd T) (m : nd M) (ix : list Z) (mainv : list Z) (arr : nd T) : outcome (nd T) :=
  let* idx := mapM (vec_get mainv) ix in
  let* rv := nd_get r idx in
  if negb (n_eqb (sc_num SO) rv (n_zero (sc_num SO))) then
    let* mv := nd_get m idx in
    let* av := nd_get arr mainv in
    nd_set arr mainv (sc_scale SO av mv rv)
  else nd_set arr mainv (n_zero (sc_num SO)).

(** src/Microsynthesis.h:174-196 the body of rScale's loop over the marginals *)
Definition rscale_step (fuel : nat) (ix : list Z) (m : nd M) (arr : nd T) : outcome (nd T) :=
  let* r := reduce (sc_num SO) arr ix in
  let* main := index_new (nd_sizes arr) in
  let* inv := invert (Z.of_nat (length (nd_sizes arr))) ix in
  let* oi := mindex_new main inv in
  let* '(_, arr') :=
    mindex_loop_m fuel
      (fun mainv arr =>
         let* ii := mindex_new (IX mainv (nd_sizes arr) false) ix in
         mindex_loop fuel (rscale_cell r m ix) ii mainv arr)
      oi (ix_idx main) arr in
  Ok arr'.

(** src/Microsynthesis.h:170-200 rScale *)
Definition rscale (fuel : nat) (indices : list (list Z)) (margs : list (nd M)) (arr : nd T) : outcome (nd T) :=
  foldM (fun '(k, ix) arr => let* m := vec_get margs k in rscale_step fuel ix m arr) (numbered 0 indices) arr.

(** src/NDArrayUtils.h:15-23 diff, with the subtraction of sc_diff *)
Definition sdiff (x : nd T) (y : nd M) (d : nd T) : outcome (nd T) :=
  index_loop (nd_sizes x)
    (fun i d => let* a := nd_get x i in let* b := nd_get y i in nd_set d i (sc_diff SO a b)) d.

(** src/Microsynthesis.h:161-166 rDiff *)
Definition rdiff (indices : list (list Z)) (margs : list (nd M)) (arr : nd T) (diffs : list (nd T)) : outcome (list (nd T)) :=
  foldM (fun '(k, ix) diffs =>
           let* r := reduce (sc_num SO) arr ix in
           let* m := vec_get margs k in
           let* d := vec_get diffs k in
           let* d' := sdiff r m d in
           vec_set diffs k d') (numbered 0 indices) diffs.

End Micro.

Arguments ScaleOps : clear implicits.
Arguments sc_num {M T}. Arguments sc_scale {M T}. Arguments sc_diff {M T}.

(** T = double; [cv] converts a marginal's element to double (int64_t or double) *)
Definition DblScale {M} (cv : M -> double) : ScaleOps M double := {|
  sc_num := DblOps;
  sc_scale := fun a m r => d_mul a (d_div (cv m) r);
  sc_diff := fun a m => d_sub a (cv m)
|}.
