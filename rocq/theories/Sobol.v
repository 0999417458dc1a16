(** Model of src/SobolImpl.cpp, src/SobolImpl.h, src/Sobol.cpp, src/Sobol.h and SobolGenerator of src/module.cpp.
    uint32_t values are [N] below 2^32.  malloc is assumed to succeed. *)
From Verif Require Import Base Float64 SobolTable.
Open Scope N_scope.

(** uint32_t arithmetic *)
Definition w32 (x : N) : N := x mod 2 ^ 32.
Definition sub32 (a b : N) : N := w32 (a + 2 ^ 32 - b).
Definition not32 (x : N) : N := N.lxor x (2 ^ 32 - 1).
(** a << n on uint32_t: a shift by 32 or more is undefined *)
Definition shl32 (a n : N) : outcome N :=
  if n <? 32 then Ok (w32 (N.shiftl a n)) else UB "shift count too large".
Definition getN {A} (l : list A) (i : N) : outcome A := vec_get l (Z.of_N i).

(** __builtin_ctz on a non-zero value *)
Fixpoint ctz_pos (p : positive) : N :=
  match p with xO q => N.succ (ctz_pos q) | _ => 0 end.

(** src/SobolImpl.cpp:67-78, the GNU branch; __builtin_ctz(0) is undefined *)
Definition rightzero32 (n : N) : outcome N :=
  match not32 n with
  | N0 => UB "__builtin_ctz(0)"
  | Npos p => Ok (ctz_pos p)
  end.

(** src/SobolImpl.cpp:72-76, the other branch *)
Definition decode : list N :=
  [0;1;2;26;23;3;15;27;24;21;19;4;12;16;28;6;31;25;22;14;20;18;11;5;30;13;17;10;29;9;8;7].
Definition rightzero32_portable (n : N) : outcome N :=
  let n1 := not32 n in
  let n2 := w32 (0x05f66a47 * N.land n1 (sub32 0 n1)) in
  getN decode (N.shiftr n2 27).

(** src/SobolImpl.h:15-23.  m is kept dimension-major: [nth i sd_m] lists m[0][i]..m[31][i]. *)
Record sobol_data : Type := SD {
  sd_sdim : N;
  sd_m : list (list N);
  sd_x : list N;
  sd_b : list N;
  sd_n : N
}.

(** the body of the loop src/SobolImpl.cpp:93-109 for one dimension: new x[i], new b[i], output *)
Definition gen_dim (c : N) (m : list N) (x b : N) : outcome (N * N * N) :=
  let* mc := getN m c in
  if c <=? b then
    let* s := shl32 mc (sub32 b c) in
    let x' := N.lxor x s in
    let* out := shl32 x' (sub32 31 b) in
    Ok (x', b, out)
  else
    let* s := shl32 x (sub32 c b) in
    let x' := N.lxor s mc in
    let* out := shl32 x' (sub32 31 c) in
    Ok (x', c, out).

Fixpoint gen_dims (c : N) (ms : list (list N)) (xs bs : list N) : outcome (list N * list N * list N) :=
  match ms, xs, bs with
  | m :: ms', x :: xs', b :: bs' =>
      let* '(x', b', o) := gen_dim c m x b in
      let* '(xs'', bs'', os) := gen_dims c ms' xs' bs' in
      Ok (x' :: xs'', b' :: bs'', o :: os)
  | _, _, _ => Ok ([], [], [])
  end.

(** src/SobolImpl.cpp:83-112; [out] is the caller's array, returned updated, with the int result as a boolean *)
Definition sobol_gen (sd : sobol_data) (out : list N) : outcome (sobol_data * list N * bool) :=
  if sd_n sd =? 2 ^ 32 - 1 then Ok (sd, out, false)
  else
    let* c := rightzero32 (sd_n sd) in
    let* '(xs, bs, os) := gen_dims c (sd_m sd) (sd_x sd) (sd_b sd) in
    Ok (SD (sd_sdim sd) (sd_m sd) xs bs (w32 (sd_n sd + 1)), os, true).

(** src/SobolImpl.cpp:152-156: the loop over k computing m[j][i]; [m] holds m[0..j-1][i] *)
Definition next_m (a d j : N) (m : list N) : outcome N :=
  let* m0 := getN m (sub32 j d) in
  let* '(_, mj) :=
    foldM (fun k '(a, mj) =>
             let* t := getN m (w32 (sub32 j d + k)) in
             let* s := shl32 (w32 (N.land a 1 * t)) (sub32 d k) in
             Ok (N.shiftr a 1, N.lxor mj s))
          (map N.of_nat (seq 0 (N.to_nat d))) (a, m0) in
  Ok mj.

(** src/SobolImpl.cpp:134-157: the column of direction numbers of dimension i >= 1.  The while loop counts the
    bits of a. The model appends to a list where the code writes m[j][i], so a read of an element not yet written
    is out of range. *)
Definition init_dim (i : N) : outcome (list N) :=
  let* a := getN sobol_a (sub32 i 1) in
  let d := sub32 (N.size a) 1 in
  let* m := foldM (fun j m => let* row := getN sobol_minit j in
                              let* v := getN row (sub32 i 1) in Ok (m ++ [v]))
                  (map N.of_nat (seq 0 (N.to_nat d))) [] in
  foldM (fun j m => let* mj := next_m a d j m in Ok (m ++ [mj]))
        (map N.of_nat (seq (N.to_nat d) (32 - N.to_nat d))) m.

(** src/SobolImpl.cpp:127-158: all columns; column 0 is the special case of line 130 *)
Definition init_m (sdim : N) : outcome (list (list N)) :=
  let* cols := mapM init_dim (map N.of_nat (seq 1 (N.to_nat sdim - 1))) in
  Ok (repeat 1 32 :: cols).

(** src/SobolImpl.cpp:116-184 and 197-208.  None is the null pointer returned for a bad dimension. *)
Definition sobol_create (sdim : N) : outcome (option sobol_data) :=
  if (sdim =? 0) || (1111 <? sdim) then Ok None
  else
    let* m := init_m sdim in
    let z := repeat 0 (N.to_nat sdim) in
    Ok (Some (SD sdim m z z 0)).

(** src/SobolImpl.cpp:233-234: while (k*2 < n) k *= 2, from k *)
Fixpoint skip_count (fuel : nat) (k n : N) : outcome N :=
  match fuel with
  | O => Diverge
  | S f => if w32 (k * 2) <? n then skip_count f (w32 (k * 2)) n else Ok k
  end.

(** src/SobolImpl.cpp:229-237: the result of sobol_gen is ignored *)
Definition sobol_skip (fuel : nat) (sd : sobol_data) (n : N) (out : list N) : outcome (sobol_data * list N) :=
  let* k := skip_count fuel 1 n in
  N.iter k (fun o => let* '(sd, out) := o in
                     let* '(sd', out', _) := sobol_gen sd out in Ok (sd', out')) (Ok (sd, out)).

(** src/Sobol.h:49-52 *)
Record sobol : Type := SB { s_sd : sobol_data; s_dim : N; s_buf : list N; s_pos : N }.

(** src/Sobol.cpp:45-48 *)
Definition sobol_do_skip (fuel : nat) (s : sobol) (n : N) : outcome sobol :=
  let* '(sd, b) := sobol_skip fuel (s_sd s) n (s_buf s) in
  Ok (SB sd (s_dim s) b (s_pos s)).

(** src/Sobol.cpp:9-19; dim is a size_t *)
Definition sobol_new (fuel : nat) (dim nskip : N) : outcome sobol :=
  if (dim <? 1) || (1111 <? dim) then Throw (RangeError "Dim is not in valid range [1,1111]")
  else
    let* sd := sobol_create dim in
    match sd with
    | None => UB "null SobolData"
    | Some sd =>
        let s := SB sd dim (repeat 0 (N.to_nat dim)) dim in
        if 0 <? nskip then sobol_do_skip fuel s nskip else Ok s
    end.

(** src/Sobol.cpp:26-32: returns the state and the buffer *)
Definition sobol_buf (s : sobol) : outcome (sobol * list N) :=
  let* '(sd, b, ok) := sobol_gen (s_sd s) (s_buf s) in
  if ok : bool then Ok (SB sd (s_dim s) b (s_pos s), b)
  else Throw (OutOfRange "Exceeded generation limit (2^32-1)").

(** src/Sobol.cpp:34-42 *)
Definition sobol_call (s : sobol) : outcome (sobol * N) :=
  let* s1 := (if s_pos s =? s_dim s then
                let* '(s', _) := sobol_buf s in Ok (SB (s_sd s') (s_dim s') (s_buf s') 0)
              else Ok s) in
  let* v := getN (s_buf s1) (s_pos s1) in
  Ok (SB (s_sd s1) (s_dim s1) (s_buf s1) (w32 (s_pos s1 + 1)), v).

(** src/Sobol.cpp:51-57 *)
Definition sobol_reset (fuel : nat) (s : sobol) (nskip : N) : outcome sobol :=
  let* sd := sobol_create (s_dim s) in
  match sd with
  | None => UB "null SobolData"
  | Some sd =>
      let s' := SB sd (s_dim s) (s_buf s) (s_pos s) in
      if 0 <? nskip then sobol_do_skip fuel s' nskip else Ok s'
  end.

(** src/Sobol.h:23 *)
Definition sobol_SCALE : double := d_lit 1 (-32).

(** src/module.cpp:136 the constructor exposed to Python; dim and nSkip are uint32_t *)
Definition sobol_generator (fuel : nat) (dim nskip : N) : outcome sobol := sobol_new fuel dim nskip.

(** src/module.cpp:138-151: only std::runtime_error and its subclasses are turned into StopIteration *)
Definition generator_next (s : sobol) : outcome (sobol * list double) :=
  match sobol_buf s with
  | Ok (s', b) => Ok (s', map (fun i => d_mul (d_ofZ (Z.of_N i)) sobol_SCALE) b)
  | Throw (RuntimeError _) | Throw (RangeError _) => Throw PyStopIteration
  | Throw e => Throw e
  | UB w => UB w
  | Diverge => Diverge
  end.
