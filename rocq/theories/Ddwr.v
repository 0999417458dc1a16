(** Model of discrete_distribution_without_replacement<uint32_t> in src/DDWR.h (the instance used by src/TestSobol.cpp).
    operator[] is in Helpers.v; vectors are assumed to have fewer than 2^32 entries, so that the uint32_t index does not
    wrap. *)
From Flocq Require Import IEEE754.BinarySingleNaN.
From Verif Require Import Base Spec Float64.
Open Scope Z_scope.

(** src/DDWR.h:148-149 the members *)
Record ddwr : Type := DD { dd_freq : list Z; dd_sum : Z }.

(** std::accumulate with the int 0 over uint32_t: each sum is computed as uint32_t and converted back to int (modulo
    2^32), so the result, converted to uint32_t, is the sum modulo 2^32 *)
Definition acc_u32 (l : list Z) : Z := fold_left (fun s x => u32 (s + x)) l 0.

(** src/DDWR.h:74-79 the constructor *)
Definition ddwr_new (freq : list Z) : ddwr := DD freq (acc_u32 freq).

(** (uint32_t)x for a double *)
Definition d_to_u32 (x : double) : outcome Z :=
  if is_finite x && (-1 <? Btrunc x) && (Btrunc x <? 2 ^ 32) then Ok (Btrunc x) else UB "float to unsigned conversion out of range".

(** src/DDWR.h:94, 118: (uint32_t)(double(r)/(1ull<<32) * m_sum) *)
Definition dd_scale (r sum : Z) : outcome Z := d_to_u32 (d_mul (d_div (d_ofZ r) (d_ofZ (2 ^ 32))) (d_ofZ sum)).

(** src/DDWR.h:97-103 the search; [rest] is what follows entry [idx] *)
Fixpoint dd_search (r idx s : Z) (rest : list Z) : outcome Z :=
  if s <=? r then match rest with [] => UB "vector access out of bounds" | x :: rest' => dd_search r (idx + 1) (u32 (s + x)) rest' end
  else Ok idx.

Definition dd_take (d : ddwr) (idx : Z) : outcome ddwr :=
  let* f := vec_get (dd_freq d) idx in
  let* fs := vec_set (dd_freq d) idx (u32 (f - 1)) in
  Ok (DD fs (u32 (dd_sum d - 1))).

(** src/DDWR.h:88-107 operator() *)
Definition ddwr_draw (d : ddwr) (r : Z) : outcome (Z * ddwr) :=
  if dd_sum d =? 0 then Throw (RuntimeError "distribution is depleted")
  else
    let* r := dd_scale r (dd_sum d) in
    match dd_freq d with
    | [] => UB "vector access out of bounds"
    | s :: rest =>
        let* idx := dd_search r 0 s rest in
        let* d := dd_take d idx in
        Ok (idx, d)
    end.

(** src/DDWR.h:123-130 the search of constrainedSample; None is the return of invalid_state.  The entry is read before
    the index is compared. *)
Fixpoint dd_csearch (r idx s forbidden : Z) (rest : list Z) : outcome (option Z) :=
  if s <=? r then
    match rest with
    | [] => UB "vector access out of bounds"
    | x :: rest' => if forbidden <=? idx + 1 then Ok None else dd_csearch r (idx + 1) (u32 (s + x)) forbidden rest'
    end
  else Ok (Some idx).

(** src/DDWR.h:111-135 constrainedSample; None stands for invalid_state *)
Definition ddwr_constrained (d : ddwr) (r forbidden : Z) : outcome (option Z * ddwr) :=
  if dd_sum d =? 0 then Throw (RuntimeError "distribution is depleted")
  else
    let k := Z.min (Z.of_nat (length (dd_freq d))) forbidden in
    let* r := dd_scale r (acc_u32 (firstn (Z.to_nat k) (dd_freq d))) in
    match dd_freq d with
    | [] => UB "vector access out of bounds"
    | s :: rest =>
        let* i := dd_csearch r 0 s k rest in
        match i with
        | None => Ok (None, d)
        | Some idx => let* d := dd_take d idx in Ok (Some idx, d)
        end
    end.

(** repeated draws *)
Fixpoint ddwr_draws (d : ddwr) (rs : list Z) : outcome (list Z * ddwr) :=
  match rs with
  | [] => Ok ([], d)
  | r :: rs' =>
      let* '(i, d) := ddwr_draw d r in
      let* '(is, d) := ddwr_draws d rs' in
      Ok (i :: is, d)
  end.
