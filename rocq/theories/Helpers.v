(** Models of the remaining small functions without a caller in the library: product (src/NDArrayUtils.h) and the element
    access of the distribution without replacement of src/DDWR.h. *)
From Verif Require Import Base Float64 ArrayOps Ddwr.
Open Scope Z_scope.

(** src/NDArrayUtils.h:33-37 product(vector): std::accumulate from T(1) with operator*, left to right *)
Definition vec_product {T} (O : NumOps T) (one : T) (v : list T) : outcome T := foldM (fun x acc => n_mul O acc x) v one.

(** src/DDWR.h:141-145 operator[] of the distribution without replacement, read and written through: the frequency is
    replaced, m_sum is not.  The index is a size_t and not checked. *)
Definition ddwr_at (d : ddwr) (i : Z) : outcome Z := vec_get (dd_freq d) i.
Definition ddwr_edit (d : ddwr) (i v : Z) : outcome ddwr := let* fs := vec_set (dd_freq d) i v in Ok (DD fs (dd_sum d)).
