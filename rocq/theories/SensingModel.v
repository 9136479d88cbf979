(** Random sensing matrices (src/cr/sparse/_src/dict/simple.py,
    src/cr/sparse/_src/lop/random.py).

    Arrays are functions of their indices together with their shape.  The draws
    of the random number generator and the QR factorisation of NumPy are
    arguments.  Arithmetic is exact.  [None] stands for an exception or for NaN
    entries in the result.  The BCOO storage of sparse matrices is not modelled
    (BCOO.fromdense keeps all entries). *)
From Coq Require Import List Arith Bool Reals.
From Verif Require Import Scalar Vec RVec Loop BsblModel SubspModel SortedL1Model LopModel.
Import ListNotations.
Local Open Scope R_scope.

(** A matrix with its shape. *)
Record sized := Sized { sz_rows : nat; sz_cols : nat; sz_ent : fmat }.

(** dict/simple.py:32-70, gaussian_mtx; [draw] is random.normal(key, (N, D)).
    normalize_l2_cw (cr.nimble) divides the columns by their norms, a zero
    column gives NaN. *)
Definition gaussian_mtx (draw : fmat) (N D : nat) (normalize_atoms : bool) : option sized :=
  if normalize_atoms then
    if forallb (fun j => negb (Reqb (rsum N (fun i => draw i j * draw i j)) 0)) (seq 0 D)
    then Some (Sized N D (normalize_cols N draw)) else None
  else Some (Sized N D (fun i j => draw i j / sqrt (INR N))).

(** dict/simple.py:72-108, rademacher_mtx; [draw] is random.bernoulli(key, (M, N)).
    2 * dict - 1 with True = 1 and False = 0. *)
Definition rademacher_mtx (draw : nat -> nat -> bool) (M N : nat) (normalize_atoms : bool) : sized :=
  let dict := fun i j => 2 * (if draw i j then 1 else 0) - 1 in
  Sized M N (if normalize_atoms then fun i j => dict i j / sqrt (INR M) else dict).

(** dict/simple.py:111-141, sparse_binary_mtx; [choice j] is the random choice
    of d positions out of M for column j, an exception for d > M.  The order of
    the positions does not matter, so the sort is left out.  d = 0 makes line
    138 divide zero by zero. *)
Definition sparse_binary_mtx (choice : nat -> list nat) (M N d : nat) (normalize_atoms : bool) : option sized :=
  if (M <? d)%nat && (0 <? N)%nat then None else
  let dict : fmat := fun i j => if existsb (Nat.eqb i) (choice j) then 1 else 0 in
  if normalize_atoms then
    if (d =? 0)%nat && (0 <? M)%nat && (0 <? N)%nat then None
    else Some (Sized M N (fun i j => dict i j / sqrt (INR d)))
  else Some (Sized M N dict).

(** dict/simple.py:143-170, random_onb; [qr] returns both factors of
    jnp.linalg.qr, [sign] is jnp.sign. *)
Definition random_onb (qr : fmat -> fmat * fmat) (draw : fmat) (N : nat) : sized :=
  let '(Q, R) := qr draw in
  Sized N N (fun i j => Q i j * sign (R j j)).

(** dict/simple.py:173-199, random_orthonormal_rows; the draw has shape (N, M),
    its reduced factors have shapes (N, min(N, M)) and (min(N, M), M). *)
Definition random_orthonormal_rows (qr : fmat -> fmat * fmat) (draw : fmat) (M N : nat) : sized :=
  let '(Q, R) := qr draw in
  Sized (Nat.min N M) N (ftr (fun i j => Q i j * sign (R j j))).

(** lop/random.py:26-46, 49-68, 100-138: matrix_op of the matrix, given as a
    list of rows *)
Definition rows_of (A : sized) : list (list R) := tab (sz_rows A) (fun i => tab (sz_cols A) (fun j => sz_ent A i j)).
Definition matrix_op (A : sized) : operator Rs := @op_matrix Rs (sz_rows A) (sz_cols A) (rows_of A) true.
Definition gaussian_dict (draw : fmat) (m : nat) (n : option nat) (normalize_atoms : bool) : option (operator Rs) :=
  let n := match n with None => m | Some n => n end in
  option_map matrix_op (gaussian_mtx draw m n normalize_atoms).
Definition rademacher_dict (draw : nat -> nat -> bool) (m : nat) (n : option nat) (normalize_atoms : bool) : operator Rs :=
  let n := match n with None => m | Some n => n end in
  matrix_op (rademacher_mtx draw m n normalize_atoms).
(** lop/random.py:71-97; d defaults to 10.  The sparse operator computes A @ x and x @ A. *)
Definition sparse_binary_dict (choice : nat -> list nat) (m : nat) (n d : option nat) (normalize_atoms : bool) : option (operator Rs) :=
  let n := match n with None => m | Some n => n end in
  let d := match d with None => 10%nat | Some d => d end in
  option_map matrix_op (sparse_binary_mtx choice m n d normalize_atoms).
Definition random_orthonormal_rows_dict (qr : fmat -> fmat * fmat) (draw : fmat) (m : nat) (n : option nat) : operator Rs :=
  let n := match n with None => m | Some n => n end in
  matrix_op (random_orthonormal_rows qr draw m n).
Definition random_onb_dict (qr : fmat -> fmat * fmat) (draw : fmat) (n : nat) : operator Rs :=
  matrix_op (random_onb qr draw n).

(** lop/random.py:141-179, binary_dict_alg; [bern i] is the draw for key i.
    shape=(n,m) as written in line 179. *)
Definition bits (bern : nat -> nat -> bool) (m i : nat) : list R := tab m (fun k => if bern i k then 1 else 0).
Definition binary_dict_alg (bern : nat -> nat -> bool) (m : nat) (n : option nat) : operator Rs :=
  let n := match n with None => m | Some n => n end in
  let times := fun x : list R => fold_left (fun y i => radd y (rscale (nth i x 0) (bits bern m i))) (seq 0 n) (rzero m) in
  let trans := fun y : list R => fold_left (fun x i => @set_at Rs i (rdot (bits bern m i) y) x) (seq 0 n) (rzero n) in
  @Op Rs times trans n m true true true false.
