(** Random subspaces (src/cr/sparse/_src/data/synthetic/subspaces.py).

    Arrays are functions of their indices.  The draws of the random number
    generator and the factorisations of NumPy are arguments: [qr A] is the
    first factor of jnp.linalg.qr and [svd_u k X] the first factor of
    jnp.linalg.svd of a matrix X with k columns.  Arithmetic is exact.
    [None] stands for an exception or for NaN entries in the result. *)
From Coq Require Import List Arith Bool Reals.
From Verif Require Import Vec RVec Loop BsblModel.
Import ListNotations.
Local Open Scope R_scope.

(** One entry of 2 * bernoulli - 1, subspaces.py:44. *)
Definition sign_of (b : bool) : R := if b then 1 else -1.

(** Model of random_subspaces, subspaces.py:23-48.  Every draw holds the
    matrix of line 41 and the signs of line 44.  For D > N the factor has
    fewer than D columns, and line 46 does not multiply matching shapes. *)
Definition random_subspaces (N D : nat) (qr : fmat -> fmat)
    (draws : list (fmat * (nat -> bool))) : option (list fmat) :=
  if Nat.ltb N D then None
  else Some (map (fun d i j => qr (fst d) i j * sign_of (snd d j)) draws).

(** cnb.normalize_l2_cw of a matrix with di rows (subspaces.py:80): every
    column is divided by its norm. *)
Definition normalize_cols (di : nat) (C : fmat) : fmat :=
  fun i j => C i j / sqrt (rsum di (fun k => C k j * C k j)).

(** Model of uniform_points_on_subspaces, subspaces.py:53-85.  A basis is
    given with its number of columns, [coeffs] are the draws of line 78.  A
    zero column makes line 80 divide by zero.  The point j of subspace i is
    column i * n + j. *)
Definition uniform_points_on_subspaces (n : nat) (bases : list (nat * fmat))
    (coeffs : list fmat) : option fmat :=
  if forallb (fun i => let di := fst (nth i bases (0%nat, fun _ _ => 0)) in
        forallb (fun j => negb (Reqb (rsum di (fun k =>
            nth i coeffs (fun _ _ => 0) k j * nth i coeffs (fun _ _ => 0) k j)) 0)) (seq 0 n))
       (seq 0 (length bases))
  then Some (fun r c =>
    let i := (c / n)%nat in
    let '(di, A) := nth i bases (0%nat, fun _ _ => 0) in
    fmul di A (normalize_cols di (nth i coeffs (fun _ _ => 0))) r (c mod n)%nat)
  else None.

(** jnp.deg2rad *)
Definition deg2rad (t : R) : R := t * (PI / 180).

(** jnp.column_stack of a column a and of the columns lo, ..., hi - 1 of a
    matrix Y with w columns (slices are cut off at w): the number of columns
    and the entries (subspaces.py:133-134, 199-201). *)
Definition stack (a : fvec) (Y : fmat) (w lo hi : nat) : nat * fmat :=
  ((1 + (Nat.min hi w - Nat.min lo w))%nat,
   fun i j => match j with O => a i | S j => Y i (Nat.min lo w + j)%nat end).

(** The linear combination s * a2 + c * a1, subspaces.py:126. *)
Definition comb2 (c : R) (a1 : fvec) (s : R) (a2 : fvec) : fvec :=
  fun i => s * a2 i + c * a1 i.

(** Model of two_subspaces_at_angle, subspaces.py:89-135, for N >= 2 and
    D >= 1.  [X] is the draw of line 114. *)
Definition two_subspaces_at_angle (N D : nat) (svd_u : nat -> fmat -> fmat)
    (X : fmat) (theta : R) : (nat * fmat) * (nat * fmat) :=
  let theta := deg2rad theta in
  let U := svd_u 2%nat X in
  let a1 := fun i => U i 0%nat in
  let a2 := fun i => U i 1%nat in
  let p := cos theta in
  let c1 := p in
  let s1 := sqrt (1 - c1 ^ 2) in
  let b1 := comb2 c1 a1 s1 a2 in
  let X := fun i j => match j with O => a1 i | _ => b1 i end in
  let U := svd_u 2%nat X in
  let Y := fun i j => U i (2 + j)%nat in
  let w := (N - 2)%nat in
  (stack a1 Y w 0 (D - 1), stack b1 Y w (D - 1) (2 * D - 2)).

(** Model of three_subspaces_at_angle, subspaces.py:139-202, for N >= 3 and
    D >= 1.  [X] is the draw of line 170.  Line 187 divides by zero for
    p = 1 or -1, line 188 takes the square root of a negative number for
    p < -1/2. *)
Definition three_subspaces_at_angle (N D : nat) (svd_u : nat -> fmat -> fmat)
    (X : fmat) (theta : R)
  : option ((nat * fmat) * (nat * fmat) * (nat * fmat)) :=
  let theta := deg2rad theta in
  let U := svd_u 3%nat X in
  let a1 := fun i => U i 0%nat in
  let a2 := fun i => U i 1%nat in
  let a3 := fun i => U i 2%nat in
  let p := cos theta in
  let c1 := p in
  let s1 := sqrt (1 - c1 ^ 2) in
  let b1 := comb2 c1 a1 s1 a2 in
  if Reqb (sqrt (1 - p ^ 2)) 0 then None else
  let c1_1 := p in
  let c1_2 := p * (1 - p) / sqrt (1 - p ^ 2) in
  if Rltb (1 - c1_1 ^ 2 - c1_2 ^ 2) 0 then None else
  let c1_3 := sqrt (1 - c1_1 ^ 2 - c1_2 ^ 2) in
  let c1 := fun i => c1_1 * a1 i + c1_2 * a2 i + c1_3 * a3 i in
  let X := fun i j => match j with O => a1 i | 1%nat => b1 i | _ => c1 i end in
  let U := svd_u 3%nat X in
  let Y := fun i j => U i (3 + j)%nat in
  let w := (N - 3)%nat in
  Some (stack a1 Y w 0 (D - 1), stack b1 Y w (D - 1) (2 * D - 2),
        stack c1 Y w (2 * D - 2) (3 * D - 3)).
