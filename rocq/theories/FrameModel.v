(** Frame bounds (dict/props.py, lop/props.py) and Grassmannian frames
    (dict/grass.py).

    Matrices are functions of their indices; jnp.linalg.svd is an argument (its
    singular values for the frame bounds, all factors for the frames).
    Arithmetic is exact. *)
From Coq Require Import List Arith Bool ZArith Reals.
From Verif Require Import Vec RVec Loop OptModel BsblModel DictModel ProblemModel.
Import ListNotations.
Local Open Scope R_scope.

(** dict/props.py:56-61, frame_bounds: the entries 0 and -1 of the singular
    values; None for an empty array *)
Definition frame_bounds (s : list R) : option (R * R) :=
  match s with [] => None | a :: _ => Some (a, last s 0) end.
(** dict/props.py:63-67, upper_frame_bound; lop/props.py:19-24 does the same with
    the matrix of an operator *)
Definition upper_frame_bound (s : list R) : option R := match s with [] => None | a :: _ => Some a end.
(** dict/props.py:69-73, lower_frame_bound *)
Definition lower_frame_bound (s : list R) : option R := match s with [] => None | _ => Some (last s 0) end.

(** the factors of an n x n matrix: U, the singular values and V^T *)
Definition svd3 : Type := fmat * (nat -> R) * fmat.
(** a[k] of an array of length len for a Python integer k; positions beyond the
    end are clamped by JAX *)
Definition py_get (len : nat) (a : list R) (k : Z) : R :=
  nth (Z.to_nat (Z.min (Z.of_nat len - 1) (if Z.ltb k 0 then Z.of_nat len + k else k)))  a 0.
Section Grass.
  Variable svd : fmat -> svd3.
  Variables (m n : nat) (frac shrink_mu : R).
  (** grass.py:55-57 *)
  Definition n_off : R := INR (n ^ 2 - n).
  Definition upper_ind : Z := (py_round (frac * n_off) - 1)%Z.
  Definition lower_ind : Z := (py_round ((1 - frac) * n_off) - 1)%Z.
  (** grass.py:60; the entry p of g.ravel() is g (p / n) (p mod n) *)
  Definition off_ind (g : fmat) (i j : nat) : bool := Rltb (/ 10 ^ 6) (Rabs (g i j - 1)).
  (** grass.py:64-86, the new entries before the rank is reduced.  Division by
      shrink_mu = 0 is not modelled. *)
  Definition grass_entries (off : nat -> nat -> bool) (g : fmat) : fmat :=
    let sorted_g := rsort (tab (n * n) (fun p => Rabs (g (p / n) (p mod n))%nat)) in
    let upper_th := py_get (n * n) sorted_g upper_ind in
    let lower_th := py_get (n * n) sorted_g lower_ind in
    fun i j =>
      let gg := if off i j && Rltb upper_th (Rabs (g i j)) then g i j * shrink_mu else g i j in
      if Rltb (Rabs (g i j)) lower_th then gg / shrink_mu else gg.
  (** grass.py:88-99; None where the diagonal is not positive, which makes entries
      infinite or NaN.  d2 * g * d2 scales column j twice. *)
  Definition grass_body (off : nat -> nat -> bool) (g : fmat) : option fmat :=
    let '(U, s, VT) := svd (grass_entries off g) in
    let s := fun k => if (k <? m)%nat then s k else 0 in
    let g := fun i j => rsum n (fun k => U i k * s k * VT k j) in
    if forallb (fun j => Rltb 0 (g j j)) (seq 0 n) then
      let d2 := fun j => 1 / sqrt (g j j) in
      Some (fun i j => d2 j * g i j * d2 j)
    else None.
  Fixpoint grass_loop (off : nat -> nat -> bool) (iterations : nat) (g : fmat) : option fmat :=
    match iterations with
    | O => Some g
    | S k => match grass_body off g with None => None | Some g => grass_loop off k g end
    end.
  (** grass.py:35-107, build_grassmannian_frame: shape and entries of the frame *)
  Definition build_grassmannian_frame (init : fmat) (iterations : nat) : option (nat * nat * fmat) :=
    let g := fmul m (ftr init) init in
    match grass_loop (off_ind g) iterations g with
    | None => None
    | Some g =>
      let '(U, s, VT) := svd g in
      Some (Nat.min m n, n, fun k j => sqrt (s k) * U j k)
    end.
End Grass.
