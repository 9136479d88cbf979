(** Vocabulary for statements about bases: orthonormal rows/columns of a
    matrix, unitary operators, orthogonal one-level wavelet transforms. *)
From Coq Require Import List Arith Reals.
From Verif Require Import Scalar Vec RVec.
Import ListNotations.
Local Open Scope R_scope.

(** [M] has r rows, each of length c *)
Definition mat_shape (r c : nat) (M : list (list R)) : Prop :=
  length M = r /\ forall row, In row M -> length row = c.
Definition entry (M : list (list R)) (i j : nat) : R := nth j (nth i M []) 0.
Definition orthonormal_rows (n : nat) (M : list (list R)) : Prop :=
  forall i i', (i < n)%nat -> (i' < n)%nat ->
    rsum n (fun j => entry M i j * entry M i' j) = if (i =? i')%nat then 1 else 0.
Definition orthonormal_cols (n : nat) (M : list (list R)) : Prop :=
  forall j j', (j < n)%nat -> (j' < n)%nat ->
    rsum n (fun i => entry M i j * entry M i j') = if (j =? j')%nat then 1 else 0.

(** A one-level analysis map (approximation, detail) and a synthesis map that
    are inverse and adjoint to each other on vectors of even length. *)
Definition orthogonal_filter_bank (dwt : list R -> list R * list R) (idwt : list R -> list R -> list R) : Prop :=
  (forall q x, length x = (2 * q)%nat -> length (fst (dwt x)) = q /\ length (snd (dwt x)) = q) /\
  (forall q a d, length a = q -> length d = q -> length (idwt a d) = (2 * q)%nat) /\
  (forall q x, length x = (2 * q)%nat -> idwt (fst (dwt x)) (snd (dwt x)) = x) /\
  (forall q a d, length a = q -> length d = q -> dwt (idwt a d) = (a, d)) /\
  (forall q x a d, length x = (2 * q)%nat -> length a = q -> length d = q ->
     rdot (fst (dwt x)) a + rdot (snd (dwt x)) d = rdot x (idwt a d)).
