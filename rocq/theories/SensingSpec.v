(** Vocabulary for random sensing matrices. *)
From Coq Require Import List Arith Reals.
From Verif Require Import Vec RVec SubspSpec.
Import ListNotations.
Local Open Scope R_scope.

(** The first D columns of A have norm one in R^N. *)
Definition unit_columns (N D : nat) (A : nat -> nat -> R) : Prop :=
  forall j, (j < D)%nat -> ip N (column A j) (column A j) = 1.
(** The rows of an M x N matrix are orthonormal. *)
Definition orthonormal_rows (M N : nat) (A : nat -> nat -> R) : Prop :=
  forall i k, (i < M)%nat -> (k < M)%nat -> ip N (A i) (A k) = if Nat.eqb i k then 1 else 0.
(** A = Q R is a reduced QR factorisation of an N x D matrix, D <= N: Q has
    orthonormal columns and R is upper triangular. *)
Definition qr_pair (N D : nat) (A Q T : nat -> nat -> R) : Prop :=
  orthonormal N D Q /\
  (forall k j, (k < D)%nat -> (j < D)%nat -> (j < k)%nat -> T k j = 0) /\
  forall i j, (i < N)%nat -> (j < D)%nat -> A i j = rsum D (fun k => Q i k * T k j).
(** The columns of A are linearly independent. *)
Definition independent_columns (N D : nat) (A : nat -> nat -> R) : Prop :=
  forall u, (forall i, (i < N)%nat -> combine_cols D A u i = 0) -> forall j, (j < D)%nat -> u j = 0.
(** y = A x for an M x N matrix and lists of numbers *)
Definition is_product (M N : nat) (A : nat -> nat -> R) (x y : list R) : Prop :=
  length y = M /\ forall i, (i < M)%nat -> nth i y 0 = rsum N (fun j => A i j * nth j x 0).
