(** Vocabulary for subspaces given by orthonormal bases, and what is assumed
    about the factorisations. *)
From Coq Require Import List Arith Reals.
From Verif Require Import Vec RVec Loop.
Local Open Scope R_scope.

(** inner product in R^N *)
Definition ip (N : nat) (a b : nat -> R) : R := rsum N (fun i => a i * b i).
(** column j of a matrix *)
Definition column (A : nat -> nat -> R) (j : nat) : nat -> R := fun i => A i j.
(** A u, for a matrix with d columns *)
Definition combine_cols (d : nat) (A : nat -> nat -> R) (u : nat -> R) : nat -> R :=
  fun i => rsum d (fun j => A i j * u j).

(** The first d columns of A are orthonormal vectors of R^N. *)
Definition orthonormal (N d : nat) (A : nat -> nat -> R) : Prop :=
  forall j k, (j < d)%nat -> (k < d)%nat ->
    ip N (column A j) (column A k) = if Nat.eqb j k then 1 else 0.

(** x (a vector of R^N) is in the span of the first d columns of A *)
Definition in_span_of (N d : nat) (A : nat -> nat -> R) (x : nat -> R) : Prop :=
  exists u, forall i, (i < N)%nat -> x i = combine_cols d A u i.

(** The first factor of the (thin) QR factorisation of an N x D matrix,
    D <= N: orthonormal columns whose span contains the columns. *)
Definition qr_factor (N D : nat) (A Q : nat -> nat -> R) : Prop :=
  orthonormal N D Q /\ forall j, (j < D)%nat -> in_span_of N D Q (column A j).

(** The left singular vectors of an N x k matrix, k <= N: an orthonormal
    basis of R^N (of R^k for the thin factorisation) whose first k vectors
    span the columns of the matrix. *)
Definition svd_factor (N k : nat) (X U : nat -> nat -> R) : Prop :=
  orthonormal N N U /\ forall j, (j < k)%nat -> in_span_of N k U (column X j).

(** c is the cosine of the smallest principal angle of the spans of two
    orthonormal bases: the largest inner product of unit vectors. *)
Definition smallest_angle_cos (N d : nat) (A : nat -> nat -> R) (e : nat)
    (B : nat -> nat -> R) (c : R) : Prop :=
  (forall u v, ip d u u = 1 -> ip e v v = 1 ->
     ip N (combine_cols d A u) (combine_cols e B v) <= c) /\
  exists u v, ip d u u = 1 /\ ip e v v = 1 /\
     ip N (combine_cols d A u) (combine_cols e B v) = c.
