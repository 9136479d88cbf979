(** Vocabulary for the log det function: n x n matrices as functions of the indices. *)
From Coq Require Import List Arith Reals.
From Verif Require Import Vec RVec Loop.
Local Open Scope R_scope.

Definition fsymmetric (n : nat) (X : nat -> nat -> R) : Prop := forall i j, (i < n)%nat -> (j < n)%nat -> X i j = X j i.
(** v^T X v *)
Definition qform (n : nat) (X : nat -> nat -> R) (v : nat -> R) : R := rsum n (fun i => rsum n (fun j => v i * X i j * v j)).
Definition pos_def (n : nat) (X : nat -> nat -> R) : Prop :=
  fsymmetric n X /\ forall v, (exists i, (i < n)%nat /\ v i <> 0) -> 0 < qform n X v.
(** L is lower triangular with positive diagonal and X = L L^T *)
Definition is_cholesky (n : nat) (X L : nat -> nat -> R) : Prop :=
  (forall i j, (i < n)%nat -> (j < n)%nat -> (i < j)%nat -> L i j = 0) /\
  (forall i, (i < n)%nat -> 0 < L i i) /\
  (forall i j, (i < n)%nat -> (j < n)%nat -> X i j = rsum n (fun k => L i k * L j k)).
(** X Y = I *)
Definition is_inverse (n : nat) (X Y : nat -> nat -> R) : Prop :=
  forall i j, (i < n)%nat -> (j < n)%nat -> rsum n (fun k => X i k * Y k j) = if Nat.eqb i j then 1 else 0.
(** The factorisation succeeds for positive definite matrices, and what it
    returns for a symmetric matrix is a factorisation; the inverse is right for
    positive definite matrices. *)
Definition cholesky_ok (n : nat) (cholesky : (nat -> nat -> R) -> option (nat -> nat -> R)) : Prop :=
  (forall X, pos_def n X -> cholesky X <> None) /\
  (forall X L, fsymmetric n X -> cholesky X = Some L -> is_cholesky n X L).
Definition inverse_ok (n : nat) (inv : (nat -> nat -> R) -> nat -> nat -> R) : Prop :=
  forall X, pos_def n X -> is_inverse n X (inv X).
(** sum of the products of the entries *)
Definition matrix_ip (n : nat) (A B : nat -> nat -> R) : R := rsum n (fun i => rsum n (fun j => A i j * B i j)).
Definition value (o : option R) : R := match o with Some v => v | None => 0 end.
