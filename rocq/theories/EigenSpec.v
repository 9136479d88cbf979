(** Eigenvectors of symmetric operators on R^n. *)
From Coq Require Import List Arith Reals.
From Verif Require Import RVec SolverSpec.
Local Open Scope R_scope.

(** v 0, ..., v (d - 1) are orthonormal vectors of R^n *)
Definition orthonormal_family (n d : nat) (v : nat -> vec) : Prop :=
  (forall i, (i < d)%nat -> length (v i) = n) /\
  forall i j, (i < d)%nat -> (j < d)%nat -> rdot (v i) (v j) = if Nat.eqb i j then 1 else 0.
(** v 0, ..., v (n - 1) are orthonormal eigenvectors of H for the eigenvalues lam 0 >= lam 1 >= ... *)
Definition eigenbasis (n : nat) (H : vec -> vec) (lam : nat -> R) (v : nat -> vec) : Prop :=
  orthonormal_family n n v /\ (forall i, (i < n)%nat -> H (v i) = rscale (lam i) (v i)) /\
  forall i j, (i <= j < n)%nat -> lam j <= lam i.
