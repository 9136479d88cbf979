(** Vocabulary for dictionaries. *)
From Coq Require Import List Arith Reals.
From Verif Require Import Vec RVec RMat DictModel.
Local Open Scope R_scope.
(** an m-by-n matrix whose n columns have unit Euclidean norm *)
Definition unit_atoms (m n : nat) (A : mat) : Prop :=
  shape m n A /\ forall j, (j < n)%nat -> nrm2 (col A j) = 1.
(** correlation of two atoms *)
Definition corr (A : mat) (i j : nat) : R := Rabs (rdot (col A i) (col A j)).
