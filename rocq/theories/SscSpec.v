(** Vocabulary for sparse subspace representations and graph Laplacians. *)
From Coq Require Import List Arith Bool Reals.
From Verif Require Import Vec RVec RMat.
Import ListNotations.
Set Implicit Arguments.
Local Open Scope R_scope.

(** k rows of n entries *)
Definition ishape (k n : nat) (I : list (list nat)) : Prop := length I = k /\ forall r, In r I -> length r = n.
(** symmetric n x n matrix *)
Definition symmetric (n : nat) (W : mat) : Prop := forall i j, (i < n)%nat -> (j < n)%nat -> ent W i j = ent W j i.
(** affinities are nonnegative *)
Definition nonnegative (n : nat) (W : mat) : Prop := forall i j, (i < n)%nat -> (j < n)%nat -> 0 <= ent W i j.
(** sum of the weights of the edges at vertex i *)
Definition degree (n : nat) (W : mat) (i : nat) : R := rsum n (fun j => ent W i j).
(** squared differences along the edges *)
Definition edge_energy (n : nat) (W : mat) (u : nat -> R) : R :=
  rsum n (fun i => rsum n (fun j => ent W i j * ((u i - u j) * (u i - u j)))) / 2.
(** point j of the data set scaled to norm one *)
Definition unit_point (X : list vec) (j : nat) : vec := rscale (/ nrm (nth j X [])) (nth j X []).
