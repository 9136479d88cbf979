(** Vocabulary for the k-means properties, independent of the model's helpers. *)
From Coq Require Import List Arith Reals.
From Verif Require Import Vec RVec RMat.
Import ListNotations.
Set Implicit Arguments.
Local Open Scope R_scope.

(** Euclidean distance between a row of P and a row of C *)
Definition row_dist (P : mat) (i : nat) (C : mat) (j : nat) : R := nrm (rsub (nth j C []) (nth i P [])).
(** j is a centroid at least distance from point i *)
Definition nearest (P C : mat) (i j : nat) : Prop :=
  (j < length C)%nat /\ forall l, (l < length C)%nat -> row_dist P i C j <= row_dist P i C l.
(** a assigns every point to one of k clusters *)
Definition assigns (P : mat) (k : nat) (a : list nat) : Prop :=
  length a = length P /\ forall i, (i < length P)%nat -> (nth i a 0 < k)%nat.
(** sum of squared distances of the points to the centroids they are assigned to *)
Definition sq_cost (P C : mat) (a : list nat) : R :=
  rsum (length P) (fun i => row_dist P i C (nth i a 0%nat) * row_dist P i C (nth i a 0%nat)).
(** mean distance of the points to the centroids they are assigned to *)
Definition mean_dist (P C : mat) (a : list nat) : R :=
  rsum (length P) (fun i => row_dist P i C (nth i a 0%nat)) / INR (length P).
