(** Limits of sequences of vectors. *)
From Coq Require Import List Arith Reals.
From Verif Require Import RVec.
Import ListNotations.
Local Open Scope R_scope.

(** the vectors x k of R^n approach l *)
Definition converges (n : nat) (x : nat -> vec) (l : vec) : Prop :=
  length l = n /\ forall eps, 0 < eps -> exists N, forall k, (N <= k)%nat -> nrm (rsub (x k) l) < eps.
(** [q] is a point of the domain where [F] is least *)
Definition minimises (n : nat) (dom : vec -> Prop) (F : vec -> R) (q : vec) : Prop :=
  length q = n /\ dom q /\ forall z, length z = n -> dom z -> F q <= F z.
