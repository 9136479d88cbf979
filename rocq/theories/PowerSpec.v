(** Vocabulary for the convergence of power iterations and of the norm estimate. *)
From Coq Require Import List Reals.
From Verif Require Import Scalar Vec RVec SolverSpec LopOpSpec LopModel.
Local Open Scope R_scope.

(** v is a unit eigenvector of the symmetric operator A for the eigenvalue lam, and on
    the orthogonal complement of v the operator stretches by at most mu < |lam| *)
Definition dominant (n : nat) (A : vec -> vec) (lam mu : R) (v : vec) : Prop :=
  linear_op n n A /\ symmetric_op n A /\ length v = n /\ nrm2 v = 1 /\ A v = rscale lam v /\ 0 <= mu < Rabs lam /\
  forall x, length x = n -> rdot x v = 0 -> nrm2 (A x) <= mu ^ 2 * nrm2 x.
(** the squared tangent of the angle between x and the line through the unit vector v *)
Definition tan2 (v x : vec) : R := (nrm2 x - rdot x v ^ 2) / rdot x v ^ 2.
(** v is a unit right singular vector of the operator A for the singular value sg, and on
    the orthogonal complement of v the operator stretches by at most tau < sg *)
Definition leading (A : operator Rs) (sg tau : R) (v : vec) : Prop :=
  adj A /\ length v = on A /\ nrm2 v = 1 /\ trans A (times A v) = rscale (sg ^ 2) v /\ 0 <= tau < sg /\
  forall x, length x = on A -> rdot x v = 0 -> nrm2 (times A x) <= tau ^ 2 * nrm2 x.
