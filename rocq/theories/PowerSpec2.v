(** Vocabulary for power iterations on any positive semidefinite operator. *)
From Coq Require Import List Reals.
From Verif Require Import RVec.
Local Open Scope R_scope.

(** lam is the largest eigenvalue of H with an eigenvector that is not orthogonal to b *)
Definition seen (n : nat) (H : vec -> vec) (b : vec) (lam : R) : Prop :=
  (exists u, length u = n /\ H u = rscale lam u /\ rdot b u <> 0) /\
  forall lam' u, lam < lam' -> length u = n -> H u = rscale lam' u -> rdot b u = 0.
