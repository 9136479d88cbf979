(** Vocabulary for recovery of sparse vectors by l1 minimisation. *)
From Coq Require Import List Arith Reals.
From Verif Require Import Vec RVec SolverSpec SelSpec.
Import ListNotations.
Local Open Scope R_scope.

(** the j-th coordinate vector of R^n *)
Definition coordinate (n j : nat) : vec := tab n (fun i => if Nat.eqb i j then 1 else 0).
(** the columns A e_j all have norm s and the cosine of the angle between any two of them
    is at most mu in absolute value *)
Definition incoherent (n : nat) (A : vec -> vec) (s mu : R) : Prop :=
  (forall i, (i < n)%nat -> nrm (A (coordinate n i)) = s) /\
  forall i j, (i < n)%nat -> (j < n)%nat -> i <> j -> Rabs (rdot (A (coordinate n i)) (A (coordinate n j))) <= mu * (s * s).
(** x is within sigma (in the l1 norm) of a vector with at most K nonzero entries *)
Definition nearly_sparse (K : nat) (sigma : R) (x : vec) : Prop :=
  exists xk, length xk = length x /\ sparse K xk /\ nrm1 (rsub x xk) <= sigma.
(** bound on |z - x|_1 when |z|_1 <= |x|_1 + eps and |A (z - x)| <= eta *)
Definition constrained_error (K : nat) (s mu sigma eta eps : R) : R :=
  (2 * INR K * (eta / s) + (1 + mu) * (eps + 2 * sigma)) / (1 - (2 * INR K - 1) * mu).
(** bound on |z - x|_1 when z is within gap of the least value of 1/2 |A z - b|^2 + lambda |z|_1 *)
Definition penalised_error (K : nat) (s mu sigma lambda gap : R) : R :=
  5 * (4 * sigma + 2 * gap / lambda) + 20 * lambda * INR K / (s * s * (1 - (25 * INR K - 1) * mu)).
(** A : R^n -> R^m with adjoint T has incoherent columns and x is a vector of R^n *)
Definition measures (n m : nat) (A T : vec -> vec) (s mu : R) (x : vec) : Prop :=
  adjoint_ops n m A T /\ incoherent n A s mu /\ 0 <= mu /\ 0 < s /\ length x = n.
