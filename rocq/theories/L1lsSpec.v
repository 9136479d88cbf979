(** Vocabulary for l1-regularised least squares and its logarithmic barrier. *)
From Coq Require Import List Arith Reals.
From Verif Require Import Vec RVec.
Local Open Scope R_scope.

(** |A x - y|^2 + lambda |x|_1 *)
Definition l1ls_obj (A : vec -> vec) (y : vec) (lambda : R) (x : vec) : R := nrm2 (rsub (A x) y) + lambda * nrm1 x.
(** |x_i| < u_i for all i *)
Definition strictly_inside (n : nat) (x u : vec) : Prop :=
  length x = n /\ length u = n /\ forall i, (i < n)%nat -> Rabs (x@i) < u@i.
(** |A x - y|^2 + lambda sum u_i - (1/t) sum (ln (u_i + x_i) + ln (u_i - x_i)) *)
Definition barrier (n : nat) (A : vec -> vec) (y : vec) (lambda t : R) (x u : vec) : R :=
  nrm2 (rsub (A x) y) + lambda * rsum n (fun i => u@i) - / t * rsum n (fun i => ln (u@i + x@i) + ln (u@i - x@i)).
