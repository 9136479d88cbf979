(** Condition numbers. *)
From Coq Require Import List Arith Reals.
From Verif Require Import RVec.
Local Open Scope R_scope.

(** the factor (sqrt kappa - 1) / (sqrt kappa + 1) for the condition number kappa = L / mu *)
Definition cond_rate (mu L : R) : R := (sqrt L - sqrt mu) / (sqrt L + sqrt mu).
(** the norm sqrt(x^T A x) *)
Definition energy_norm (A : vec -> vec) (x : vec) : R := sqrt (rdot x (A x)).
