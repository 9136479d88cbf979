(** Vocabulary for the recovery guarantees of CoSaMP and subspace pursuit. *)
From Coq Require Import List Arith Reals.
From Verif Require Import Vec RVec SolverSpec SelSpec PursuitModel PursuitSpec.
Import ListNotations.
Local Open Scope R_scope.

(** at least q atoms outside the support still correlate with the residual *)
Definition correlates (D : dictionary) (q : nat) (s : ps) : Prop :=
  exists J, NoDup J /\ length J = q /\
    forall j, In j J -> (j < d_n D)%nat /\ ~ In j (p_I s) /\ rdot (d_atom D j) (p_r s) <> 0.
(** the dense solution of a state differs from x by at most eps in norm *)
Definition within (n : nat) (s : ps) (x : vec) (eps : R) : Prop := nrm (rsub (solution_x n s) x) <= eps.
(** contraction factors and noise amplification of one iteration, as functions of the
    restricted isometry constant *)
Definition cosamp_rate (delta : R) : R := 2 * sqrt 2 * delta / (1 - delta).
Definition cosamp_gain (delta : R) : R := 2 * (sqrt 2 + 1) * sqrt (1 + delta) / (1 - delta).
Definition sp_rate (delta : R) : R := 2 * sqrt 2 * delta / (1 - delta) ^ 2.
Definition sp_gain (delta : R) : R := (2 * sqrt 2 + 3 - delta) * sqrt (1 + delta) / (1 - delta) ^ 2.
(** error of the first least squares estimate *)
Definition first_error (delta : R) (x e : vec) : R :=
  (sqrt 2 * delta * nrm x + (sqrt 2 + 1) * sqrt (1 + delta) * nrm e) / (1 - delta).
