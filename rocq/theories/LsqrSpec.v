(** Vocabulary for LSQR. *)
From Coq Require Import List Arith Reals.
From Verif Require Import Vec RVec SolverSpec SlsModel LsqrModel.
Local Open Scope R_scope.
(** the damped least squares objective minimised by LSQR started at x0 *)
Definition damped_objective (A : simple_op) (b x0 : vec) (damp : R) (x : vec) : R :=
  nrm2 (rsub b (so_times A x)) + damp * damp * nrm2 (rsub x x0).
(** half the negative gradient of that objective *)
Definition damped_descent (A : simple_op) (b x0 : vec) (damp : R) (x : vec) : vec :=
  rsub (so_trans A (rsub b (so_times A x))) (rscale (damp * damp) (rsub x x0)).
(** the state after k iterations of the LSQR loop *)
Definition lsqr_after A b x0 damp atol btol conlim mx k (s : lsqr_state) : Prop :=
  reaches (lsqr_cond A b x0 atol btol conlim mx) (lsqr_body A damp) (lsqr_init A b x0) k s.
