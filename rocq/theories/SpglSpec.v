(** Vocabulary for l1-constrained least squares and basis pursuit denoising. *)
From Coq Require Import List Arith Reals.
From Verif Require Import Vec RVec SpglModel.
Local Open Scope R_scope.

(** half the squared residual norm *)
Definition misfit (A : vec -> vec) (b x : vec) : R := / 2 * nrm2 (rsub b (A x)).
(** x solves: minimise the misfit over the l1 ball of radius tau *)
Definition lasso_solution (n : nat) (A : vec -> vec) (b : vec) (tau : R) (x : vec) : Prop :=
  length x = n /\ nrm1 x <= tau /\ forall z, length z = n -> nrm1 z <= tau -> misfit A b x <= misfit A b z.
(** z fits the data within sigma *)
Definition fits (n : nat) (A : vec -> vec) (b : vec) (sigma : R) (z : vec) : Prop :=
  length z = n /\ nrm (rsub b (A z)) <= sigma.
(** the figures reported in state s are those of the point x with radius tau: residual
    norm, relative duality gap, relative errors of the residual norm and the misfit *)
Definition figures_of (A T : vec -> vec) (b : vec) (sigma : R) (s : bp_state) (x : vec) (tau : R) : Prop :=
  let r := rsub b (A x) in
  bp_r_norm s = nrm r /\
  bp_r_gap s = Rabs (rdot r (rsub r b) + tau * nrminf (T r)) / Rmax 1 (misfit A b x) /\
  bp_r_res_error s = Rabs (nrm r - sigma) / Rmax 1 (nrm r) /\
  bp_r_f_error s = Rabs (misfit A b x - sigma ^ 2 / 2) / Rmax 1 (misfit A b x).
