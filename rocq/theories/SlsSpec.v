(** Vocabulary for the proximal gradient and power iteration statements. *)
From Coq Require Import List Arith Reals.
From Verif Require Import Vec RVec OptSpec SolverSpec SlsModel.
Local Open Scope R_scope.
(** the hypotheses under which ISTA and FISTA are analysed: A and its adjoint
    on R^n -> R^m, an orthonormal basis B, step sizes at most 1 / |A|^2, a
    convex regulariser f whose proximal map with parameter [step] is what the
    threshold function computes at every iteration *)
Definition prox_gradient_setting (n m : nat) (A B : simple_op) (b x0 : vec) (f : vec -> R) (step L : R)
    (thr : nat -> vec -> vec) : Prop :=
  adjoint_ops n m (so_times A) (so_trans A) /\ orthonormal_basis n (so_times B) (so_trans B) /\
  length b = m /\ length x0 = n /\ 0 < step /\ step * L <= 1 /\
  (forall x, length x = n -> nrm2 (so_times A x) <= L * nrm2 x) /\
  convex n f /\
  (forall i a, length a = n -> unique_minimiser n everywhere (prox_obj f step a) (thr i a)).
(** states of the three solvers after k iterations *)
Definition ista_after A b x0 step thr B rtol xtol mx k (s : ista_state) : Prop :=
  reaches (ista_cond b rtol xtol mx) (ista_body A b step thr B) (ista_init A b x0) k s.
Definition fista_after A b x0 step thr B rtol xtol mx k (s : fista_state) : Prop :=
  reaches (fista_cond b rtol xtol mx) (fista_body A b step thr B) (fista_init A b x0) k s.
Definition power_after A b mx tol k (s : power_state) : Prop :=
  reaches (power_cond mx tol) (power_body A) (power_init b) k s.
