(** The hypotheses under which the complex proximal gradient solvers are analysed. *)
From Coq Require Import List Arith Reals.
From Verif Require Import Scalar Vec RVec LopSpec SolverSpec CxSpec CxModel.
Local Open Scope R_scope.
(** A and its adjoint on C^n -> C^m, a unitary basis B, step sizes at most 1 / |A|^2, a convex
    regulariser f whose proximal map with parameter [step] is what the threshold function computes
    at every iteration *)
Definition cprox_gradient_setting (n m : nat) (A B : csimple_op) (b x0 : cvec) (f : cvec -> R) (step L : R)
    (thr : nat -> cvec -> cvec) : Prop :=
  is_adjoint m n (co_times A) (co_trans A) /\ unitary_basis n (co_times B) (co_trans B) /\
  length b = m /\ length x0 = n /\ 0 < step /\ step * L <= 1 /\
  (forall x, length x = n -> cnsq (co_times A x) <= L * cnsq x) /\
  cconvex n f /\
  (forall i a, length a = n -> cunique_minimiser n (fun z => step * f z + / 2 * cnsq (vsub z a)) (thr i a)).
(** states of the solvers after k iterations *)
Definition cista_after A b x0 step thr B rtol xtol mx k (s : cista_state) : Prop :=
  reaches (cista_cond b rtol xtol mx) (cista_body A b step thr B) (cista_init A b x0) k s.
Definition cfista_after A b x0 step thr B rtol xtol mx k (s : cfista_state) : Prop :=
  reaches (cfista_cond b rtol xtol mx) (cfista_body A b step thr B) (cfista_init A b x0) k s.
