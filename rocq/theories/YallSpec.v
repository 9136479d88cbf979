(** Vocabulary for the l1 problems solved by YALL1. *)
From Coq Require Import List Arith Bool Reals.
From Verif Require Import Vec RVec SolverSpec YallModel.
Local Open Scope R_scope.

(** weighted l1 norm *)
Definition wnorm (w x : vec) : R := nrm1 (rmul w x).
(** candidates: all vectors of length n, or those with non-negative entries *)
Definition candidate (n : nat) (nonneg : bool) (x : vec) : Prop :=
  length x = n /\ (nonneg = true -> forall i, (i < n)%nat -> 0 <= x@i).
(** x solves the problem: minimise |w x|_1 subject to A x = b;  |w x|_1 + 1/(2 rho) |A x - b|^2;
    |w x|_1 subject to |A x - b| <= delta *)
Definition yall_feasible (A : vec -> vec) (b : vec) (p : yall_problem) (x : vec) : Prop :=
  match p with BP => A x = b | L1L2 _ => True | L1L2con delta => nrm (rsub b (A x)) <= delta end.
Definition yall_value (A : vec -> vec) (b w : vec) (p : yall_problem) (x : vec) : R :=
  match p with L1L2 rho => wnorm w x + / (2 * rho) * nrm2 (rsub b (A x)) | _ => wnorm w x end.
Definition yall_solves (n : nat) (A : vec -> vec) (b w : vec) (nonneg : bool) (p : yall_problem) (x : vec) : Prop :=
  candidate n nonneg x /\ yall_feasible A b p x /\
  forall v, candidate n nonneg v -> yall_feasible A b p v -> yall_value A b w p x <= yall_value A b w p v.
(** the dual variable lies in its box |z_i| <= w_i, or z_i <= w_i *)
Definition in_dual_set (n : nat) (nonneg : bool) (w z : vec) : Prop :=
  length z = n /\ forall i, (i < n)%nat -> if nonneg then z@i <= w@i else Rabs (z@i) <= w@i.
(** optimality conditions for x with the dual certificate y *)
Definition yall_kkt (n m : nat) (A T : vec -> vec) (b w : vec) (nonneg : bool) (p : yall_problem) (x y : vec) : Prop :=
  length x = n /\ length y = m /\ in_dual_set n nonneg w (T y) /\
  (forall v, in_dual_set n nonneg w v -> rdot x v <= rdot x (T y)) /\
  match p with
  | BP => A x = b
  | L1L2 rho => A x = rsub b (rscale rho y)
  | L1L2con delta => nrm (rsub b (A x)) <= delta /\ rdot (rsub b (A x)) y = delta * nrm y
  end.
(** the rows of A are orthonormal: A A^T = I *)
Definition orthonormal_rows (m : nat) (A T : vec -> vec) : Prop := forall y, length y = m -> A (T y) = y.

(** parameters of the problem are positive *)
Definition problem_ok (p : yall_problem) : Prop :=
  match p with BP => True | L1L2 rho => 0 < rho | L1L2con delta => 0 < delta end.
(** the problem for data divided by c *)
Definition scale_problem (c : R) (p : yall_problem) : yall_problem :=
  match p with BP => BP | L1L2 rho => L1L2 (rho / c) | L1L2con delta => L1L2con (delta / c) end.
(** k iterations, without the stopping test *)
Fixpoint ya_iterate (step : yall_state -> option yall_state) (k : nat) (s : yall_state) : option yall_state :=
  match k with O => Some s | S k => match ya_iterate step k s with None => None | Some s => step s end end.
