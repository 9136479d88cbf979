(** The state of a conjugate gradient run after k iterations. *)
From Coq Require Import Reals.
From Verif Require Import RVec RMat Loop SolverSpec CGModel.
Definition cg_after (A : mat) (b x0 : vec) (max_iters : option nat) (rtol : R) (k : nat) (s : cg_state) : Prop :=
  reaches (cg_cond (cg_max_rn2 b rtol) (cg_limit A max_iters)) (cg_iteration A) (cg_init A b x0) k s.
Definition pcg_after (A : vec -> vec) (b x0 : vec) (max_iters : nat) (tol atol : R) (M : option (vec -> vec)) (k : nat) (s : pcg_state) : Prop :=
  reaches (pcg_cond (pcg_is_id M) (pcg_max_gamma b tol atol) max_iters) (pcg_body A (pcg_M M)) (pcg_init A (pcg_M M) b x0) k s.
