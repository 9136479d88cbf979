(** Property C39: LSQR. *)
From Coq Require Import List Arith Reals.
From Verif Require Import Vec RVec RMat Loop OptModel SolverSpec SolverLemmas SlsModel SlsSpec SlsLemmas LsqrModel LsqrSpec LsqrProofs LsqrLemmas LsqrMinNorm.
Import ListNotations.
Local Open Scope R_scope.

(** ** C39: LSQR *)
(** after every iteration the maintained norms are those of the iterate itself, and the counters are exact *)
Theorem C39_every_iterate n m A b x0 damp atol btol conlim max_iters k s :
  adjoint_ops n m (so_times A) (so_trans A) -> length b = m -> length x0 = n ->
  lsqr_after A b x0 damp atol btol conlim max_iters k s ->
  lq_r_norm s = sqrt (damped_objective A b x0 damp (lq_x s)) /\
  lq_atr_norm s = nrm (damped_descent A b x0 damp (lq_x s)) /\
  ((0 < k)%nat -> lq_x_norm s = nrm (rsub (lq_x s) x0)) /\
  lq_it s = S k /\ lq_n_times s = S k /\ lq_n_trans s = S k.
Proof. exact (fun HA Hb Hx => @lsqr_state_facts n m A b x0 damp atol btol conlim max_iters HA Hb Hx k s). Qed.
Print Assumptions C39_every_iterate.
Theorem C39_result n m A b x0 damp atol btol conlim max_iters fuel s :
  adjoint_ops n m (so_times A) (so_trans A) -> length b = m -> length x0 = n ->
  lsqr A b x0 damp atol btol conlim max_iters fuel = Done s ->
  lq_r_norm s = sqrt (damped_objective A b x0 damp (lq_x s)) /\
  lq_atr_norm s = nrm (damped_descent A b x0 damp (lq_x s)) /\
  ((1 < lq_it s)%nat -> lq_x_norm s = nrm (rsub (lq_x s) x0)) /\
  lq_n_times s = lq_it s /\ lq_n_trans s = lq_it s /\
  (lq_it s <= Nat.max 1 max_iters)%nat /\ (lq_it s <= Nat.min m n + 1)%nat.
Proof. exact (fun HA Hb Hx => @lsqr_final n m A b x0 damp atol btol conlim max_iters HA Hb Hx fuel s). Qed.
Print Assumptions C39_result.
(** without damping the returned r_norm is the norm of b - A x for the returned x *)
Theorem C39_residual_norm n m A b x0 atol btol conlim max_iters fuel s :
  adjoint_ops n m (so_times A) (so_trans A) -> length b = m -> length x0 = n ->
  lsqr A b x0 0 atol btol conlim max_iters fuel = Done s ->
  lq_r_norm s = nrm (rsub b (so_times A (lq_x s))).
Proof.
  exact (fun HA Hb Hx H => @lsqr_no_damp A b x0 0 s eq_refl
    (proj1 (@lsqr_final n m A b x0 0 atol btol conlim max_iters HA Hb Hx fuel s H))).
Qed.
Print Assumptions C39_residual_norm.
(** the bidiagonalisation vectors of two different iterations are orthogonal, those of all but the last have unit length *)
Theorem C39_orthonormal n m A b x0 damp atol btol conlim max_iters i j si sj :
  adjoint_ops n m (so_times A) (so_trans A) -> length b = m -> length x0 = n -> (i < j)%nat ->
  lsqr_after A b x0 damp atol btol conlim max_iters i si -> lsqr_after A b x0 damp atol btol conlim max_iters j sj ->
  nrm2 (lq_u si) = 1 /\ nrm2 (lq_v si) = 1 /\ rdot (lq_u si) (lq_u sj) = 0 /\ rdot (lq_v si) (lq_v sj) = 0.
Proof. exact (fun HA Hb Hx => @lsqr_gk n m A b x0 damp atol btol conlim max_iters HA Hb Hx i j si sj). Qed.
Print Assumptions C39_orthonormal.
(** the k-th iterate minimises the damped objective over x0 plus the k-th Krylov space *)
Theorem C39_krylov_optimal n m A b x0 damp atol btol conlim max_iters k s d :
  adjoint_ops n m (so_times A) (so_trans A) -> length b = m -> length x0 = n ->
  lsqr_after A b x0 damp atol btol conlim max_iters k s ->
  in_span n (krylov (fun z => so_trans A (so_times A z)) (so_trans A (rsub b (so_times A x0))) k) d -> length d = n ->
  damped_objective A b x0 damp (lq_x s) <= damped_objective A b x0 damp (radd x0 d).
Proof. exact (fun HA Hb Hx => @lsqr_krylov n m A b x0 damp atol btol conlim max_iters HA Hb Hx k s d). Qed.
Print Assumptions C39_krylov_optimal.
(** no division by zero is reached, and the loop ends within min(m, n) iterations whatever the tolerances *)
Theorem C39_ends n m A b x0 damp atol btol conlim max_iters fuel :
  adjoint_ops n m (so_times A) (so_trans A) -> length b = m -> length x0 = n ->
  (Nat.min max_iters (Nat.min m n) <= fuel)%nat ->
  exists s, lsqr A b x0 damp atol btol conlim max_iters fuel = Done s.
Proof. exact (fun HA Hb Hx => @lsqr_total n m A b x0 damp atol btol conlim max_iters HA Hb Hx fuel). Qed.
Print Assumptions C39_ends.
Theorem C39_residual_nonincreasing n m A b x0 damp atol btol conlim max_iters k s s' :
  adjoint_ops n m (so_times A) (so_trans A) -> length b = m -> length x0 = n ->
  lsqr_after A b x0 damp atol btol conlim max_iters k s -> lsqr_after A b x0 damp atol btol conlim max_iters (S k) s' ->
  damped_objective A b x0 damp (lq_x s') <= damped_objective A b x0 damp (lq_x s).
Proof. exact (fun HA Hb Hx => @lsqr_nonincreasing n m A b x0 damp atol btol conlim max_iters HA Hb Hx k s s'). Qed.
Print Assumptions C39_residual_nonincreasing.
(** what holds when the loop stops *)
Theorem C39_stopping n m A b x0 damp atol btol conlim max_iters fuel s :
  adjoint_ops n m (so_times A) (so_trans A) -> length b = m -> length x0 = n ->
  lsqr A b x0 damp atol btol conlim max_iters fuel = Done s ->
  (max_iters <= lq_it s)%nat \/ damped_objective A b x0 damp (lq_x s) <= 0 \/ nrm (damped_descent A b x0 damp (lq_x s)) <= 0 \/
  (conlim <> 0 /\ 1 <= 1 / conlim * lq_A_cond s) \/
  nrm (damped_descent A b x0 damp (lq_x s)) <= atol * nrm (damped_descent A b x0 damp x0) \/
  sqrt (damped_objective A b x0 damp (lq_x s)) <= btol * sqrt (damped_objective A b x0 damp x0) + atol * lq_A_norm s * lq_x_norm s.
Proof. exact (fun HA Hb Hx => @lsqr_stop n m A b x0 damp atol btol conlim max_iters HA Hb Hx fuel s). Qed.
Print Assumptions C39_stopping.
(** with zero tolerances and enough iterations the result solves the (damped) least squares problem *)
Theorem C39_solves n m A b x0 damp max_iters fuel s z :
  adjoint_ops n m (so_times A) (so_trans A) -> length b = m -> length x0 = n ->
  (Nat.min m n + 1 < max_iters)%nat -> length z = n ->
  lsqr A b x0 damp 0 0 0 max_iters fuel = Done s ->
  damped_objective A b x0 damp (lq_x s) <= damped_objective A b x0 damp z.
Proof. exact (fun HA Hb Hx => @lsqr_solves n m A b x0 damp 0 0 0 max_iters HA Hb Hx fuel s z eq_refl eq_refl eq_refl). Qed.
Print Assumptions C39_solves.
(** with a nonzero starting point the returned x_norm is not the norm of the returned x *)
Theorem C39_x_norm_refuted :
  exists s, lsqr identity_op [2] [1] 0 0 0 0 2 1 = Done s /\ lq_x s = [2] /\ lq_x_norm s <> nrm (lq_x s).
Proof. exact lsqr_xnorm_wrong. Qed.
Print Assumptions C39_x_norm_refuted.
Example C39_hyps : adjoint_ops 2 2 (so_times (SimpleOp (mv A22) (mtv 2 A22))) (so_trans (SimpleOp (mv A22) (mtv 2 A22))).
Proof. exact A22_op. Qed.
(** started from zero with zero tolerances and enough iterations, LSQR returns the least squares solution of least norm *)
Theorem C39_minimum_norm n m A b max_iters fuel s z :
  adjoint_ops n m (so_times A) (so_trans A) -> length b = m -> (Nat.min m n + 1 < max_iters)%nat ->
  lsqr A b (rzero n) 0 0 0 0 max_iters fuel = Done s -> length z = n ->
  nrm2 (rsub b (so_times A (lq_x s))) <= nrm2 (rsub b (so_times A z)) /\
  (nrm2 (rsub b (so_times A z)) = nrm2 (rsub b (so_times A (lq_x s))) -> nrm2 (lq_x s) <= nrm2 z).
Proof.
  exact (fun HA Hb Hm H Lz => conj (@ls_opt n m A b max_iters fuel s HA Hb Hm H z Lz) (@ls_min_norm n m A b max_iters fuel s HA Hb Hm H z Lz)).
Qed.
Print Assumptions C39_minimum_norm.
