(** Properties C37, C38 and C40: ISTA, FISTA and power iterations. *)
From Coq Require Import List Arith Reals.
From Verif Require Import Vec RVec RMat Loop OptSpec OptModel SolverSpec SolverLemmas SlsModel SlsSpec SlsProofs SlsLemmas.
Import ListNotations.
Local Open Scope R_scope.

(** ** C37: ISTA *)
Theorem C37_residual A b x0 step thr B rtol xtol max_iters k s :
  ista_after A b x0 step thr B rtol xtol max_iters k s ->
  is_r s = rsub b (so_times A (is_x s)) /\ is_rn2 s = nrm2 (rsub b (so_times A (is_x s))) /\ is_it s = k.
Proof. exact (@ista_every A B b x0 step rtol xtol thr max_iters k s). Qed.
Print Assumptions C37_residual.
Theorem C37_exit A b x0 step thr B rtol xtol max_iters fuel s :
  ista A b x0 step thr B rtol xtol max_iters fuel = Done s ->
  is_r s = rsub b (so_times A (is_x s)) /\ is_rn2 s = nrm2 (rsub b (so_times A (is_x s))) /\ (is_it s <= max_iters)%nat /\
  (is_it s = max_iters \/ is_change s <= xtol \/ nrm2 (rsub b (so_times A (is_x s))) <= rtol * rtol * nrm2 b).
Proof. exact (@ista_exit A B b x0 step rtol xtol thr max_iters fuel s). Qed.
Print Assumptions C37_exit.
Theorem C37_ends A b x0 step thr B rtol xtol max_iters fuel : (max_iters <= fuel)%nat ->
  exists s, ista A b x0 step thr B rtol xtol max_iters fuel = Done s.
Proof. exact (@ista_total A B b x0 step rtol xtol thr max_iters fuel). Qed.
Print Assumptions C37_ends.
Theorem C37_objective_decreases n m A B b x0 f step L thr rtol xtol max_iters k s s' :
  prox_gradient_setting n m A B b x0 f step L thr ->
  ista_after A b x0 step thr B rtol xtol max_iters k s -> ista_after A b x0 step thr B rtol xtol max_iters (S k) s' ->
  reg_objective (so_times A) (so_trans B) b f (is_x s') <=
  reg_objective (so_times A) (so_trans B) b f (is_x s) - nrm2 (rsub (is_x s') (is_x s)) / (2 * step).
Proof. exact (fun H => @set_ista_mono n m A B b x0 f step L thr rtol xtol max_iters H k s s'). Qed.
Print Assumptions C37_objective_decreases.
Theorem C37_rate n m A B b x0 f step L thr rtol xtol max_iters z k s :
  prox_gradient_setting n m A B b x0 f step L thr -> length z = n -> (0 < k)%nat ->
  ista_after A b x0 step thr B rtol xtol max_iters k s ->
  reg_objective (so_times A) (so_trans B) b f (is_x s) - reg_objective (so_times A) (so_trans B) b f z
    <= nrm2 (rsub x0 z) / (2 * step * INR k).
Proof. exact (fun H => @set_ista_rate n m A B b x0 f step L thr rtol xtol max_iters H z k s). Qed.
Print Assumptions C37_rate.
Theorem C37_fixed_point_optimal n m A B b x0 f step L thr rtol xtol max_iters k s z :
  prox_gradient_setting n m A B b x0 f step L thr ->
  ista_after A b x0 step thr B rtol xtol max_iters (S k) s -> is_change s = 0 -> length z = n ->
  reg_objective (so_times A) (so_trans B) b f (is_x s) <= reg_objective (so_times A) (so_trans B) b f z.
Proof. exact (fun H => @set_ista_fixed n m A B b x0 f step L thr rtol xtol max_iters H k s z). Qed.
Print Assumptions C37_fixed_point_optimal.
(** soft thresholding meets the hypotheses with f = lambda * |.|_1 *)
Theorem C37_soft_threshold n m A B b x0 lambda step L :
  adjoint_ops n m (so_times A) (so_trans A) -> orthonormal_basis n (so_times B) (so_trans B) -> length b = m -> length x0 = n ->
  0 <= lambda -> 0 < step -> step * L <= 1 -> (forall x, length x = n -> nrm2 (so_times A x) <= L * nrm2 x) ->
  prox_gradient_setting n m A B b x0 (fun z => lambda * nrm1 z) step L (fun _ a => soft_threshold a (step * lambda)).
Proof. exact (@soft_setting n m A B b x0 lambda step L). Qed.
Print Assumptions C37_soft_threshold.
Example C37_hyps : prox_gradient_setting 2 2 (SimpleOp (mv A22) (mtv 2 A22)) identity_op [3; 3] [0; 0]
  (fun z => / 2 * nrm1 z) (/ 10) 10 (fun _ a => soft_threshold a (/ 10 * / 2)).
Proof. exact A22_setting. Qed.

(** ** C38: FISTA *)
Theorem C38_state A b x0 step thr B rtol xtol max_iters k s :
  fista_after A b x0 step thr B rtol xtol max_iters k s ->
  fs_r s = rsub b (so_times A (fs_z s)) /\ fs_rn2 s = nrm2 (rsub b (so_times A (fs_z s))) /\ fs_it s = k /\
  (INR k + 2) / 2 <= fs_t s.
Proof. exact (@fista_every A B b x0 step rtol xtol thr max_iters k s). Qed.
Print Assumptions C38_state.
Theorem C38_momentum_nondecreasing A b x0 step thr B rtol xtol max_iters k s s' :
  fista_after A b x0 step thr B rtol xtol max_iters k s -> fista_body A b step thr B s = Some s' -> fs_t s <= fs_t s'.
Proof. exact (@fista_t_mono A B b x0 step rtol xtol thr max_iters k s s'). Qed.
Print Assumptions C38_momentum_nondecreasing.
Theorem C38_exit A b x0 step thr B rtol xtol max_iters fuel s :
  fista A b x0 step thr B rtol xtol max_iters fuel = Done s ->
  fs_r s = rsub b (so_times A (fs_z s)) /\ fs_rn2 s = nrm2 (rsub b (so_times A (fs_z s))) /\ (fs_it s <= max_iters)%nat /\
  (fs_it s = max_iters \/ fs_change s <= xtol \/ nrm2 (rsub b (so_times A (fs_z s))) <= rtol * rtol * nrm2 b).
Proof. exact (@fista_exit A B b x0 step rtol xtol thr max_iters fuel s). Qed.
Print Assumptions C38_exit.
Theorem C38_ends A b x0 step thr B rtol xtol max_iters fuel : (max_iters <= fuel)%nat ->
  exists s, fista A b x0 step thr B rtol xtol max_iters fuel = Done s.
Proof. exact (@fista_total A B b x0 step rtol xtol thr max_iters fuel). Qed.
Print Assumptions C38_ends.
Theorem C38_rate n m A B b x0 f step L thr rtol xtol max_iters z k s :
  prox_gradient_setting n m A B b x0 f step L thr -> length z = n -> (0 < k)%nat ->
  fista_after A b x0 step thr B rtol xtol max_iters k s ->
  reg_objective (so_times A) (so_trans B) b f (fs_x s) - reg_objective (so_times A) (so_trans B) b f z
    <= 2 * nrm2 (rsub x0 z) / (step * ((INR k + 1) * (INR k + 1))).
Proof. exact (fun H => @set_fista_rate n m A B b x0 f step L thr rtol xtol max_iters H z k s). Qed.
Print Assumptions C38_rate.
(** the returned residual is that of the extrapolated point z, not of x *)
Theorem C38_residual_of_x_refuted : exists s,
  fista identity_op [1] [0] (/ 2) (fun _ a => a) identity_op 0 0 2 2 = Done s /\
  fs_r s <> rsub [1] (so_times identity_op (fs_x s)).
Proof. exact fista_residual_wrong. Qed.
Print Assumptions C38_residual_of_x_refuted.
Example C38_hyps : prox_gradient_setting 2 2 (SimpleOp (mv A22) (mtv 2 A22)) identity_op [3; 3] [0; 0]
  (fun z => / 2 * nrm1 z) (/ 10) 10 (fun _ a => soft_threshold a (/ 10 * / 2)).
Proof. exact A22_setting. Qed.

(** ** C40: power iterations *)
Theorem C40_rayleigh n A b max_iters tol fuel sol : linear_op n n A -> length b = n ->
  power_iterations A b max_iters tol fuel = Done sol ->
  nrm (ps_v sol) = 1 /\ length (ps_v sol) = n /\ (ps_it sol <= max_iters)%nat /\
  ((0 < ps_it sol)%nat -> exists u, length u = n /\ nrm2 u = 1 /\ ps_s sol = rdot u (A u) /\ ps_v sol = rscale (/ nrm (A u)) (A u)).
Proof. exact (fun H1 H2 => @power_final n A b max_iters tol H1 H2 fuel sol). Qed.
Print Assumptions C40_rayleigh.
Theorem C40_upper_bound n A b max_iters tol fuel sol L : linear_op n n A -> length b = n ->
  (forall x, length x = n -> rdot x (A x) <= L * nrm2 x) ->
  power_iterations A b max_iters tol fuel = Done sol -> (0 < ps_it sol)%nat -> ps_s sol <= L.
Proof.
  intros H1 H2 HL H Hk. destruct (proj2 (proj2 (proj2 (@power_final n A b max_iters tol H1 H2 fuel sol H))) Hk) as [u [Lu [Nu [-> _]]]].
  specialize (HL u Lu). rewrite Nu, Rmult_1_r in HL. exact HL.
Qed.
Print Assumptions C40_upper_bound.
Theorem C40_estimates_nondecreasing n A b max_iters tol k s s' : linear_op n n A -> length b = n ->
  symmetric_op n A -> psd_op n A -> power_after A b max_iters tol (S k) s -> power_body A s = Some s' -> pw_new s <= pw_new s'.
Proof. exact (fun H1 H2 H3 H4 => @power_mono n A b max_iters tol H1 H2 H3 H4 k s s'). Qed.
Print Assumptions C40_estimates_nondecreasing.
Theorem C40_norms_nondecreasing n A b max_iters tol k s s' : linear_op n n A -> length b = n ->
  symmetric_op n A -> power_after A b max_iters tol (S k) s -> power_body A s = Some s' -> nrm (pw_v s) <= nrm (pw_v s').
Proof. exact (fun H1 H2 H3 => @power_norm_mono n A b max_iters tol H1 H2 H3 k s s'). Qed.
Print Assumptions C40_norms_nondecreasing.
Theorem C40_ends n A b max_iters tol fuel : linear_op n n A -> length b = n ->
  (forall x, length x = n -> x <> rzero n -> A x <> rzero n) -> b <> rzero n -> (max_iters <= fuel)%nat ->
  exists sol, power_iterations A b max_iters tol fuel = Done sol.
Proof. exact (fun H1 H2 => @power_total n A b max_iters tol H1 H2 fuel). Qed.
Print Assumptions C40_ends.
(** a run stopped by the tolerance: the last two estimates, the Rayleigh quotients of two
    successive unit vectors, differ relatively by at most tol *)
Theorem C40_stopping n A b max_iters tol fuel sol : linear_op n n A -> length b = n ->
  power_iterations A b max_iters tol fuel = Done sol -> (2 <= ps_it sol < max_iters)%nat ->
  exists u1 u2, length u1 = n /\ nrm2 u1 = 1 /\ u2 = rscale (/ nrm (A u1)) (A u1) /\ nrm2 u2 = 1 /\
    ps_s sol = rdot u2 (A u2) /\ Rabs (rdot u2 (A u2) - rdot u1 (A u1)) <= tol * Rabs (rdot u1 (A u1)).
Proof. exact (fun H1 H2 => @power_stop n A b max_iters tol H1 H2 fuel sol). Qed.
Print Assumptions C40_stopping.
(** without any iteration the estimate is the placeholder 1e20 *)
Theorem C40_no_iterations_refuted : exists A b sol, linear_op 1 1 A /\ symmetric_op 1 A /\ psd_op 1 A /\ length b = 1%nat /\
  (forall x, length x = 1%nat -> rdot x (A x) <= 1 * nrm2 x) /\
  power_iterations A b 0 0 1 = Done sol /\ 1 < ps_s sol.
Proof. exact power_zero_wrong. Qed.
Print Assumptions C40_no_iterations_refuted.
(** the zero operator has no result: the normalisation divides by zero *)
Theorem C40_zero_operator_refuted n b max_iters tol fuel : length b = n -> (0 < max_iters)%nat -> tol < 2 ->
  power_iterations (fun x => rzero (length x)) b max_iters tol (S (S fuel)) = Fail.
Proof. exact (@power_zero_operator n b max_iters tol fuel). Qed.
Print Assumptions C40_zero_operator_refuted.
(** the estimate need not be the Rayleigh quotient of the returned vector *)
Theorem C40_returned_vector_refuted : exists sol, power_iterations (mv [[3; 4]; [4; 0]]) [1; 0] 1 0 2 = Done sol /\
  nrm (ps_v sol) = 1 /\ ps_s sol <> rdot (ps_v sol) (mv [[3; 4]; [4; 0]] (ps_v sol)).
Proof. exact power_vector_wrong. Qed.
Print Assumptions C40_returned_vector_refuted.
Example C40_hyps : symmetric_op 2 (mv A22) /\ positive_op 2 (mv A22).
Proof. exact (proj2 A22_spd). Qed.
