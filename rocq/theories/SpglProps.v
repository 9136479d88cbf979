(** SPGL1 (cvx/spgl1.py): l1-constrained least squares and basis pursuit denoising.
    A is given by adjoint functions times and trans; exact arithmetic, real data. *)
From Coq Require Import List Arith Reals Lra.
From Verif Require Import Vec RVec Loop LoopLemmas SolverSpec OptModel SelModel SpglModel SpglSpec SpglProofs SpglProofs2 SpglProofs3 SpglProofs4.
Import ListNotations.
Local Open Scope R_scope.

(** *** LASSO: every state of the loop *)
(** iterates stay in the l1 ball, residual, gradient, residual norm and relative duality
    gap are those of the iterate, the step stays in its interval and n_times counts the
    products with A: one for the start and one for each line search candidate *)
Theorem C42_lasso_state n m times trans b tau opt x0 k s :
  adjoint_ops n m times trans -> length b = m -> length x0 = n -> 0 <= tau ->
  0 < go_alpha_min opt -> go_alpha_min opt <= go_alpha_max opt ->
  reaches (lasso_cond b opt) (lasso_body times trans b tau opt) (lasso_init times trans b tau opt x0) k s ->
  (length (la_x s) = n /\ nrm1 (la_x s) <= tau /\ la_r s = rsub b (times (la_x s)) /\ la_g s = ropp (trans (la_r s)) /\
   la_r_norm s = nrm (rsub b (times (la_x s))) /\
   la_r_gap s = (rdot (la_r s) (rsub (la_r s) b) + tau * nrminf (la_g s)) / Rmax 1 (misfit times b (la_x s)) /\
   go_alpha_min opt <= la_alpha_next s <= go_alpha_max opt /\
   la_n_times s = (la_iterations s + la_ls_iters s)%nat) /\ la_iterations s = S k.
Proof. exact (fun H1 H2 H3 H4 H5 H6 => @lasso_reach n m times trans b tau opt x0 H1 H2 H3 H4 H5 H6 k s). Qed.
Print Assumptions C42_lasso_state.
(** the stored objective values are those of the last iterates *)
Theorem C42_lasso_memory n m times trans b tau opt x0 k s :
  adjoint_ops n m times trans -> length b = m -> length x0 = n -> 0 <= tau ->
  0 < go_alpha_min opt -> go_alpha_min opt <= go_alpha_max opt ->
  let cond := lasso_cond b opt in let body := lasso_body times trans b tau opt in let init := lasso_init times trans b tau opt x0 in
  reaches cond body init k s ->
  la_f_past s = tab (go_memory opt) (fun i => misfit times b (la_x (traj cond body init (k - i)))).
Proof. exact (fun H1 H2 H3 H4 H5 H6 => @lasso_memory n m times trans b tau opt x0 H1 H2 H3 H4 H5 H6 k s). Qed.
Print Assumptions C42_lasso_memory.
(** every step either decreases the objective sufficiently below the largest stored
    value, or does not move, or has halved the step ten times; a step that does not move
    starts from a solution *)
Theorem C42_lasso_step n m times trans b tau opt x0 k s s' :
  adjoint_ops n m times trans -> length b = m -> length x0 = n -> 0 <= tau ->
  0 < go_alpha_min opt -> go_alpha_min opt <= go_alpha_max opt -> 0 <= go_gamma opt ->
  reaches (lasso_cond b opt) (lasso_body times trans b tau opt) (lasso_init times trans b tau opt x0) k s ->
  lasso_body times trans b tau opt s = Some s' ->
  (misfit times b (la_x s') + go_gamma opt * nrm2 (rsub (la_x s') (la_x s)) < vmax (la_f_past s) \/
   la_x s' = la_x s \/ la_alpha s' = / 2 ^ 10) /\
  (la_x s' = la_x s -> lasso_solution n times b tau (la_x s)).
Proof.
  intros H1 H2 H3 H4 H5 H6 H7 HR B. destruct (@lasso_reach n m times trans b tau opt x0 H1 H2 H3 H4 H5 H6 k s HR) as [I _].
  destruct (@lasso_step n m times trans b tau opt x0 H1 H2 H3 H4 H5 H6 s s' I B) as [_ [_ [_ [_ [[j [_ [Ea [_ D]]]] St]]]]].
  split; auto. destruct D as [D|[D|[D|D]]]; auto; [rewrite D in Ea; auto|lra].
Qed.
Print Assumptions C42_lasso_step.
(** the solver always returns, in at most max_iters iterations, and a run stopped early
    has a small residual or is optimal up to the tolerance: no point of the ball is better
    by more than opt_tol * max(1, misfit) *)
Theorem C42_lasso_returns n m times trans b tau opt x0 fuel :
  adjoint_ops n m times trans -> length b = m -> length x0 = n -> 0 <= tau ->
  0 < go_alpha_min opt -> go_alpha_min opt <= go_alpha_max opt -> (go_max_iters opt <= fuel)%nat ->
  exists s, solve_lasso_from times trans b tau opt x0 fuel = Done s.
Proof. exact (fun H1 H2 H3 H4 H5 H6 => @lasso_total n m times trans b tau opt x0 H1 H2 H3 H4 H5 H6 fuel). Qed.
Print Assumptions C42_lasso_returns.
Theorem C42_lasso_certificate n m times trans b tau opt x0 fuel s :
  adjoint_ops n m times trans -> length b = m -> length x0 = n -> 0 <= tau ->
  0 < go_alpha_min opt -> go_alpha_min opt <= go_alpha_max opt ->
  solve_lasso_from times trans b tau opt x0 fuel = Done s ->
  length (la_x s) = n /\ nrm1 (la_x s) <= tau /\ (1 <= la_iterations s <= Nat.max 1 (go_max_iters opt))%nat /\
  ((la_iterations s < go_max_iters opt)%nat ->
    nrm (rsub b (times (la_x s))) < go_opt_tol opt * nrm b \/
    forall z, length z = n -> nrm1 z <= tau ->
      misfit times b (la_x s) - misfit times b z <= go_opt_tol opt * Rmax 1 (misfit times b (la_x s))).
Proof.
  intros H1 H2 H3 H4 H5 H6 H. destruct (@lasso_done n m times trans b tau opt x0 H1 H2 H3 H4 H5 H6 fuel s H) as [[L [N _]] [I C]]. auto.
Qed.
Print Assumptions C42_lasso_certificate.
(** n_trans is not the number of products with the adjoint, one per state: after the line
    search backtracks once, two such products are reported as three *)
Theorem C42_lasso_n_trans_refuted : exists times trans b tau opt x0 s,
  adjoint_ops 1 1 times trans /\ solve_lasso_from times trans b tau opt x0 2 = Done s /\
  la_iterations s = 2%nat /\ la_n_trans s <> la_iterations s.
Proof.
  destruct overcount as [s [H [E1 E2]]]. exists (rscale 2), (rscale 2), [1], 10, (fixed_step (/ 2) 2), [0], s.
  rewrite E1, E2. split; [apply dbl_adj|]. repeat split; auto.
Qed.
Print Assumptions C42_lasso_n_trans_refuted.

(** *** basis pursuit denoising: every state of the loop *)
(** residual and gradient belong to the iterate, the step stays in its interval, and
    after the first iteration (or from zero) the iterate lies in the current l1 ball *)
Theorem C42_bpic_state n m times trans b sigma opt x0 s0 k s :
  adjoint_ops n m times trans -> length b = m -> length x0 = n ->
  0 < go_alpha_min opt -> go_alpha_min opt <= go_alpha_max opt ->
  bp_init times trans b sigma opt x0 = Some s0 ->
  reaches (bp_cond b sigma opt) (bp_body times trans b sigma opt) s0 k s ->
  length (bp_x s) = n /\ bp_r s = rsub b (times (bp_x s)) /\ bp_g s = ropp (trans (bp_r s)) /\ 0 <= bp_tau s /\
  go_alpha_min opt <= bp_alpha_next s <= go_alpha_max opt /\
  ((1 <= k)%nat \/ x0 = rzero n -> nrm1 (bp_x s) <= bp_tau s) /\ bp_iterations s = S k /\
  (bp_iterations s <= Nat.max 1 (go_max_iters opt))%nat /\ (bp_n_times s + bp_n_trans s <= Nat.max 4 (go_max_matvec opt + 13))%nat.
Proof.
  intros H1 H2 H3 H4 H5 H6 HR. destruct (@bp_reach n m times trans b sigma opt x0 H1 H2 H3 H4 H5 s0 H6 k s HR) as [[I1 [I2 [I3 [I4 [I5 _]]]]] [E [F _]]].
  destruct (@bp_limits n m times trans b sigma opt x0 H1 H2 H3 H4 H5 s0 H6 k s HR) as [M1 M2].
  repeat (split; [assumption|]). split; [|auto]. intros [K|K]; apply F; auto. right. subst x0. rewrite nrm1_zero.
  destruct (@bp_init_ok n times trans b sigma opt (rzero n) H3 H5 s0 H6) as [[_ [_ [_ [Q _]]]] _]. exact Q.
Qed.
Print Assumptions C42_bpic_state.
(** counters: n_times is n_trans plus the line search iterations; n_trans is one more than
    the adjoint products of the run (one per state and one per reduction of the radius);
    the radius never changes in two consecutive iterations *)
Theorem C42_bpic_counters n m times trans b sigma opt x0 s0 k s :
  adjoint_ops n m times trans -> length b = m -> length x0 = n ->
  0 < go_alpha_min opt -> go_alpha_min opt <= go_alpha_max opt ->
  bp_init times trans b sigma opt x0 = Some s0 ->
  reaches (bp_cond b sigma opt) (bp_body times trans b sigma opt) s0 k s ->
  bp_n_times s = (bp_n_trans s + bp_ls_iters s)%nat /\ (S (bp_iterations s) <= bp_n_trans s <= bp_iterations s + bp_n_newton s)%nat /\
  (2 * bp_n_newton s <= bp_iterations s + 1)%nat.
Proof.
  intros H1 H2 H3 H4 H5 H6 HR. destruct (@bp_reach n m times trans b sigma opt x0 H1 H2 H3 H4 H5 s0 H6 k s HR) as [_ [_ [_ [E1 [E2 E3]]]]].
  repeat split; auto; try apply E2. destruct (bp_tau_changed s); [exact E3|]. rewrite Nat.add_0_r in E3. rewrite Nat.add_1_r. now apply Nat.le_le_succ_r.
Qed.
Print Assumptions C42_bpic_counters.
(** one iteration: the line search gives a point of the current ball whose figures are
    reported; the radius is kept or moved by the Newton step for the value function; the
    point is kept, or projected when the radius shrinks *)
Theorem C42_bpic_step n m times trans b sigma opt x0 s0 k s s' :
  adjoint_ops n m times trans -> length b = m -> length x0 = n ->
  0 < go_alpha_min opt -> go_alpha_min opt <= go_alpha_max opt ->
  bp_init times trans b sigma opt x0 = Some s0 ->
  reaches (bp_cond b sigma opt) (bp_body times trans b sigma opt) s0 k s -> bp_body times trans b sigma opt s = Some s' ->
  exists xl, length xl = n /\ nrm1 xl <= bp_tau s /\ figures_of times trans b sigma s' xl (bp_tau s) /\
    (bp_tau s <= bp_tau s' -> bp_x s' = xl) /\
    (bp_tau s' < bp_tau s -> bp_x s' = spgl1_project_to_l1_ball xl (bp_tau s')) /\
    (bp_tau_changed s' = false -> bp_tau s' = bp_tau s) /\
    (bp_tau_changed s' = true -> bp_tau_changed s = false /\
      bp_tau s' = Rmax 0 (bp_tau s + nrm (rsub b (times xl)) * (nrm (rsub b (times xl)) - sigma) / nrminf (trans (rsub b (times xl))))) /\
    (nrm1 (bp_x s) <= bp_tau s -> 0 <= go_gamma opt ->
      misfit times b xl + go_gamma opt * nrm2 (rsub xl (bp_x s)) < vmax (bp_f_past s) \/ xl = bp_x s \/ bp_alpha s' = / 2 ^ 10).
Proof.
  intros H1 H2 H3 H4 H5 H6 HR B. destruct (@bp_reach n m times trans b sigma opt x0 H1 H2 H3 H4 H5 s0 H6 k s HR) as [I _].
  destruct (@bp_step n m times trans b sigma opt x0 H1 H2 H3 H4 H5 s s' I B) as [_ [_ [_ [xl [A1 [A2 [A3 [A4 [A5 [A6 [A7 [_ [j [e [_ [_ [Ea [_ [_ [_ D]]]]]]]]]]]]]]]]]]]].
  exists xl. repeat (split; [assumption|]). split; [intros Q; destruct (A7 Q) as [? [_ ?]]; auto|].
  intros Hn Hg. destruct (D Hn) as [Q|[Q|[Q|Q]]]; auto; [rewrite Q in Ea; auto|lra].
Qed.
Print Assumptions C42_bpic_step.
(** from zero, the first radius does not exceed the smallest l1 norm of a point that fits *)
Theorem C42_bpic_first_radius n m times trans b sigma opt s0 z :
  adjoint_ops n m times trans -> length b = m -> go_alpha_min opt <= go_alpha_max opt ->
  bp_init times trans b sigma opt (rzero n) = Some s0 -> fits n times b sigma z -> bp_tau s0 <= nrm1 z.
Proof. exact (fun H1 H2 H3 H4 H5 => proj2 (@first_radius n m times trans b sigma opt s0 z H1 H2 H3 H4 H5)). Qed.
Print Assumptions C42_bpic_first_radius.
(** the reported duality gap bounds the excess of the radius over the l1 norm of every
    point z that fits the data:
      tau |A^T r|_inf <= |z|_1 |A^T r|_inf + gap + |r| (sigma - |r|) *)
Theorem C42_bpic_bound n m times trans b sigma s xl tau z :
  adjoint_ops n m times trans -> length b = m -> length xl = n -> nrm1 xl <= tau ->
  figures_of times trans b sigma s xl tau -> fits n times b sigma z ->
  tau * nrminf (trans (rsub b (times xl))) <=
    nrm1 z * nrminf (trans (rsub b (times xl))) + bp_r_gap s * Rmax 1 (misfit times b xl) + bp_r_norm s * (sigma - bp_r_norm s).
Proof. exact (fun H1 H2 H3 => @figures_bound n m times trans b sigma xl H1 H2 H3 s xl tau z H3). Qed.
Print Assumptions C42_bpic_bound.
(** the solver returns, unless it divides by the norm of a vanishing gradient *)
Theorem C42_bpic_ends n m times trans b sigma opt x0 fuel :
  adjoint_ops n m times trans -> length b = m -> length x0 = n ->
  0 < go_alpha_min opt -> go_alpha_min opt <= go_alpha_max opt -> (go_max_iters opt <= fuel)%nat ->
  (exists s, solve_bpic_from times trans b sigma opt x0 fuel = Done s) \/
  (solve_bpic_from times trans b sigma opt x0 fuel = Fail /\ exists x, length x = n /\ nrminf (trans (rsub b (times x))) = 0).
Proof. exact (fun H1 H2 H3 H4 H5 => @bp_ends n m times trans b sigma opt x0 H1 H2 H3 H4 H5 fuel). Qed.
Print Assumptions C42_bpic_ends.
(** stopped within the budgets: the reported figures belong to a point that fits the data
    within the tolerances, with a small duality gap or a residual norm close to sigma *)
Theorem C42_bpic_certificate n m times trans b sigma opt x0 fuel s :
  adjoint_ops n m times trans -> length b = m -> length x0 = n ->
  0 < go_alpha_min opt -> go_alpha_min opt <= go_alpha_max opt ->
  solve_bpic_from times trans b sigma opt x0 fuel = Done s ->
  (bp_iterations s < go_max_iters opt)%nat -> (bp_n_times s + bp_n_trans s < go_max_matvec opt)%nat ->
  exists xl t, length xl = n /\ nrm1 xl <= t /\ figures_of times trans b sigma s xl t /\
    (nrm (rsub b (times xl)) <= sigma \/ nrm (rsub b (times xl)) <= sigma + go_opt_tol opt * Rmax 1 (nrm (rsub b (times xl))) \/
     nrm (rsub b (times xl)) <= go_bp_tol opt * nrm b) /\
    (bp_r_gap s <= Rmax (go_opt_tol opt) (bp_r_f_error s) \/
     Rabs (nrm (rsub b (times xl)) - sigma) <= go_opt_tol opt * Rmax 1 (nrm (rsub b (times xl)))).
Proof. exact (fun H1 H2 H3 H4 H5 => @bp_stop n m times trans b sigma opt x0 H1 H2 H3 H4 H5 fuel s). Qed.
Print Assumptions C42_bpic_certificate.
(** a warm start that fits better than sigma is returned although its l1 norm exceeds the
    reported radius *)
Theorem C42_bpic_ball_refuted : exists times trans b sigma x0 s,
  adjoint_ops 1 1 times trans /\ solve_bpic_from times trans b sigma default_options x0 100 = Done s /\ bp_tau s < nrm1 (bp_x s).
Proof.
  destruct warm_start as [s [H [E1 E2]]]. exists (fun x => x), (fun x => x), [1], (/ 2), [3 / 4], s.
  split; [apply id_adj|]. split; auto. rewrite E1, E2. unfold nrm1. cbn. rewrite Rabs_pos_eq; lra.
Qed.
Print Assumptions C42_bpic_ball_refuted.
(** when the radius shrinks, the reported residual norm is that of the point before the
    projection: the returned point has another one *)
Theorem C42_bpic_r_norm_refuted : exists times trans b sigma opt x0 s,
  adjoint_ops 1 1 times trans /\ solve_bpic_from times trans b sigma opt x0 3 = Done s /\
  bp_r_norm s <> nrm (rsub b (times (bp_x s))).
Proof.
  destruct stale as [s [H [E1 [E2 E3]]]]. exists idv, idv, [0], (3 / 5), (fixed_step (/ 1000) 3), [/ 2], s.
  split; [apply (id_adj 1)|]. split; auto. rewrite E1, E3. lra.
Qed.
Print Assumptions C42_bpic_r_norm_refuted.
(** the hypotheses hold for the default options, and z = b fits the data exactly *)
Example C42_nonvacuous : adjoint_ops 1 1 (rscale 2) (rscale 2) /\ 0 < go_alpha_min default_options /\
  go_alpha_min default_options <= go_alpha_max default_options /\ 0 <= go_gamma default_options /\ fits 1 (rscale 2) [1] 0 [/ 2].
Proof.
  split; [apply dbl_adj|]. split; [cbn; apply Rinv_0_lt_compat; lra|]. split.
  - cbn. apply Rle_trans with 1; [|lra]. rewrite <- Rinv_1. apply Rinv_le_contravar; lra.
  - split; [cbn; left; apply Rinv_0_lt_compat; lra|]. split; [reflexivity|]. unfold rsub, rscale; cbn.
    rewrite nrm_1d. replace (1 - 2 * / 2) with 0 by field. rewrite Rabs_R0. lra.
Qed.
