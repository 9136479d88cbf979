(** The l1-constrained least squares solver of SPGL1 on complex data (property C96). *)
From Coq Require Import List Arith Bool Lia Reals Lra Psatz.
From Verif Require Import Scalar Vec RVec Loop LoopLemmas SolverSpec LopModel LopSpec OptModel OptProofs2 SelModel SpgModel SpglModel CxSpec CxProofs CxSpglModel CxSpglSpec CxSpglProofs CxSpglProofs2 CxSpglProofs3.
Import ListNotations.
Set Implicit Arguments.
Local Open Scope R_scope.

(** the problem has a solution *)
Theorem C96_exists n m times trans b tau : is_adjoint m n times trans -> length b = m -> 0 <= tau -> exists q, classo_solution n times b tau q.
Proof. intros AD Lb T0. exact (c_exists AD Lb T0). Qed.
Print Assumptions C96_exists.
(** the solver always returns, and what it returns is feasible and comes with its true residual, gradient
    and residual norm and with a bound on its distance to the optimal value; when it returns before the
    iteration budget is used up, one of the two tests holds: a small residual or a small gap *)
Theorem C96_result n m times trans b tau opt x0 fuel :
  is_adjoint m n times trans -> length b = m -> length x0 = n -> 0 <= tau -> 0 < go_alpha_min opt -> go_alpha_min opt <= go_alpha_max opt ->
  (go_max_iters opt <= fuel)%nat ->
  exists s, csolve_lasso_from times trans b tau opt x0 fuel = Done s /\ ctruthful n times trans b tau s /\
    (1 <= cla_iterations s <= Nat.max 1 (go_max_iters opt))%nat /\
    ((cla_iterations s < go_max_iters opt)%nat ->
      cnorm (vsub b (times (cla_x s))) < go_opt_tol opt * cnorm b \/
      forall z, length z = n -> cl1 z <= tau -> cmisfit times b (cla_x s) - cmisfit times b z <= go_opt_tol opt * Rmax 1 (cmisfit times b (cla_x s))).
Proof.
  intros AD Lb Lx T0 H1 H2 Hf. destruct (c_total AD Lb Lx T0 H1 H2 Hf) as [s Hs]. exists s. split; [exact Hs|]. exact (c_done AD Lb Lx T0 H1 H2 Hs).
Qed.
Print Assumptions C96_result.
(** every iterate is feasible and truthful; the number of iterations is reported *)
Theorem C96_iterates n m times trans b tau opt x0 k s :
  is_adjoint m n times trans -> length b = m -> length x0 = n -> 0 <= tau -> 0 < go_alpha_min opt -> go_alpha_min opt <= go_alpha_max opt ->
  classo_after times trans b tau opt x0 k s -> ctruthful n times trans b tau s /\ cla_iterations s = S k.
Proof.
  intros AD Lb Lx T0 H1 H2 H. destruct (c_reach AD Lb Lx T0 H1 H2 H) as [I E]. split; [|exact E]. exact (ok_truthful AD Lb Lx T0 I).
Qed.
Print Assumptions C96_iterates.
(** one iteration: sufficient decrease below the largest remembered misfit unless the search used its ten
    halvings; an iteration that does not move stands on a solution *)
Theorem C96_step n m times trans b tau opt x0 k s s' :
  is_adjoint m n times trans -> length b = m -> length x0 = n -> 0 <= tau -> 0 < go_alpha_min opt -> go_alpha_min opt <= go_alpha_max opt -> 0 <= go_gamma opt ->
  classo_after times trans b tau opt x0 k s -> classo_cond b opt s = true -> classo_body times trans b tau opt s = Some s' ->
  (exists j, (j <= 10)%nat /\ cla_alpha s' = / 2 ^ j /\ cla_ls_iters s' = (cla_ls_iters s + j)%nat /\
    (cmisfit times b (cla_x s') + go_gamma opt * cnsq (vsub (cla_x s') (cla_x s)) < vmax (cla_f_past s) \/ cla_x s' = cla_x s \/ j = 10%nat)) /\
  (cla_x s' = cla_x s -> classo_solution n times b tau (cla_x s)).
Proof.
  intros AD Lb Lx T0 H1 H2 Hg H Cd B. destruct (c_step AD Lb Lx T0 H1 H2 H Cd B) as [[j [Hj [Ea [El Hd]]]] St]. split; [|exact St].
  exists j. repeat (split; [auto; fail|]). destruct Hd as [Hd|[Hd|[Hd|Hd]]]; auto. exfalso; lra.
Qed.
Print Assumptions C96_step.
(** when the largest step is small enough for ten halvings, or for runs whose searches succeed, the
    misfits approach the minimum, whatever the tolerances and the budgets *)
Theorem C96_converges n m times trans b tau x0 opt0 L q :
  is_adjoint m n times trans -> length b = m -> length x0 = n -> 0 <= tau -> sane_figures opt0 ->
  0 <= L -> (forall v, length v = n -> cnsq (times v) <= L * cnsq v) -> classo_solution n times b tau q ->
  forall eps, 0 < eps -> exists N, forall opt k s, search_figures opt = search_figures opt0 -> (N <= k)%nat ->
    (go_alpha_max opt0 * (L / 2 + go_gamma opt0) <= 2 ^ 10 \/ csearches_succeed times trans b tau opt x0) ->
    classo_after times trans b tau opt x0 k s ->
    cl1 (cla_x s) <= tau /\ cmisfit times b q <= cmisfit times b (cla_x s) <= cmisfit times b q + eps.
Proof. intros AD Lb Lx T0 So L0 HL Hq eps He. exact (c_conv AD Lb Lx T0 So L0 HL Hq He). Qed.
Print Assumptions C96_converges.
(** every operator has a bound L *)
Theorem C96_bounded n m (times trans : cvec -> cvec) : is_adjoint m n times trans -> exists L, 0 <= L /\ forall v, length v = n -> cnsq (times v) <= L * cnsq v.
Proof. intros AD. exact (c_bounded AD). Qed.
Print Assumptions C96_bounded.
(** with a positive tolerance the modulus of the reported gap ends every run within N steps, although the
    gap of an iterate is in general not real: with a larger iteration budget the solver returns a
    point that meets the tolerance *)
Theorem C96_solves n m times trans b tau x0 opt0 L :
  is_adjoint m n times trans -> length b = m -> length x0 = n -> 0 <= tau -> sane_figures opt0 ->
  0 <= L -> (forall v, length v = n -> cnsq (times v) <= L * cnsq v) ->
  forall tol, 0 < tol -> exists N, forall opt fuel, search_figures opt = search_figures opt0 -> tol <= go_opt_tol opt -> (N < go_max_iters opt)%nat -> (go_max_iters opt <= fuel)%nat ->
    (go_alpha_max opt0 * (L / 2 + go_gamma opt0) <= 2 ^ 10 \/ csearches_succeed times trans b tau opt x0) ->
    exists s, csolve_lasso_from times trans b tau opt x0 fuel = Done s /\ (cla_iterations s <= N)%nat /\ cl1 (cla_x s) <= tau /\
      (cnorm (vsub b (times (cla_x s))) < go_opt_tol opt * cnorm b \/
       forall z, length z = n -> cl1 z <= tau -> cmisfit times b (cla_x s) - cmisfit times b z <= go_opt_tol opt * Rmax 1 (cmisfit times b (cla_x s))).
Proof.
  intros AD Lb Lx T0 So L0 HL tol Ht. pose proof So as [Ha1 [Ha2 _]]. destruct (c_stops AD Lb Lx T0 So L0 HL Ht) as [N HN]. exists (S N). intros opt fuel Eo Ho Hi Hf HLa. pose proof Eo as Eo'. injection Eo' as E1 E2 E3 E4.
  assert (A1 : 0 < go_alpha_min opt) by (now rewrite E1). assert (A2 : go_alpha_min opt <= go_alpha_max opt) by (now rewrite E1, E2).
  destruct (c_total AD Lb Lx T0 A1 A2 Hf) as [s Hs]. exists s. split; [exact Hs|]. pose proof Hs as Hr. apply while_done in Hr as [k [_ [Hr _]]].
  destruct (c_reach AD Lb Lx T0 A1 A2 Hr) as [_ Ei]. specialize (HN opt k s Eo Ho HLa Hr). assert (Hk : (cla_iterations s <= S N)%nat) by (rewrite Ei; lia). split; [exact Hk|].
  destruct (c_done AD Lb Lx T0 A1 A2 Hs) as [[_ [Cx _]] [_ D]]. split; [exact Cx|]. apply D. exact (Nat.le_lt_trans _ _ _ Hk Hi).
Qed.
Print Assumptions C96_solves.
(** *** the types of the loop variable *)
(** the loop is accepted exactly when the initial vector is complex or all data are real *)
Theorem C96_types ta tb t0 : loop_accepts ta tb t0 <-> t0 = ComplexArr \/ (ta = RealArr /\ tb = RealArr).
Proof.
  unfold loop_accepts, body_types, init_types, result_type. destruct ta, tb, t0; cbn; split; intros H; auto; try discriminate; destruct H as [H|[H H']]; discriminate.
Qed.
Print Assumptions C96_types.
(** solve_lasso starts from real zeros: it raises for a complex operator and for complex data *)
Theorem C96_zero_start_refuted ta tb : ta = ComplexArr \/ tb = ComplexArr -> ~ loop_accepts ta tb solve_lasso_start.
Proof. intros H Q. apply C96_types in Q. destruct Q as [Q|[Q Q']]; [discriminate|]. subst. destruct H; discriminate. Qed.
Print Assumptions C96_zero_start_refuted.
(** solve_bp chooses a suitable start for all data; solve_bpic does unless the operator is complex and the
    data are real *)
Theorem C96_bp_start ta tb : loop_accepts ta tb (solve_bp_start ta tb) /\ (loop_accepts ta tb (solve_bpic_start tb) <-> ta = RealArr \/ tb = ComplexArr).
Proof.
  split; [apply C96_types; destruct ta, tb; cbn; auto|]. rewrite C96_types. unfold solve_bpic_start. destruct ta, tb; cbn; split; intros H; auto; destruct H as [H|H]; try discriminate; auto. destruct H; discriminate.
Qed.
Print Assumptions C96_bp_start.
(** the hypotheses hold: multiplication by i, for which 1 solves the problem with data 3i and radius 1 *)
Example C96_nonvacuous : let opt := SPGL1Options (/ 10 ^ 6) (/ 10 ^ 4) (/ 10 ^ 4) (/ 10 ^ 4) (/ 10 ^ 16) 1000 3 1000 100 in
  let A := fun x : cvec => vscale ((0, 1) : Cs) x in let T := fun x : cvec => vscale ((0, -1) : Cs) x in
  is_adjoint 1 1 A T /\ sane_figures opt /\ (forall v, length v = 1%nat -> cnsq (A v) <= 1 * cnsq v) /\
  go_alpha_max opt * (1 / 2 + go_gamma opt) <= 2 ^ 10 /\ classo_solution 1 A [(0, 3)] 1 [(1, 0)].
Proof.
  cbv zeta. split; [|split; [|split; [|split]]].
  - split; [|split].
    + intros x Lx. unfold vscale. now rewrite map_length.
    + intros x Lx. unfold vscale. now rewrite map_length.
    + intros x y _ _. rewrite inner_scale_l, inner_scale_r. apply (f_equal2 (@smul Cs)); [|reflexivity]. cbn. unfold Cconj. cbn. apply (f_equal2 pair); ring.
  - unfold sane_figures. cbn [go_alpha_min go_alpha_max go_gamma go_memory]. split; [apply Rinv_0_lt_compat, pow_lt; lra|]. split; [|split; [lra|lia]].
    apply Rle_trans with 1; [|lra]. rewrite <- Rinv_1. apply Rinv_le_contravar; lra.
  - intros [|[a c] [|]] H; try discriminate H. unfold cnsq, Cnsq. cbn. lra.
  - cbn [go_alpha_max go_gamma]. lra.
  - split; [reflexivity|]. split.
    + unfold cl1, Cnsq. cbn. replace (1 * 1 + 0 * 0) with 1 by ring. rewrite sqrt_1. lra.
    + intros [|[a c] [|]] Lz Hz; try discriminate Lz. unfold cl1, Cnsq in Hz. cbn in Hz. rewrite Rplus_0_r in Hz. assert (Ha : a <= 1).
      { eapply Rle_trans; [|exact Hz]. exact (fst_le_cabs (a, c)). }
      unfold cmisfit, cnsq, Cnsq. cbn. nra.
Qed.
