(** Convergence of the l1-constrained least squares solver of SPGL1 (property C93). *)
From Coq Require Import List Arith Bool Lia Reals Lra Psatz.
From Verif Require Import Vec RVec RMat Loop LoopLemmas SolverSpec SolverLemmas OptSpec OptModel SelModel SpgModel SpglModel SpglSpec SpglProofs SpglProofs2 SpglProofs4 EigenProofs SpglConv.
Import ListNotations.
Set Implicit Arguments.
Local Open Scope R_scope.

(** every projected search of the run ends before its ten halvings are used up *)
Definition searches_succeed (times trans : vec -> vec) (b : vec) (tau : R) (opt : spgl1_options) (x0 : vec) : Prop :=
  forall k s s', reaches (lasso_cond b opt) (lasso_body times trans b tau opt) (lasso_init times trans b tau opt x0) k s ->
    lasso_cond b opt s = true -> lasso_body times trans b tau opt s = Some s' -> (la_ls_iters s' < la_ls_iters s + 10)%nat.
(** the figures of the options that the search uses *)
Definition search_options (opt : spgl1_options) : R * R * R * nat := (go_alpha_min opt, go_alpha_max opt, go_gamma opt, go_memory opt).
Definition sane_options (opt : spgl1_options) : Prop :=
  0 < go_alpha_min opt /\ go_alpha_min opt <= go_alpha_max opt /\ 0 < go_gamma opt /\ (1 <= go_memory opt)%nat.

(** the problem has a solution *)
Theorem C93_exists n m times trans b tau : adjoint_ops n m times trans -> length b = m -> 0 <= tau -> exists q, lasso_solution n times b tau q.
Proof. exact (@lasso_exists n m times trans b tau). Qed.
Print Assumptions C93_exists.

(** when the largest step is small enough for ten halvings, the misfits approach the
    minimum: there is a number of steps after which every iterate lies in the ball and is
    within eps of the minimum, whatever the tolerances and the budgets *)
Theorem C93_converges n m times trans b tau x0 opt0 L q :
  adjoint_ops n m times trans -> length b = m -> length x0 = n -> 0 <= tau -> sane_options opt0 ->
  0 <= L -> (forall v, length v = n -> nrm2 (times v) <= L * nrm2 v) -> go_alpha_max opt0 * (L / 2 + go_gamma opt0) <= 2 ^ 10 ->
  lasso_solution n times b tau q ->
  forall eps, 0 < eps -> exists N, forall opt k s, search_options opt = search_options opt0 -> (N <= k)%nat ->
    reaches (lasso_cond b opt) (lasso_body times trans b tau opt) (lasso_init times trans b tau opt x0) k s ->
    nrm1 (la_x s) <= tau /\ misfit times b q <= misfit times b (la_x s) <= misfit times b q + eps.
Proof.
  intros AD Lb Lx T0 [Ha1 [Ha2 [Hg HM]]] L0 HL HLa Hq eps He.
  destruct (lasso_conv AD Lb Lx T0 Ha1 Ha2 HM Hg L0 HL Hq He) as [N HN]. exists N. intros opt k s Eo Hk H. injection Eo as E1 E2 E3 E4.
  destruct (HN opt k s E1 E2 E3 E4 Hk (or_introl HLa) H) as [Q _]. rewrite <- E1 in Ha1, Ha2. rewrite <- E2 in Ha2.
  destruct (@lasso_reach n m times trans b tau opt x0 AD Lb Lx T0 Ha1 Ha2 k s H) as [[Lxs [Hx _]] _]. destruct Hq as [_ [_ Mq]]. auto.
Qed.
Print Assumptions C93_converges.
(** with any operator and any step bounds: the same for all runs whose searches succeed *)
Theorem C93_converges_searches n m times trans b tau x0 opt0 q :
  adjoint_ops n m times trans -> length b = m -> length x0 = n -> 0 <= tau -> sane_options opt0 ->
  lasso_solution n times b tau q ->
  forall eps, 0 < eps -> exists N, forall opt k s, search_options opt = search_options opt0 -> searches_succeed times trans b tau opt x0 -> (N <= k)%nat ->
    reaches (lasso_cond b opt) (lasso_body times trans b tau opt) (lasso_init times trans b tau opt x0) k s ->
    nrm1 (la_x s) <= tau /\ misfit times b q <= misfit times b (la_x s) <= misfit times b q + eps.
Proof.
  intros AD Lb Lx T0 [Ha1 [Ha2 [Hg HM]]] Hq eps He. destruct (op_bounded AD) as [C [C0 HC]].
  assert (HL : forall v, length v = n -> nrm2 (times v) <= C * C * nrm2 v).
  { intros v Lv. specialize (HC v Lv). unfold nrm2. rewrite <- !nrm_sq. pose proof (nrm_pos (times v)). pose proof (nrm_pos v). replace (C * C * (nrm v * nrm v)) with ((C * nrm v) * (C * nrm v)) by ring. apply Rmult_le_compat; lra. }
  destruct (lasso_conv AD Lb Lx T0 Ha1 Ha2 HM Hg (Rmult_le_pos _ _ C0 C0) HL Hq He) as [N HN]. exists N. intros opt k s Eo Hs Hk H. injection Eo as E1 E2 E3 E4.
  destruct (HN opt k s E1 E2 E3 E4 Hk (or_intror Hs) H) as [Q _]. rewrite <- E1 in Ha1, Ha2. rewrite <- E2 in Ha2.
  destruct (@lasso_reach n m times trans b tau opt x0 AD Lb Lx T0 Ha1 Ha2 k s H) as [[Lxs [Hx _]] _]. destruct Hq as [_ [_ Mq]]. auto.
Qed.
Print Assumptions C93_converges_searches.
(** with a positive tolerance the test on the duality gap ends every run within N steps,
    whatever the budgets: with a larger iteration budget the solver returns a point that
    meets the tolerance *)
Theorem C93_solves n m times trans b tau x0 opt0 L :
  adjoint_ops n m times trans -> length b = m -> length x0 = n -> 0 <= tau -> sane_options opt0 ->
  0 <= L -> (forall v, length v = n -> nrm2 (times v) <= L * nrm2 v) -> go_alpha_max opt0 * (L / 2 + go_gamma opt0) <= 2 ^ 10 ->
  forall tol, 0 < tol -> exists N, forall opt fuel, search_options opt = search_options opt0 -> tol <= go_opt_tol opt -> (N < go_max_iters opt)%nat -> (go_max_iters opt <= fuel)%nat ->
    exists s, solve_lasso_from times trans b tau opt x0 fuel = Done s /\ (la_iterations s <= N)%nat /\ nrm1 (la_x s) <= tau /\
      (nrm (rsub b (times (la_x s))) < go_opt_tol opt * nrm b \/
       forall z, length z = n -> nrm1 z <= tau -> misfit times b (la_x s) - misfit times b z <= go_opt_tol opt * Rmax 1 (misfit times b (la_x s))).
Proof.
  intros AD Lb Lx T0 [Ha1 [Ha2 [Hg HM]]] L0 HL HLa tol Ht.
  destruct (lasso_stops AD Lb Lx T0 Ha1 Ha2 HM Hg L0 HL Ht) as [N HN]. exists (S N). intros opt fuel Eo Ho Hi Hf. injection Eo as E1 E2 E3 E4.
  assert (A1 : 0 < go_alpha_min opt) by (now rewrite E1). assert (A2 : go_alpha_min opt <= go_alpha_max opt) by (now rewrite E1, E2).
  destruct (@lasso_total n m times trans b tau opt x0 AD Lb Lx T0 A1 A2 fuel Hf) as [s Hs]. exists s. split; auto.
  pose proof Hs as Hr. apply while_done in Hr as [k [_ [Hr _]]]. destruct (@lasso_reach n m times trans b tau opt x0 AD Lb Lx T0 A1 A2 k s Hr) as [[_ [Hx _]] Ei].
  specialize (HN opt k s E1 E2 E3 E4 Ho (or_introl HLa) Hr). split; [lia|]. split; auto.
  destruct (@lasso_done n m times trans b tau opt x0 AD Lb Lx T0 A1 A2 fuel s Hs) as [_ [_ D]]. apply D. lia.
Qed.
Print Assumptions C93_solves.
(** with the default options the last of the ten halvings is accepted whatever its misfit:
    for the identity and zero data the first step from 10^-6 makes the misfit more than 9000
    times larger, above every remembered value *)
Theorem C93_search_refuted : exists s,
  reaches (lasso_cond [0] default_options) (lasso_body (fun x => x) (fun x => x) [0] 1000 default_options) (lasso_init (fun x => x) (fun x => x) [0] 1000 default_options [/ 10 ^ 6]) 1 s /\
  9000 * misfit (fun x => x) [0] [/ 10 ^ 6] < misfit (fun x => x) [0] (la_x s).
Proof. destruct overshoot_run as [s [H [Q _]]]. exists s. split; [exact H|exact Q]. Qed.
Print Assumptions C93_search_refuted.
(** the hypotheses hold: the identity of the plane with steps of at most 1000 *)
Example C93_nonvacuous : let opt := SPGL1Options (/ 10 ^ 6) (/ 10 ^ 4) (/ 10 ^ 4) (/ 10 ^ 4) (/ 10 ^ 16) 1000 3 1000 100 in
  adjoint_ops 2 2 (fun x => x) (fun x => x) /\ sane_options opt /\ (forall v, length v = 2%nat -> nrm2 v <= 1 * nrm2 v) /\
  go_alpha_max opt * (1 / 2 + go_gamma opt) <= 2 ^ 10 /\ lasso_solution 2 (fun x => x) [3; 0] 1 [1; 0].
Proof.
  cbv zeta. split; [repeat split; auto|]. split.
  - unfold sane_options. cbn [go_alpha_min go_alpha_max go_gamma go_memory]. split; [apply Rinv_0_lt_compat, pow_lt; lra|]. split; [|split; [lra|lia]].
    apply Rle_trans with 1; [|lra]. rewrite <- Rinv_1. apply Rinv_le_contravar; lra.
  - split; [intros; lra|]. split; [cbn [go_alpha_max go_gamma]; lra|]. split; [reflexivity|]. split; [cbn; rewrite Rabs_R1, Rabs_R0; lra|].
    intros z Lz Hz. destruct z as [|u [|w [|]]]; try discriminate. unfold misfit, nrm2, rsub, rdot, nrm1 in *. cbn in *.
    assert (U : u <= 1) by (pose proof (Rle_abs u); pose proof (Rabs_pos w); lra). nra.
Qed.
