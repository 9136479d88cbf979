(** C42 and C46: the steps of the lasso solver and the iterates of rfp. *)
From Coq Require Import List Arith Bool Lia Reals Lra.
From Verif Require Import Vec RVec RMat Loop LoopLemmas SolverSpec OptModel PursuitModel OneBitModel SpglModel TightProofs.
Import ListNotations.
Local Open Scope R_scope.

(** The next trial step of the lasso solver is |d|^2 / |A d|^2 for the last
    move d, the inverse of the curvature of the misfit along d, clipped to the
    allowed steps; it is the largest allowed step if the misfit is flat. *)
Theorem C42_lasso_next_step : forall n m times trans b tau opt x0 k s s',
  adjoint_ops n m times trans -> length b = m -> length x0 = n -> 0 <= tau ->
  0 < go_alpha_min opt -> go_alpha_min opt <= go_alpha_max opt ->
  reaches (lasso_cond b opt) (lasso_body times trans b tau opt) (lasso_init times trans b tau opt x0) k s ->
  lasso_body times trans b tau opt s = Some s' ->
  let d := rsub (la_x s') (la_x s) in
  (nrm2 (times d) = 0 -> la_alpha_next s' = go_alpha_max opt) /\
  (nrm2 (times d) <> 0 ->
     la_alpha_next s' = Rmin (go_alpha_max opt) (Rmax (go_alpha_min opt) (nrm2 d / nrm2 (times d)))).
Proof.
  intros n m times trans b tau opt x0 k s s' H1 H2 H3 H4 H5 H6 H7 H8.
  exact (lasso_bb n m times trans b tau opt x0 H1 H2 H3 H4 H5 H6 k s s' H7 H8).
Qed.
Print Assumptions C42_lasso_next_step.

(** The first trial step is the clipped inverse of the largest entry of the
    projected gradient step from the projected start. *)
Theorem C42_lasso_first_step : forall times trans b tau opt x0,
  let s := lasso_init times trans b tau opt x0 in
  let d := rsub (spgl1_project_to_l1_ball (rsub (la_x s) (la_g s)) tau) (la_x s) in
  la_x s = spgl1_project_to_l1_ball x0 tau /\ la_g s = ropp (trans (rsub b (times (la_x s)))) /\
  (nrminf d = 0 -> la_alpha_next s = go_alpha_max opt) /\
  (nrminf d <> 0 -> la_alpha_next s = Rmin (go_alpha_max opt) (Rmax (go_alpha_min opt) (1 / nrminf d))).
Proof. intros times trans b tau opt x0. exact (lasso_first times trans b tau opt x0). Qed.
Print Assumptions C42_lasso_first_step.

(** rfp makes inner * outer steps in a row from x0: each outer round starts
    where the previous one stopped. *)
Theorem C46_rfp_iterates : forall D y x0 lambda delta inner outer s,
  rfp D y x0 lambda delta inner outer = Done s ->
  (0 < outer)%nat /\
  exists X : nat -> vec, X 0%nat = x0 /\ X (inner * outer)%nat = rf_x s /\
    forall k, (k < inner * outer)%nat -> forall prev it,
      exists t, rfp_body D y delta (delta / lambda) (RFPState (X k) prev it) = Some t /\ rf_x t = X (S k).
Proof. intros D y x0 lambda delta inner outer s. exact (rfp_iterates D y x0 lambda delta inner outer s). Qed.
Print Assumptions C46_rfp_iterates.
