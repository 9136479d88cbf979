(** C96: on real data given as complex data the complex lasso solver makes the
    steps of the real one. *)
From Coq Require Import List Arith Bool Lia Reals Lra.
From Verif Require Import Scalar Vec RVec RMat Loop LoopLemmas SolverSpec SolverLemmas LopModel LopSpec OptSpec OptModel OptProofs OptProofs2 SelModel SelProofs SpgModel SpglModel SpglSpec CxSpec CxModel CxProofs CxSpglModel CxSpglSpec CxSpglProofs CxSpglProofs2 CxBpModel CxBpSpec CxBpProofs2.
Import ListNotations.
Set Implicit Arguments.
Unset Strict Implicit.
Local Open Scope R_scope.

Section Sim.
  Variables (A T : cvec -> cvec) (Ar Tr : vec -> vec) (b : vec) (tau : R) (opt : spgl1_options).
  Hypothesis HA : forall x, A (as_complex x) = as_complex (Ar x).
  Hypothesis HT : forall x, T (as_complex x) = as_complex (Tr x).
  Hypothesis Ht : 0 <= tau.
  Definition em_la (s : lasso_state) : classo_state :=
    CLassoState (as_complex (la_x s)) (as_complex (la_g s)) (as_complex (la_r s)) (la_f_past s) (la_r_norm s) (la_r_gap s)
      (la_alpha s) (la_alpha_next s) (la_iterations s) (la_n_times s) (la_n_trans s) (la_ls_iters s).
  Lemma em_lmetrics g r f : classo_metrics (as_complex b) (as_complex g) (as_complex r) f tau = lasso_metrics b g r f tau.
  Proof.
    unfold lasso_metrics, classo_metrics. cbv zeta. rewrite emb_sub, emb_inner, emb_linf, emb_nrm. f_equal. f_equal.
    assert (E : Cadd (rdot r (rsub r b), 0) (ofR (tau * nrminf g) : Cs) = (rdot r (rsub r b) + tau * nrminf g, 0)) by (unfold Cadd, ofR; cbn; apply (f_equal2 pair); ring).
    rewrite E. apply cabs_real.
  Qed.
  Lemma em_linit x0 : classo_init A T (as_complex b) tau opt (as_complex x0) = em_la (lasso_init Ar Tr b tau opt x0).
  Proof.
    unfold lasso_init, classo_init. cbv zeta.
    rewrite emb_proj, HA, emb_sub, HT, emb_opp, emb_obj, em_lmetrics, emb_sub, emb_proj, emb_sub, emb_linf by exact Ht.
    destruct (lasso_metrics _ _ _ _ _) as [rn rg]. reflexivity.
  Qed.
  Lemma em_lbody s : classo_body A T (as_complex b) tau opt (em_la s) = option_map em_la (lasso_body Ar Tr b tau opt s).
  Proof.
    unfold lasso_body, classo_body. cbv zeta. cbn [em_la cla_x cla_g cla_f_past cla_alpha_next cla_n_times cla_iterations cla_ls_iters].
    rewrite (@em_search A Ar b HA) by exact Ht.
    destruct (curvy_line_search _ _ _ _ _ _ _ _ _) as [l| |]; try reflexivity. cbn [em_cls ccl_x ccl_r ccl_f ccl_iters ccl_alpha].
    rewrite HT, emb_opp, em_lmetrics. destruct (lasso_metrics _ _ _ _ _) as [rn rg].
    rewrite !emb_sub. unfold cbb_step, bb_step. rewrite !emb_inner. reflexivity.
  Qed.
  Lemma em_lcond s : classo_cond (as_complex b) opt (em_la s) = lasso_cond b opt s.
  Proof. unfold lasso_cond, classo_cond. rewrite emb_nrm. reflexivity. Qed.
  Lemma em_lrun x0 fuel : csolve_lasso_from A T (as_complex b) tau opt (as_complex x0) fuel =
    match solve_lasso_from Ar Tr b tau opt x0 fuel with Done s => Done (em_la s) | Fail => Fail | Fuel => Fuel end.
  Proof.
    unfold solve_lasso_from, csolve_lasso_from. rewrite em_linit.
    exact (@sim_while _ _ em_la (lasso_cond b opt) _ (classo_cond (as_complex b) opt) _ em_lcond em_lbody fuel _).
  Qed.
End Sim.

(** C96: if the operator maps real vectors to real vectors, as timesr and transr
    do, the complex solver ends exactly when the real one does, with the same
    point, gradient and residual, and with equal figures and counters. *)
Theorem C96_real_data times trans timesr transr b tau opt x0 fuel :
  (forall x, times (as_complex x) = as_complex (timesr x)) -> (forall x, trans (as_complex x) = as_complex (transr x)) -> 0 <= tau ->
  match solve_lasso_from timesr transr b tau opt x0 fuel with
  | Done s => exists c, csolve_lasso_from times trans (as_complex b) tau opt (as_complex x0) fuel = Done c /\
      cla_x c = as_complex (la_x s) /\ cla_g c = as_complex (la_g s) /\ cla_r c = as_complex (la_r s) /\ cla_f_past c = la_f_past s /\
      cla_r_norm c = la_r_norm s /\ cla_r_gap c = la_r_gap s /\ cla_alpha c = la_alpha s /\ cla_alpha_next c = la_alpha_next s /\
      cla_iterations c = la_iterations s /\ cla_n_times c = la_n_times s /\ cla_n_trans c = la_n_trans s /\ cla_ls_iters c = la_ls_iters s
  | Fail => csolve_lasso_from times trans (as_complex b) tau opt (as_complex x0) fuel = Fail
  | Fuel => csolve_lasso_from times trans (as_complex b) tau opt (as_complex x0) fuel = Fuel
  end.
Proof.
  intros HA HT Ht. pose proof (@em_lrun times trans timesr transr b tau opt HA HT Ht x0 fuel) as E.
  destruct (solve_lasso_from _ _ _ _ _ _ _) as [s| |]; [|exact E|exact E]. exists (em_la s). split; [exact E|]. repeat split.
Qed.
Print Assumptions C96_real_data.
(** multiplication by 2 *)
Example C96_real_data_nonvacuous : forall x, vscale (ofR 2 : Cs) (as_complex x) = as_complex (rscale 2 x).
Proof. intros x. apply emb_scale. Qed.
