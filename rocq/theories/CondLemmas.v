(** Iteration counts from the convergence factor. *)
From Coq Require Import List Arith Bool Lia Reals Lra Psatz.
From Verif Require Import Vec RVec RMat SolverSpec CondSpec CondProofs.
Import ListNotations.
Set Implicit Arguments.
Local Open Scope R_scope.

Lemma rate_exp mu L k : 0 < mu <= L -> cond_rate mu L ^ k <= exp (- (2 * INR k / (sqrt (L / mu) + 1))).
Proof.
  intros H. assert (M : 0 < sqrt mu) by (apply sqrt_lt_R0; lra). assert (ML : sqrt mu <= sqrt L) by (apply sqrt_le_1; lra).
  assert (E : cond_rate mu L = 1 - 2 / (sqrt (L / mu) + 1)).
  { unfold cond_rate. rewrite sqrt_div_alt by lra. field. lra. }
  pose proof (rate_range H) as [R0 _].
  assert (B : cond_rate mu L <= exp (- (2 / (sqrt (L / mu) + 1)))). { rewrite E. pose proof (exp_ineq1_le (- (2 / (sqrt (L / mu) + 1)))). lra. }
  assert (P : exp (- (2 * INR k / (sqrt (L / mu) + 1))) = exp (- (2 / (sqrt (L / mu) + 1))) ^ k).
  { clear. induction k; [simpl; rewrite <- exp_0; f_equal; unfold Rdiv; ring|]. rewrite S_INR. cbn [pow]. rewrite <- IHk, <- exp_plus. f_equal. unfold Rdiv. ring. }
  rewrite P. apply pow_incr. lra.
Qed.
Lemma enough_iterations mu L k eps : 0 < mu <= L -> 0 < eps -> (sqrt (L / mu) + 1) / 2 * ln (2 / eps) <= INR k -> 2 * cond_rate mu L ^ k <= eps.
Proof.
  intros H He Hk. pose proof (rate_exp k H) as E. pose proof (sqrt_pos (L / mu)) as S0.
  assert (B : ln (2 / eps) <= 2 * INR k / (sqrt (L / mu) + 1)).
  { apply Rmult_le_reg_r with ((sqrt (L / mu) + 1) / 2); [lra|]. replace (2 * INR k / (sqrt (L / mu) + 1) * ((sqrt (L / mu) + 1) / 2)) with (INR k) by (field; lra). lra. }
  assert (C : exp (- (2 * INR k / (sqrt (L / mu) + 1))) <= eps / 2).
  { apply Rle_trans with (exp (- ln (2 / eps))). - destruct B as [B|B]; [left; apply exp_increasing; lra|right; f_equal; lra].
    - rewrite exp_Ropp, exp_ln by (apply Rdiv_lt_0_compat; lra). right. field. lra. }
  lra.
Qed.
