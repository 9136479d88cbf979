(** C26 (continued): when the constructors of indicators and projectors raise, and the
    indicators of the affine balls |A x - b| <= q. *)
From Coq Require Import List Arith Bool Lia Reals Lra.
From Verif Require Import Vec RVec RMat Loop XReal OptSpec OptModel OptProofs.
Import ListNotations.
Local Open Scope R_scope.

Theorem C26_l2_balls_accept q b A :
  ((exists f, ind_l2_ball q = Some f) <-> 0 < q) /\ ((exists f, ind_l2_ball_at q b = Some f) <-> 0 < q) /\
  ((exists f, ind_l2_ball_A q A b = Some f) <-> 0 < q) /\ ((exists P, proj_l2_ball_at q b = Some P) <-> 0 < q).
Proof.
  unfold ind_l2_ball, ind_l2_ball_at, ind_l2_ball_A, proj_l2_ball_at. destruct (Rleb q 0) eqn:H; [apply Rleb_true in H|apply Rleb_false in H]; repeat split; try lra; try (intros [f E]; discriminate); intros _; eauto.
Qed.
Print Assumptions C26_l2_balls_accept.
Theorem C26_box_accepts l u : (exists f, ind_box l u = Some f) <-> l <> None \/ u <> None.
Proof. destruct l, u; cbn; split; try (intros [f E]; discriminate); try (intros [H|H]; congruence); intros _; eauto; left + right; congruence. Qed.
Print Assumptions C26_box_accepts.
Theorem C26_affine_l2_ball q A b f x : ind_l2_ball_A q A b = Some f -> (f x = true <-> nrm (rsub (mv A x) b) <= q).
Proof.
  unfold ind_l2_ball_A. destruct (Rleb q 0); [discriminate|]. intros [= <-]. cbv beta. destruct (Rltb q _) eqn:E; cbn; [apply Rltb_true in E|apply Rltb_false in E]; split; intros; try lra; try discriminate; auto.
Qed.
Print Assumptions C26_affine_l2_ball.
Theorem C26_affine_l1_ball q A b x : ind_l1_ball_A q A b x = true <-> nrm1 (rsub (mv A x) b) <= q.
Proof. unfold ind_l1_ball_A. destruct (Rltb q _) eqn:E; cbn; [apply Rltb_true in E|apply Rltb_false in E]; split; intros; try lra; try discriminate; auto. Qed.
Print Assumptions C26_affine_l1_ball.
(** concrete cases on both sides of the boundary *)
Example C26_affine_ball_ex : exists f, ind_l2_ball_A 1 [[1; 1]] [2] = Some f /\ f [1; 2] = true /\ f [0; 0] = false.
Proof.
  assert (E : exists f, ind_l2_ball_A 1 [[1; 1]] [2] = Some f) by (apply (C26_l2_balls_accept 1 [2] [[1; 1]]); lra). destruct E as [f E]. exists f. split; auto.
  assert (S1 : nrm (rsub (mv [[1; 1]] [1; 2]) [2]) = 1) by (unfold nrm; cbn; replace (_ + 0) with 1 by ring; apply sqrt_1).
  assert (S2 : nrm (rsub (mv [[1; 1]] [0; 0]) [2]) = 2) by (unfold nrm; cbn; replace (_ + 0) with (2 * 2) by ring; apply sqrt_square; lra).
  split; [apply (C26_affine_l2_ball _ _ _ _ _ E); lra|]. destruct (f [0; 0]) eqn:F; auto. apply (C26_affine_l2_ball _ _ _ _ _ E) in F. lra.
Qed.
