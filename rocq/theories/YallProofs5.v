From Coq Require Import List Arith Bool Lia Reals Lra Psatz.
From Verif Require Import Vec RVec RMat Loop LoopLemmas XReal SolverSpec SolverLemmas OptProofs FomProofs2 SpglProofs SpglProofs3 SpglProofs4 YallModel YallSpec YallProofs YallProofs2 YallProofs3 YallProofs4.
Import ListNotations.
Set Implicit Arguments.
Local Open Scope R_scope.
Ltac rtest := match goal with
  | |- context [Reqb ?a ?b] => destruct (Reqb_spec a b); try lra
  | |- context [Rltb ?a ?b] => destruct (Rltb_spec a b); try lra
  | |- context [Rleb ?a ?b] => destruct (Rleb_spec a b); try lra end.
Ltac abs1 := repeat (rewrite (Rabs_pos_eq) in * by lra || rewrite Rabs_left in * by lra).

Lemma zero_weights_wrong :
  exists sol, yall1_solve (fun x => x) (fun x => x) [1] None None None (Some [1 / 10]) false 1 0 1 (1 / 100) 10 10 = Done sol /\
  ys_x sol = [0] /\ ~ yall_solves 1 (fun x => x) [1] [1 / 10] false (L1L2 1) (ys_x sol).
Proof.
  exists (YallSolution [0] [1] 0 0 1). split; [|split; auto].
  - unfold yall1_solve, with_basis, yall1_zero_solution. cbv zeta. cbn [length nrminf fold_right]. rewrite (Rabs_pos_eq 1), Rmax_left by lra. repeat rtest. reflexivity.
  - intros (_ & _ & O). specialize (O [9 / 10]). assert (Cv : candidate 1 false [9 / 10]) by (split; auto; discriminate). specialize (O Cv Logic.I).
    unfold yall_value, wnorm, nrm1, nrm2, rdot, rmul, rsub in O. cbn in O. rewrite Rmult_0_r, Rabs_R0, (Rabs_pos_eq (1 / 10 * (9 / 10))) in O by lra. lra.
Qed.
Lemma zero_delta_wrong :
  exists sol, yall1_solve (fun x => x) (fun x => x) [1] None None None None false (1 / 10) 1 1 (1 / 100) 10 10 = Done sol /\
  ys_x sol = [0] /\ ~ yall_solves 1 (fun x => x) [1] [1] false (L1L2 (1 / 10)) (ys_x sol).
Proof.
  exists (YallSolution [0] [1] 0 0 1). split; [|split; auto].
  - unfold yall1_solve, with_basis, yall1_zero_solution. cbv zeta. rewrite nrm_1d. cbn [length nrminf fold_right]. rewrite (Rabs_pos_eq 1), Rmax_left by lra. repeat rtest. reflexivity.
  - intros (_ & _ & O). specialize (O [9 / 10]). assert (Cv : candidate 1 false [9 / 10]) by (split; auto; discriminate). specialize (O Cv Logic.I).
    unfold yall_value, wnorm, nrm1, nrm2, rdot, rmul, rsub in O. cbn in O. rewrite Rmult_0_r, Rabs_R0, (Rabs_pos_eq (1 * (9 / 10))) in O by lra. lra.
Qed.
(** no iteration: the given start is returned multiplied by |b|_inf *)
Lemma start_scaled : exists sol,
  yall1_solve (fun x => x) (fun x => x) [2] (Some [2]) None None None false 0 0 1 (1 / 100) 0 10 = Done sol /\ ys_x sol = [4] /\ ys_iterations sol = 0%nat.
Proof.
  eexists. split; [|split].
  - unfold yall1_solve, with_basis, yall1_zero_solution, ya_run. cbv zeta. cbn [length nrminf fold_right]. rewrite (Rabs_pos_eq 2), Rmax_left by lra. repeat rtest.
    cbn [while_]. unfold ya_cond at 1. cbn [ya_init ya_iterations Nat.ltb Nat.leb]. rewrite andb_false_r. cbn [andb]. reflexivity.
  - cbn [ys_x ya_init ya_x rscale map]. f_equal.
  - reflexivity.
Qed.
Lemma nonneg_residual_wrong : exists sol,
  yall1_solve (fun x => x) (fun x => x) [-1] None None None None true 0 0 1 (1 / 100) 0 10 = Done sol /\ ys_r sol <> rsub [-1] (ys_x sol).
Proof.
  eexists. split.
  - unfold yall1_solve, with_basis, yall1_zero_solution, ya_run. cbv zeta. cbn [length nrminf fold_right]. rewrite (Rabs_left (-1)), Rmax_left by lra. repeat rtest.
    cbn [while_]. unfold ya_cond at 1. cbn [ya_init ya_iterations Nat.ltb Nat.leb]. rewrite andb_false_r. cbn [andb]. reflexivity.
  - cbn [ys_r ys_x ya_init ya_x ya_rp rscale map rsub]. replace (/ - -1) with 1 by field. rewrite Rmax_left by lra. unfold rsub, radd, rscale, zipw; cbn. intros E. injection E as E. lra.
Qed.
Lemma odd_limit_overrun : exists sol,
  yall1_solve (fun x => x) (fun x => x) [1] (Some [2]) None None None false 0 0 1 (1 / 100) 1 10 = Done sol /\ ys_iterations sol = 2%nat.
Proof.
  unfold yall1_solve, with_basis, yall1_zero_solution, ya_run. cbv zeta. cbn [length nrminf fold_right]. rewrite (Rabs_pos_eq 1), Rmax_left by lra. repeat rtest.
  set (s0 := ya_init _ _ _ _ _ _ _).
  assert (Hc : ya_cond (rscale (/ 1) [1]) (1 / 100) 1 BP s0 = true).
  { unfold s0, ya_cond, relative_gap, x_change. cbn [ya_init ya_iterations ya_x ya_x_prev ya_primal ya_dual ya_primal_objective Nat.ltb Nat.leb].
    replace (nrm1 (rmul (repeat 1 1) [2])) with 2 by (cbn; rewrite Rabs_pos_eq by lra; ring). unfold rzero; cbn [length repeat]. rewrite rsub_1d, !nrm_1d.
    rewrite (Rabs_pos_eq (2 - 0)), (Rabs_pos_eq 2) by lra. rewrite (Rabs_left (0 - 2)) by lra. unfold xdiv. destruct (Reqb_spec 2 0); [lra|].
    assert (Q1 : xgtb (Fin (- (0 - 2) / 2)) (1 / 100) = true) by (apply Rltb_true; lra).
    assert (Q2 : xgtb (Fin ((2 - 0) / 2)) (1 / 100 * (1 - 1 / 10)) = true) by (apply Rltb_true; lra). rewrite Q1, Q2. reflexivity. }
  assert (Hd : exists s2, ya_double (fun x => x) (fun x => x) (rscale (/ 1) [1]) (repeat 1 1) false 1 BP s0 = Some s2 /\ ya_iterations s2 = 2%nat).
  { assert (Pw : forall i, (i < 1)%nat -> 0 < (repeat 1 1)@i) by (intros [|i] Hi; [cbn; lra|lia]).
    assert (Nb : rscale (/ 1) [1] <> rzero 1) by (cbn; rewrite Rinv_1; intros E; injection E; lra).
    assert (L1 : length (ya_x s0) = 1%nat) by reflexivity. assert (L2 : length (ya_z s0) = 1%nat) by reflexivity.
    destruct (@iter_defined 1 1 (fun x => x) (fun x => x) (rscale (/ 1) [1]) (repeat 1 1) false 1 BP (id_adj 1) eq_refl eq_refl Logic.I s0 Pw Nb L1 L2) as [s1 E1].
    destruct (@iter_inv 1 1 (fun x => x) (fun x => x) (rscale (/ 1) [1]) (repeat 1 1) false 1 BP (id_adj 1) eq_refl eq_refl Logic.I s0 s1 L1 L2 E1)
      as (q & y & _ & _ & _ & _ & _ & _ & _ & _ & _ & _ & _ & _ & Ei1 & _ & _ & L3 & L4).
    destruct (@iter_defined 1 1 (fun x => x) (fun x => x) (rscale (/ 1) [1]) (repeat 1 1) false 1 BP (id_adj 1) eq_refl eq_refl Logic.I s1 Pw Nb L3 L4) as [s2 E2].
    destruct (@iter_inv 1 1 (fun x => x) (fun x => x) (rscale (/ 1) [1]) (repeat 1 1) false 1 BP (id_adj 1) eq_refl eq_refl Logic.I s1 s2 L3 L4 E2)
      as (q2 & y2 & _ & _ & _ & _ & _ & _ & _ & _ & _ & _ & _ & _ & Ei2 & _).
    exists s2. unfold ya_double. rewrite E1. split; [exact E2|]. rewrite Ei2, Ei1. reflexivity. }
  destruct Hd as (s2 & Ed & Ei). cbn [while_]. rewrite Hc, Ed.
  replace (ya_cond (rscale (/ 1) [1]) (1 / 100) 1 BP s2) with false.
  - eexists. split; [reflexivity|]. exact Ei.
  - unfold ya_cond. rewrite Ei. cbn [Nat.ltb Nat.leb]. now rewrite andb_false_r.
Qed.
(** the method is at rest at a point that does not satisfy A x = b when A has rows of norm 2 *)
Lemma rest_infeasible : let A := rscale 2 in
  exists s', ya_iteration A A [1] [1] false 1 BP (YallState [5 / 4] [5 / 4] [1] [1] [1] 0 0 0 0 0) = Some s' /\ ya_x s' = [5 / 4] /\ ya_z s' = [1] /\ A (ya_x s') <> [1].
Proof.
  cbv zeta. unfold ya_iteration. replace (ya_mu [1]) with 1 by (unfold ya_mu, nrm1; cbn; rewrite Rabs_pos_eq by lra; field). rtest.
  cbv zeta. cbn [ya_x ya_z]. unfold y_step. rewrite !rscale_1d, rsub_1d, rscale_1d. unfold radd at 2; cbn [zipw]. rewrite !rscale_1d. unfold radd; cbn [zipw].
  assert (E1 : 2 * (2 * (1 - / 1 * (5 / 4)) + / 1 * 1) + / 1 * (5 / 4) = 9 / 4) by field.
  match goal with |- context [project_to_box [?a] [1]] => replace a with (9 / 4) by field end.
  unfold project_to_box. cbn [length seq forallb nth tab map]. rewrite (Rabs_pos_eq (9 / 4)), Rmax_right by lra. rtest. cbn [negb andb].
  eexists. split; [reflexivity|]. cbn [ya_x ya_z ya_iterations]. rewrite !rscale_1d, !rsub_1d, !rscale_1d, !rsub_1d. split; [|split].
  - f_equal. field.
  - f_equal. field.
  - rewrite rscale_1d. intros E. injection E as E. lra.
Qed.
