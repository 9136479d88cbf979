(** Statements about LSQR in terms of LsqrSpec, and examples. *)
From Coq Require Import List Arith Bool Lia Reals Lra.
From Verif Require Import Vec RVec RMat Loop SolverSpec LoopLemmas CGModel SlsModel SlsProofs SolverLemmas SlsSpec SlsLemmas OptProofs LsqrModel LsqrSpec LsqrProofs.
Import ListNotations.
Set Implicit Arguments.
Local Open Scope R_scope.
Section L.
  Variables (n m : nat) (A : simple_op) (b x0 : vec) (damp atol btol conlim : R) (mx : nat).
  Hypothesis HA : adjoint_ops n m (so_times A) (so_trans A).
  Hypothesis Hb : length b = m.
  Hypothesis Hx0 : length x0 = n.
  Lemma lsqr_state_facts k s : lsqr_after A b x0 damp atol btol conlim mx k s ->
    lq_r_norm s = sqrt (damped_objective A b x0 damp (lq_x s)) /\
    lq_atr_norm s = nrm (damped_descent A b x0 damp (lq_x s)) /\
    ((0 < k)%nat -> lq_x_norm s = nrm (rsub (lq_x s) x0)) /\
    lq_it s = S k /\ lq_n_times s = S k /\ lq_n_trans s = S k.
  Proof.
    intros H. split; [exact (proj2 (@run_r n m A b x0 damp atol btol conlim mx HA Hb Hx0 k s H))|].
    split; [exact (@run_atr n m A b x0 damp atol btol conlim mx HA Hb Hx0 k s H)|].
    split; [exact (@run_xnorm n m A b x0 damp atol btol conlim mx HA Hb Hx0 k s H)|].
    exact (@lsqr_counts A b x0 damp atol btol conlim mx k s H).
  Qed.
  Lemma lsqr_final fuel s : lsqr A b x0 damp atol btol conlim mx fuel = Done s ->
    lq_r_norm s = sqrt (damped_objective A b x0 damp (lq_x s)) /\
    lq_atr_norm s = nrm (damped_descent A b x0 damp (lq_x s)) /\
    ((1 < lq_it s)%nat -> lq_x_norm s = nrm (rsub (lq_x s) x0)) /\
    lq_n_times s = lq_it s /\ lq_n_trans s = lq_it s /\ (lq_it s <= Nat.max 1 mx)%nat /\ (lq_it s <= Nat.min m n + 1)%nat.
  Proof.
    intros H. apply while_done in H as [k [_ [H _]]]. destruct (lsqr_state_facts H) as [E1 [E2 [E3 [E4 [E5 E6]]]]].
    pose proof (lsqr_it_bound Hb Hx0 H).
    pose proof (@run_count n m A b x0 damp atol btol conlim mx HA Hb Hx0 k s H).
    repeat split; auto; try congruence; try lia. intros Hi. apply E3. lia.
  Qed.
  Lemma lsqr_gk i j si sj : (i < j)%nat -> lsqr_after A b x0 damp atol btol conlim mx i si -> lsqr_after A b x0 damp atol btol conlim mx j sj ->
    nrm2 (lq_u si) = 1 /\ nrm2 (lq_v si) = 1 /\ rdot (lq_u si) (lq_u sj) = 0 /\ rdot (lq_v si) (lq_v sj) = 0.
  Proof.
    intros Hij Hi Hj. destruct (@run_orthonormal n m A b x0 damp atol btol conlim mx HA Hb Hx0 j sj Hj i j si sj ltac:(lia) Hi Hj) as [R1 R2].
    destruct (R1 Hij) as [A1 A2]. destruct (R2 Hij) as [A3 A4]. auto.
  Qed.
  Lemma lsqr_krylov k s d : lsqr_after A b x0 damp atol btol conlim mx k s ->
    in_span n (krylov (fun z => so_trans A (so_times A z)) (so_trans A (rsub b (so_times A x0))) k) d -> length d = n ->
    damped_objective A b x0 damp (lq_x s) <= damped_objective A b x0 damp (radd x0 d).
  Proof.
    intros H Hd Ld. pose proof (@run_optimal n m A b x0 damp atol btol conlim mx HA Hb Hx0 k s H d Hd) as K.
    unfold damped_objective. replace (rsub (radd x0 d) x0) with d by veq. exact K.
  Qed.
  Lemma lsqr_no_damp s : damp = 0 -> lq_r_norm s = sqrt (damped_objective A b x0 damp (lq_x s)) ->
    lq_r_norm s = nrm (rsub b (so_times A (lq_x s))).
  Proof. intros -> E. rewrite E. unfold damped_objective, nrm. f_equal. fold (nrm2 (rsub b (so_times A (lq_x s)))). ring. Qed.
  Lemma lsqr_nonincreasing k s s' : lsqr_after A b x0 damp atol btol conlim mx k s -> lsqr_after A b x0 damp atol btol conlim mx (S k) s' ->
    damped_objective A b x0 damp (lq_x s') <= damped_objective A b x0 damp (lq_x s).
  Proof.
    intros H H'. destruct (reaches_S_inv H') as [t [Ht [C E]]]. assert (t = s) by (eapply reaches_fun; eauto). subst t.
    pose proof (lsqr_r_mono HA Hb Hx0 H C E) as M. destruct (lsqr_state_facts H) as [F _]. destruct (lsqr_state_facts H') as [F' _].
    rewrite F, F' in M. apply sqrt_le_0; auto; unfold damped_objective.
    - apply Rplus_le_le_0_compat; [apply nrm2_pos|]. apply Rmult_le_pos; [apply Rle_0_sqr|apply nrm2_pos].
    - apply Rplus_le_le_0_compat; [apply nrm2_pos|]. apply Rmult_le_pos; [apply Rle_0_sqr|apply nrm2_pos].
  Qed.
  Lemma lsqr_stop fuel s : lsqr A b x0 damp atol btol conlim mx fuel = Done s ->
    (mx <= lq_it s)%nat \/ damped_objective A b x0 damp (lq_x s) <= 0 \/ nrm (damped_descent A b x0 damp (lq_x s)) <= 0 \/
    (conlim <> 0 /\ 1 <= 1 / conlim * lq_A_cond s) \/
    nrm (damped_descent A b x0 damp (lq_x s)) <= atol * nrm (damped_descent A b x0 damp x0) \/
    sqrt (damped_objective A b x0 damp (lq_x s)) <= btol * sqrt (damped_objective A b x0 damp x0) + atol * lq_A_norm s * lq_x_norm s.
  Proof.
    intros H. pose proof (@lsqr_exit n m A b x0 damp atol btol conlim mx HA Hb Hx0 fuel s H) as X.
    destruct (@lsqr_final fuel s H) as [F1 [F2 _]].
    destruct (lsqr_state_facts (reach_0 (lsqr_cond A b x0 atol btol conlim mx) (lsqr_body A damp) (lsqr_init A b x0))) as [G1 [G2 _]].
    rewrite G1, G2, F1, F2 in X. cbn [lq_x lsqr_init] in X.
    assert (P : 0 <= damped_objective A b x0 damp (lq_x s)).
    { apply Rplus_le_le_0_compat; [apply nrm2_pos|]. apply Rmult_le_pos; [apply Rle_0_sqr|apply nrm2_pos]. }
    destruct X as [X|[X|[X|[X|[X|X]]]]]; auto 8. right. left.
    pose proof (sqrt_pos (damped_objective A b x0 damp (lq_x s))). assert (Z : sqrt (damped_objective A b x0 damp (lq_x s)) = 0) by lra.
    apply sqrt_eq_0 in Z; lra.
  Qed.
End L.
Lemma A22_op : adjoint_ops 2 2 (so_times (SimpleOp (mv A22) (mtv 2 A22))) (so_trans (SimpleOp (mv A22) (mtv 2 A22))).
Proof. apply A22_setting. Qed.
(** one-dimensional A = 1, b = 2, x0 = 1: the estimate after the only update is |x - x0| = 1 while |x| = 2 *)
Lemma lsqr_xnorm_wrong : exists s, lsqr identity_op [2] [1] 0 0 0 0 2 1 = Done s /\ lq_x s = [2] /\ lq_x_norm s <> nrm (lq_x s).
Proof.
  assert (HA : adjoint_ops 1 1 (so_times identity_op) (so_trans identity_op)) by apply id_adjoint.
  destruct (@lsqr_total 1 1 identity_op [2] [1] 0 0 0 0 2 HA eq_refl eq_refl 1 ltac:(simpl; lia)) as [s E].
  exists s. split; auto. pose proof (@lsqr_final 1 1 identity_op [2] [1] 0 0 0 0 2 HA eq_refl eq_refl 1 s E) as [F1 [F2 [F3 [F4 [F5 [F6 F7]]]]]].
  assert (G : (1 < lq_it s)%nat /\ lq_x s = [2]).
  { unfold lsqr in E. apply while_done in E as [k [_ [H C]]]. destruct (@lsqr_state_facts 1 1 identity_op [2] [1] 0 0 0 0 2 HA eq_refl eq_refl k s H) as [_ [_ [_ [E4 _]]]].
    assert (N1 : nrm [1] = 1) by (unfold nrm; cbn [rdot]; replace (1 * 1 + 0) with 1 by ring; apply sqrt_1).
    destruct k as [|k].
    - exfalso. inversion H; subst s. revert C.
      unfold lsqr_cond, lsqr_init. cbv zeta. cbn [lq_r_norm lq_atr_norm lq_it lq_A_cond lq_A_norm lq_x_norm so_times so_trans identity_op rsub zipw].
      replace (2 - 1) with 1 by ring. rewrite !N1. unfold unit_if_pos. destruct (Rltb_spec 0 1); [|lra]. cbn [rscale map].
      replace (/ 1 * 1) with 1 by field. rewrite !N1. 
      replace (1 / 1) with 1 by field.
      rdec. cbn. discriminate.
    - destruct (reaches_S_inv H) as [s1 [H1 [C1 B1]]]. assert (k = 0%nat).
      { destruct (@run_count 1 1 identity_op [2] [1] 0 0 0 0 2 HA eq_refl eq_refl _ _ H). lia. }
      subst k. split; [lia|]. clear H1.
      assert (X : (2 - (lq_x s)@0) * (2 - (lq_x s)@0) <= 0 /\ length (lq_x s) = 1%nat).
      { assert (Lx : length (lq_x s) = 1%nat) by (apply (@lsqr_rest 1 1 identity_op [2] [1] 0 0 0 0 2 HA eq_refl eq_refl 1 s H)).
        split; auto.
        assert (K : in_span 1 (krylov (fun z => so_trans identity_op (so_times identity_op z)) (so_trans identity_op (rsub [2] (so_times identity_op [1]))) 1) [1]).
        { exists [1]. split; [reflexivity|]. cbn [krylov map seq Nat.iter nat_rect lincomb so_times so_trans identity_op rsub zipw rscale radd rzero repeat]. f_equal. ring. }
        pose proof (@lsqr_krylov 1 1 identity_op [2] [1] 0 0 0 0 2 HA eq_refl eq_refl 1 s [1] H K eq_refl) as Q. destruct (lq_x s) as [|x [|]]; try discriminate.
        unfold damped_objective, nrm2 in Q. cbn [so_times identity_op rsub zipw radd rdot] in Q. cbn [nth]. lra. }
      destruct X as [X Lx]. destruct (lq_x s) as [|x [|]]; try discriminate. cbn [nth] in X.
      f_equal. pose proof (Rle_0_sqr (2 - x)). unfold Rsqr in *. assert (Z : (2 - x) * (2 - x) = 0) by lra. apply Rmult_integral in Z. lra. }
  destruct G as [G1 G2]. split; auto. rewrite F3 by auto. rewrite G2. cbn [rsub zipw]. unfold nrm. cbn [rdot].
  replace ((2 - 1) * (2 - 1) + 0) with 1 by ring. replace (2 * 2 + 0) with (2 * 2) by ring. rewrite sqrt_1, sqrt_square by lra. lra.
Qed.
