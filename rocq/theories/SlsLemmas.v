(** Instances and counterexamples for power iterations, ISTA and FISTA. *)
From Coq Require Import List Arith Bool Lia Reals Lra Psatz.
From Verif Require Import Vec RVec RMat Loop XReal OptSpec OptModel OptProofs OptProofs2 OptProofs3 OptLemmas SolverSpec LoopLemmas CGModel CGProofs SolverLemmas SlsModel SlsSpec SlsProofs.
Import ListNotations.
Set Implicit Arguments.
Local Open Scope R_scope.
Ltac leq := repeat (apply (f_equal2 (@cons R)); [first [ring|field]|]); reflexivity.
Section Setting.
  Variables (n m : nat) (A B : simple_op) (b x0 : vec) (f : vec -> R) (step L : R) (thr : nat -> vec -> vec) (rtol xtol : R) (mx : nat).
  Hypothesis HS : prox_gradient_setting n m A B b x0 f step L thr.
  Lemma setting_strong i a : length a = n -> strong n everywhere f step a (thr i a).
  Proof.
    destruct HS as [_ [_ [_ [_ [Hs [_ [_ [Cf HT]]]]]]]]. intros La. destruct (HT i a La) as [L1 [_ H]].
    apply convex_strong; auto; [lra|]. intros z Hz. now apply H.
  Qed.
  Lemma set_ista_mono k s s' : ista_after A b x0 step thr B rtol xtol mx k s -> ista_after A b x0 step thr B rtol xtol mx (S k) s' ->
    reg_objective (so_times A) (so_trans B) b f (is_x s') <= reg_objective (so_times A) (so_trans B) b f (is_x s) - nrm2 (rsub (is_x s') (is_x s)) / (2 * step).
  Proof.
    intros H1 H2. destruct (reaches_S_inv H2) as [s1 [H3 [C E]]]. rewrite (reaches_fun H1 H3).
    destruct HS as [HA [HB [Hb [Hx [Hs [HsL [HL [Cf HT]]]]]]]].
    eapply ista_monotone with (n := n) (m := m) (L := L); eauto. apply setting_strong.
  Qed.
  Lemma set_ista_rate q k s : length q = n -> (0 < k)%nat -> ista_after A b x0 step thr B rtol xtol mx k s ->
    reg_objective (so_times A) (so_trans B) b f (is_x s) - reg_objective (so_times A) (so_trans B) b f q <= nrm2 (rsub x0 q) / (2 * step * INR k).
  Proof.
    intros Hq Hk H. destruct HS as [HA [HB [Hb [Hx [Hs [HsL [HL [Cf HT]]]]]]]].
    assert (K : INR k * (2 * step * (reg_objective (so_times A) (so_trans B) b f (is_x s) - reg_objective (so_times A) (so_trans B) b f q)) <= nrm2 (rsub x0 q) - nrm2 (rsub (is_x s) q)).
    { eapply ista_rate with (n := n) (m := m) (L := L); eauto. apply setting_strong. }
    pose proof (nrm2_pos (rsub (is_x s) q)). pose proof (lt_0_INR k Hk).
    assert (0 < 2 * step * INR k) by nra. apply Rmult_le_reg_r with (2 * step * INR k); auto.
    replace (nrm2 (rsub x0 q) / (2 * step * INR k) * (2 * step * INR k)) with (nrm2 (rsub x0 q)) by (field; split; lra). lra.
  Qed.
  Lemma set_ista_fixed k s q : ista_after A b x0 step thr B rtol xtol mx (S k) s -> is_change s = 0 -> length q = n ->
    reg_objective (so_times A) (so_trans B) b f (is_x s) <= reg_objective (so_times A) (so_trans B) b f q.
  Proof.
    intros H E Hq. destruct HS as [HA [HB [Hb [Hx [Hs [HsL [HL [Cf HT]]]]]]]].
    eapply ista_fixed with (n := n) (m := m) (L := L); eauto. apply setting_strong.
  Qed.
  Lemma set_fista_rate q k s : length q = n -> (0 < k)%nat -> fista_after A b x0 step thr B rtol xtol mx k s ->
    reg_objective (so_times A) (so_trans B) b f (fs_x s) - reg_objective (so_times A) (so_trans B) b f q
      <= 2 * nrm2 (rsub x0 q) / (step * ((INR k + 1) * (INR k + 1))).
  Proof.
    intros Hq Hk H. destruct HS as [HA [HB [Hb [Hx [Hs [HsL [HL [Cf HT]]]]]]]].
    eapply fista_rate with (n := n) (m := m) (L := L); eauto. apply setting_strong.
  Qed.
End Setting.
Lemma id_adjoint n : adjoint_ops n n (fun x => x) (fun x => x).
Proof. repeat split; auto. Qed.
Lemma id_orthonormal n : orthonormal_basis n (so_times identity_op) (so_trans identity_op).
Proof. split; [apply id_adjoint|]. split; auto. Qed.
(** soft thresholding by step * lambda is the threshold function of the l1
    regularised problem *)
Lemma soft_setting n m A B b x0 lam step L :
  adjoint_ops n m (so_times A) (so_trans A) -> orthonormal_basis n (so_times B) (so_trans B) -> length b = m -> length x0 = n ->
  0 <= lam -> 0 < step -> step * L <= 1 -> (forall x, length x = n -> nrm2 (so_times A x) <= L * nrm2 x) ->
  prox_gradient_setting n m A B b x0 (fun z => lam * nrm1 z) step L (fun _ a => soft_threshold a (step * lam)).
Proof.
  intros. repeat (split; [assumption|]). split.
  - intros x y s Hx Hy Hs. pose proof (@nrm1_convex n x y s Hx Hy Hs) as K. apply (Rmult_le_compat_l lam) in K; lra.
  - intros _ a La. assert (K : 0 <= step * lam) by nra. pose proof (strong_min (strong_shrink a K La)) as [L1 [_ M]].
    split; [exact L1|]. split; [exact I|]. intros z Hz _. destruct (M z Hz I) as [M1 M2].
    unfold prox_obj in *. rewrite <- !Rmult_assoc. split; [exact M1|exact M2].
Qed.
Lemma A22_setting : prox_gradient_setting 2 2 (SimpleOp (mv A22) (mtv 2 A22)) identity_op [3; 3] [0; 0]
  (fun z => / 2 * nrm1 z) (/ 10) 10 (fun _ a => soft_threshold a (/ 10 * / 2)).
Proof.
  destruct A22_spd as [S1 _]. apply soft_setting; try lra; auto.
  - cbn [so_times so_trans]. split; [now apply mv_linear|]. split.
    + split; [intros x Hx; apply mtv_len; apply S1|]. split.
      * intros [|a [|c [|]]] [|d [|e [|]]] H1 H2; try discriminate. unfold A22. cbn [mtv fold_right map zipw radd rscale rzero repeat rdot]. leq.
      * intros k [|a [|c [|]]] H1; try discriminate. unfold A22. cbn [mtv fold_right map zipw radd rscale rzero repeat rdot]. leq.
    + intros x y Hx Hy. apply mv_adj; auto. apply S1.
  - apply id_orthonormal.
  - intros [|a [|c [|]]] H1; try discriminate. unfold nrm2, A22. cbn [so_times mv map rdot].
    pose proof (Rle_0_sqr a). pose proof (Rle_0_sqr c). pose proof (Rle_0_sqr (a - c)). pose proof (Rle_0_sqr (a + c)). unfold Rsqr in *. lra.
Qed.
(** the residual returned by fista is that of the extrapolated point *)
Lemma fista_residual_wrong : exists s, fista identity_op [1] [0] (/ 2) (fun _ a => a) identity_op 0 0 2 2 = Done s /\
  fs_r s <> rsub [1] (so_times identity_op (fs_x s)).
Proof.
  set (t1 := (1 + sqrt (1 + 4 * (1 * 1))) / 2).
  set (t2 := (1 + sqrt (1 + 4 * (t1 * t1))) / 2).
  assert (P1 : 1 < sqrt (1 + 4 * (1 * 1))) by (rewrite <- sqrt_1 at 1; apply sqrt_lt_1; lra).
  assert (P2 : 0 <= sqrt (1 + 4 * (t1 * t1))) by apply sqrt_pos.
  assert (Q1 : 1 < t1) by (unfold t1; lra). assert (Q2 : 0 < t2) by (unfold t2; lra).
  unfold fista. cbn [while_]. unfold fista_cond at 1. cbn [fista_init fs_it fs_change fs_rn2 so_times identity_op].
  unfold nrm2. cbn [rdot rsub zipw].
  assert (B10 : (0 < 10 ^ 10)) by (apply pow_lt; lra).
  destruct (Rltb_spec 0 (10 ^ 10)); [|lra]. destruct (Rltb_spec ((1 * 1 + 0) * (0 * 0)) ((1 - 0) * (1 - 0) + 0)); [|lra].
  cbn [Nat.ltb Nat.leb andb]. unfold fista_body at 1.
  cbn [fs_r fs_z fs_x fs_t fs_it so_times so_trans identity_op fista_init rscale radd rsub map zipw]. fold t1.
  cbn [while_]. unfold fista_cond at 1. cbn [fs_it fs_change fs_rn2 so_times identity_op].
  assert (N : 0 < nrm [0 + / 2 * (1 - 0) - 0]) by (unfold nrm; cbn [rdot]; apply sqrt_lt_R0; lra).
  destruct (Rltb_spec 0 (nrm [0 + / 2 * (1 - 0) - 0])); [|lra].
  unfold nrm2. cbn [rdot].
  assert (E0 : (1 - 1) / t1 = 0) by (unfold Rdiv; ring). rewrite !E0.
  destruct (Rltb_spec ((1 * 1 + 0) * (0 * 0)) ((1 - (0 + / 2 * (1 - 0) + 0 * (0 + / 2 * (1 - 0) - 0))) * (1 - (0 + / 2 * (1 - 0) + 0 * (0 + / 2 * (1 - 0) - 0))) + 0)); [|lra].
  cbn [Nat.ltb Nat.leb andb]. unfold fista_body at 1.
  cbn [fs_r fs_z fs_x fs_t fs_it so_times so_trans identity_op fista_init rscale radd rsub map zipw]. fold t2.
  cbn [while_]. unfold fista_cond at 1. cbn [fs_it Nat.ltb Nat.leb andb].
  eexists. split; [reflexivity|]. cbn [fs_r fs_x so_times identity_op rsub zipw]. intros H. injection H as H.
  assert (0 < (t1 - 1) / t2) by (apply Rdiv_lt_0_compat; lra). nra.
Qed.
(** no power iteration at all: the estimate is the initial placeholder *)
Lemma power_zero_wrong : exists A b sol, linear_op 1 1 A /\ symmetric_op 1 A /\ psd_op 1 A /\ length b = 1%nat /\
  (forall x, length x = 1%nat -> rdot x (A x) <= 1 * nrm2 x) /\
  power_iterations A b 0 0 1 = Done sol /\ 1 < ps_s sol.
Proof.
  exists (fun x => x), [1]. eexists. split; [exact (proj1 (id_adjoint 1))|]. split; [intros x y _ _; reflexivity|].
  split; [intros x _; apply nrm2_pos|]. split; [reflexivity|]. split; [intros x _; unfold nrm2; lra|]. split.
  - apply power_zero_iters. unfold normalize. destruct (Reqb_spec (nrm [1]) 0); [|reflexivity].
    exfalso. assert (0 < nrm [1]) by (unfold nrm; cbn [rdot]; apply sqrt_lt_R0; lra). lra.
  - cbn [ps_s]. apply Rlt_pow_R1; [lra|lia].
Qed.
Lemma power_zero_operator n b mx tol fuel : length b = n -> (0 < mx)%nat -> tol < 2 -> power_iterations (fun x => rzero (length x)) b mx tol (S (S fuel)) = Fail.
Proof.
  intros Hb Hm Ht. unfold power_iterations. cbn [while_].
  assert (B : 0 < 10 ^ 20) by (apply pow_lt; lra).
  assert (C : power_cond mx tol (power_init b) = true).
  { unfold power_cond. cbn [power_init pw_it pw_old pw_new]. apply andb_true_iff. split; [apply Nat.ltb_lt; exact Hm|].
    destruct (Reqb_spec (- 10 ^ 20) 0); [lra|]. destruct (Rltb_spec tol (Rabs ((10 ^ 20 - - 10 ^ 20) / - 10 ^ 20))) as [|H]; auto.
    exfalso. replace ((10 ^ 20 - - 10 ^ 20) / - 10 ^ 20) with (-2) in H by (field; lra). rewrite Rabs_left in H; lra. }
  rewrite C. clear C. unfold power_body at 1. cbn [power_init pw_v pw_new pw_it].
  destruct (normalize b) as [v|] eqn:E; [|reflexivity]. apply normalize_some in E as [_ [_ [_ Lv]]].
  assert (Z : nrm (rzero (length v)) = 0) by (unfold nrm; rewrite rdot_zero_l; apply sqrt_0).
  assert (NZ : normalize (rzero (length v)) = None) by (unfold normalize; rewrite Z; destruct (Reqb_spec 0 0); [reflexivity|lra]).
  cbn [while_]. destruct (power_cond _ _ _).
  - match goal with |- context [power_body ?f ?s] => assert (E0 : power_body f s = None) end.
    { unfold power_body. cbn [pw_v]. now rewrite NZ. }
    rewrite E0. reflexivity.
  - cbn [pw_v]. now rewrite NZ.
Qed.
(** the estimate belongs to the previous vector, not to the returned one *)
Lemma power_vector_wrong : exists sol, power_iterations (mv [[3; 4]; [4; 0]]) [1; 0] 1 0 2 = Done sol /\
  nrm (ps_v sol) = 1 /\ ps_s sol <> rdot (ps_v sol) (mv [[3; 4]; [4; 0]] (ps_v sol)).
Proof.
  set (M := mv [[3; 4]; [4; 0]]).
  assert (N1 : nrm [1; 0] = 1) by (unfold nrm; cbn [rdot]; replace (1 * 1 + (0 * 0 + 0)) with 1 by ring; apply sqrt_1).
  assert (S1 : normalize [1; 0] = Some [1; 0]).
  { unfold normalize. rewrite N1. destruct (Reqb_spec 1 0); [lra|]. cbn [rscale map]. apply f_equal. leq. }
  assert (M1 : M [1; 0] = [3; 4]) by (unfold M; cbn [mv map rdot]; leq).
  assert (N2 : nrm [3; 4] = 5).
  { unfold nrm. cbn [rdot]. replace (3 * 3 + (4 * 4 + 0)) with (5 * 5) by ring. apply sqrt_square. lra. }
  assert (S2 : normalize [3; 4] = Some [3 / 5; 4 / 5]).
  { unfold normalize. rewrite N2. destruct (Reqb_spec 5 0); [lra|]. cbn [rscale map]. apply f_equal. leq. }
  assert (B : 0 < 10 ^ 20) by (apply pow_lt; lra).
  unfold power_iterations. cbn [while_].
  assert (C : power_cond 1 0 (power_init [1; 0]) = true).
  { unfold power_cond. cbn [power_init pw_it pw_old pw_new]. apply andb_true_iff. split; [reflexivity|].
    destruct (Reqb_spec (- 10 ^ 20) 0); [lra|]. destruct (Rltb_spec 0 (Rabs ((10 ^ 20 - - 10 ^ 20) / - 10 ^ 20))) as [|H]; auto.
    exfalso. replace ((10 ^ 20 - - 10 ^ 20) / - 10 ^ 20) with (-2) in H by (field; lra). rewrite Rabs_left in H; lra. }
  rewrite C. unfold power_body at 1. cbn [power_init pw_v pw_new pw_it]. rewrite S1, M1.
  cbn [while_]. unfold power_cond at 1. cbn [pw_it Nat.ltb Nat.leb andb pw_v]. rewrite S2.
  eexists. split; [reflexivity|]. cbn [ps_v ps_s]. split.
  - unfold nrm. cbn [rdot]. replace (3 / 5 * (3 / 5) + (4 / 5 * (4 / 5) + 0)) with 1 by field. apply sqrt_1.
  - unfold M. cbn [mv map rdot pw_new]. intros H. lra.
Qed.
