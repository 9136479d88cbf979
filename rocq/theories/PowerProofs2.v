From Coq Require Import List Arith Bool Lia Reals Lra.
From Verif Require Import Scalar Vec RVec RMat Loop LoopLemmas XReal OptSpec OptModel OptProofs CGModel SolverSpec SolverLemmas SlsModel SlsSpec SlsProofs SlsLemmas LopSpec LopOpSpec LopModel LopModel3 LopProofs2 LopProofs4 PowerSpec PowerProofs.
Import ListNotations.
Set Implicit Arguments.
Unset Strict Implicit.
Local Open Scope R_scope.

Lemma power_ends n A lam mu v b tol : dominant n A lam mu v -> length b = n -> rdot b v <> 0 -> 0 < tol ->
  exists k0, forall mx fuel, (k0 <= fuel)%nat -> exists sol, power_iterations A b mx tol fuel = Done sol /\ (ps_it sol <= k0)%nat.
Proof.
  intros HD Lb Hb Ht. pose proof (q_range HD) as Q. pose proof (tan2_pos HD Lb Hb) as T. pose proof (dom_mu HD) as Hmu.
  set (C := (Rabs lam + mu) * tan2 v b). assert (HC : 0 <= C) by (apply Rmult_le_pos; auto; pose proof (Rabs_pos lam); lra).
  assert (P : 0 < tol * Rabs lam / ((2 + tol) * (C + 1))) by (apply Rdiv_lt_0_compat; [apply Rmult_lt_0_compat; lra|apply Rmult_lt_0_compat; lra]).
  destruct (pow_lt_1_zero ((mu / lam) ^ 2) ltac:(rewrite Rabs_right; lra) _ P) as [k HN]. exists (S (S k)). intros mx fuel Hf.
  apply (power_ends_by HD mx Lb Hb Ht); auto. specialize (HN k ltac:(lia)). rewrite Rabs_right in HN by (apply Rle_ge, pow_le; lra).
  set (p := ((mu / lam) ^ 2) ^ k) in *. assert (Pp : 0 <= p) by (apply pow_le; lra).
  apply Rle_trans with (p * (C + 1) * (2 + tol)).
  - apply Rle_trans with (p * C * (2 + tol)); [unfold C; lra|]. apply Rmult_le_compat_r; [lra|]. apply Rmult_le_compat_l; lra.
  - apply Rlt_le. apply Rmult_lt_compat_r with (r := (2 + tol) * (C + 1)) in HN; [|apply Rmult_lt_0_compat; lra].
    unfold Rdiv in HN. rewrite Rmult_assoc, Rinv_l, Rmult_1_r in HN by (apply Rgt_not_eq, Rmult_lt_0_compat; lra). lra.
Qed.
(** *** refutations *)
Definition D21 : mat := [[2; 0]; [0; 1]].
Lemma D21_mv a b : mv D21 [a; b] = [2 * a; b]. Proof. cbn. leq. Qed.
Lemma D21_dominant : dominant 2 (mv D21) 2 1 [1; 0].
Proof.
  split; [split; [|split]|split].
  - intros [|a [|b [|]]]; try discriminate; reflexivity.
  - intros [|a [|b [|]]] [|c [|d [|]]]; try discriminate. intros _ _. cbn. leq.
  - intros c [|a [|b [|]]]; try discriminate. intros _. cbn. leq.
  - intros [|a [|b [|]]] [|c [|d [|]]]; try discriminate. intros _ _. rewrite !D21_mv. cbn. ring.
  - split; [reflexivity|]. split; [cbn; ring|]. split; [rewrite D21_mv; cbn; leq|]. split; [rewrite Rabs_right; lra|].
    intros [|a [|b [|]]]; try discriminate. intros _ E. rewrite D21_mv. cbn in *. assert (a = 0) by lra. subst a. lra.
Qed.
Opaque D21.
Lemma normalize_unit x : nrm2 x = 1 -> normalize x = Some x.
Proof.
  intros H. unfold normalize. assert (E : nrm x = 1) by (unfold nrm; fold (nrm2 x); rewrite H; apply sqrt_1). rewrite E. destruct (Reqb_spec 1 0); [lra|].
  f_equal. rewrite Rinv_1. apply vec_eq; [apply rscale_len|]. intros i _. rewrite rscale_nth. ring.
Qed.
Lemma power_orthogonal mx tol fuel sol : (0 < mx)%nat -> tol < 2 -> power_iterations (mv D21) [0; 1] mx tol fuel = Done sol -> ps_s sol = 1 /\ ps_v sol = [0; 1].
Proof.
  intros Hm Ht. unfold power_iterations. destruct (while_ _ _ _ _) as [s| |] eqn:W; try discriminate.
  destruct (normalize (pw_v s)) as [w|] eqn:En; [|discriminate]. intros H. injection H as <-. cbn [ps_v ps_s].
  apply while_done in W as [k [_ [W C]]].
  assert (U : normalize [0; 1] = Some [0; 1]) by (apply normalize_unit; cbn; ring).
  assert (I : pw_v s = [0; 1] /\ (k = 0%nat \/ pw_new s = 1)).
  { clear - W U. induction W as [|k s s' W [IH _] C E]; [auto|]. unfold power_body in E. rewrite IH, U in E. injection E as <-. cbn [pw_v pw_new]. rewrite D21_mv. split; [leq|right; cbn; ring]. }
  destruct I as [I1 I2]. rewrite I1, U in En. injection En as <-. split; auto. destruct I2 as [->|]; auto.
  inversion W; subst. unfold power_cond in C. cbn [power_init pw_it pw_new pw_old] in C. replace (0 <? mx)%nat with true in C by (symmetry; now apply Nat.ltb_lt).
  assert (0 < 10 ^ 20) by (apply pow_lt; lra). destruct (Reqb_spec (- 10 ^ 20) 0); [lra|]. cbn [andb] in C. apply Rltb_false in C.
  replace ((10 ^ 20 - - 10 ^ 20) / - 10 ^ 20) with (-2) in C by (field; lra). rewrite Rabs_left in C by lra. lra.
Qed.
(** the estimates hardly change at first when the start is almost orthogonal *)
Lemma rayleigh_scaled A n u w : linear_op n n A -> length u = n -> normalize u = Some w -> rdot w (A w) = rdot u (A u) / nrm2 u /\ A w = rscale (/ nrm u) (A u).
Proof.
  intros LA Lu E. apply normalize_some in E as [N1 [E [P Lw]]]. assert (EA : A w = rscale (/ nrm u) (A u)) by (rewrite E; now apply LA). split; auto.
  rewrite EA, E. rewrite rdot_scale_l, rdot_scale_r. assert (Q : nrm u * nrm u = nrm2 u) by (unfold nrm; apply sqrt_sqrt, rdot_pos). rewrite <- Q. field. lra.
Qed.
Lemma power_stops_early : exists sol, power_iterations (mv D21) [1 / 10000; 1] 100 (/ 10 ^ 6) 100 = Done sol /\ ps_it sol = 2%nat /\ ps_s sol <= 1 + / 10 ^ 6.
Proof.
  pose proof D21_dominant as HD. pose proof (dom_L HD) as LA. set (b := [1 / 10000; 1]).
  assert (Lb : length b = 2%nat) by reflexivity. assert (Hb : rdot b [1; 0] <> 0) by (cbn; lra).
  assert (B0 : power_body (mv D21) (power_init b) <> None) by (apply (@power_body_ok 2 (mv D21) 2 1 [1; 0] HD b 100 (/ 10 ^ 6) Lb Hb 0 (power_init b)); constructor).
  assert (C0 : power_cond 100 (/ 10 ^ 6) (power_init b) = true).
  { unfold power_cond. cbn [power_init pw_it pw_new pw_old Nat.ltb Nat.leb andb]. assert (0 < 10 ^ 20) by (apply pow_lt; lra). destruct (Reqb_spec (- 10 ^ 20) 0); [lra|].
    apply Rltb_true. replace ((10 ^ 20 - - 10 ^ 20) / - 10 ^ 20) with (-2) by (field; lra). rewrite Rabs_left by lra. lra. }
  destruct (power_body (mv D21) (power_init b)) as [s1|] eqn:E1; [|congruence]. clear B0.
  assert (R1 : reaches (power_cond 100 (/ 10 ^ 6)) (power_body (mv D21)) (power_init b) 1 s1) by (econstructor; [constructor|exact C0|exact E1]).
  pose proof (power_body_ok HD Lb Hb R1) as B1. destruct (power_body (mv D21) s1) as [s2|] eqn:E2; [|congruence]. clear B1.
  assert (V1 : pw_new s1 = rdot b (mv D21 b) / nrm2 b /\ exists c, c <> 0 /\ pw_v s1 = rscale c (mv D21 b) /\ pw_it s1 = 1%nat).
  { unfold power_body in E1. cbn [power_init pw_v pw_new pw_it] in E1. destruct (normalize b) as [u|] eqn:En; [|discriminate]. injection E1 as <-. cbn [pw_new pw_v pw_it].
    destruct (rayleigh_scaled LA Lb En) as [F1 F2]. split; auto. exists (/ nrm b). apply normalize_some in En as (_ & _ & P & _). split; auto. apply Rinv_neq_0_compat. lra. }
  destruct V1 as [V1 (c & Hc & V2 & I1)].
  assert (V3 : pw_new s2 = rdot (mv D21 b) (mv D21 (mv D21 b)) / nrm2 (mv D21 b) /\ pw_it s2 = 2%nat /\ pw_old s2 = pw_new s1).
  { unfold power_body in E2. destruct (normalize (pw_v s1)) as [u|] eqn:En; [|discriminate]. injection E2 as <-. cbn [pw_new pw_it pw_old]. rewrite I1. split; auto.
    destruct (@rayleigh_scaled (mv D21) 2 (pw_v s1) u LA) as [F1 _]; auto; [rewrite V2; reflexivity|]. rewrite F1, V2. unfold b. rewrite !D21_mv. unfold nrm2.
    replace (mv D21 (rscale c [2 * (1 / 10000); 1])) with (rscale c [2 * (2 * (1 / 10000)); 1]) by (cbn [rscale map]; rewrite D21_mv; leq). rewrite !rdot_scale_l, !rdot_scale_r. cbn. field. lra. }
  destruct V3 as (V3 & I2 & O2).
  assert (N1 : pw_new s1 = 1 + / (10 ^ 8 + 1)) by (rewrite V1; unfold b; rewrite D21_mv; unfold nrm2; cbn; field).
  assert (N2 : pw_new s2 = 1 + 1 / (10 ^ 8 / 4 + 1)) by (rewrite V3; unfold b; rewrite !D21_mv; unfold nrm2; cbn; field).
  assert (C1 : power_cond 100 (/ 10 ^ 6) s1 = true).
  { unfold power_cond. rewrite I1, N1. replace (pw_old s1) with (10 ^ 20) by (unfold power_body in E1; destruct (normalize _); [injection E1 as <-; reflexivity|discriminate]).
    assert (P20 : 0 < 10 ^ 20) by (apply pow_lt; lra). destruct (Reqb_spec (10 ^ 20) 0); [lra|]. cbn [Nat.ltb Nat.leb andb]. apply Rltb_true.
    rewrite Rabs_left; [lra|]. lra. }
  assert (C2 : power_cond 100 (/ 10 ^ 6) s2 = false).
  { unfold power_cond. rewrite I2, O2, N1, N2. apply andb_false_iff. right. destruct (Reqb_spec (1 + / (10 ^ 8 + 1)) 0); [lra|]. apply Rltb_false.
    rewrite Rabs_right; lra. }
  assert (R2 : reaches (power_cond 100 (/ 10 ^ 6)) (power_body (mv D21)) (power_init b) 2 s2) by (econstructor; [exact R1|exact C1|exact E2]).
  pose proof (power_body_ok HD Lb Hb R2) as B2.
  unfold power_iterations. change 100%nat with (S (S (S 97))) at 2. cbn [while_]. rewrite C0, E1, C1, E2, C2.
  unfold power_body in B2. destruct (normalize (pw_v s2)); [|congruence]. eexists. split; [reflexivity|]. cbn [ps_it ps_s]. split; auto. rewrite N2. lra.
Qed.
