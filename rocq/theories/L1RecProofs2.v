(** Recovery of sparse vectors by the l1 solvers. *)
From Coq Require Import List Arith Bool Lia Reals Lra Psatz.
From Verif Require Import Scalar Vec RVec RMat Loop LoopLemmas XReal SolverSpec SolverLemmas OptSpec OptModel SelSpec SelProofs CGProofs SlsModel SlsSpec SlsProps SpglModel SpglSpec SpglProps L1lsModel L1lsSpec L1lsProps FomModel FomSpec FomProps YallModel YallSpec YallProofs YallProps PursuitModel PursuitSpec PursuitProofs L1RecSpec L1RecProofs.
Import ListNotations.
Set Implicit Arguments. Unset Strict Implicit.
Local Open Scope R_scope.

Lemma sparse_nearly K x : sparse K x -> nearly_sparse K 0 x.
Proof.
  intros S. exists x. split; auto. split; auto. apply Req_le. clear.
  induction x as [|a x IH]; auto. change (Rabs (a - a) + nrm1 (rsub x x) = 0). rewrite IH, Rminus_diag_eq, Rabs_R0 by auto. ring.
Qed.
Lemma nrm1_0 n x : length x = n -> nrm1 x <= 0 -> x = rzero n.
Proof.
  intros L H. apply vec_eq; [vl|]. intros i Hi. rewrite rzero_nth. pose proof (nrm1_pos x). assert (E : nrm1 x = 0) by lra.
  rewrite (@nrm1_sum n x L) in E. assert (Li : (i < n)%nat) by lia.
  pose proof (@rsum_eq0 n (fun i => Rabs (x@i)) (fun i _ => Rabs_pos _) E i Li) as Z. cbn beta in Z.
  destruct (Req_dec (x@i) 0); auto. now apply Rabs_no_R0 in H1.
Qed.
Lemma ones_wnorm n x : length x = n -> wnorm (repeat 1 n) x = nrm1 x.
Proof.
  intros L. unfold wnorm. f_equal. apply vec_eq; [vl|]. intros i Hi. rewrite rmul_nth by vl.
  replace ((repeat 1 n)@i) with 1; [ring|]. symmetry. apply (repeat_spec n). apply nth_In. vl.
Qed.
Lemma nrm2_sq x : nrm2 x = nrm x * nrm x. Proof. symmetry. apply nrm_sq. Qed.

Section Rec.
  Variables (n m K : nat) (A T : vec -> vec) (s mu sigma : R) (x : vec).
  Hypothesis Adj : adjoint_ops n m A T.
  Hypothesis Hi : incoherent n A s mu.
  Hypothesis Hmu : 0 <= mu.
  Hypothesis Hs : 0 < s.
  Hypothesis Lx : length x = n.
  Hypothesis Hc : (2 * INR K - 1) * mu < 1.
  Lemma unique z : sparse K x -> length z = n -> A z = A x -> nrm1 z <= nrm1 x -> z = x.
  Proof.
    intros Sx Lz E N.
    assert (B : nrm1 (rsub z x) <= constrained_error K s mu 0 0 0).
    { refine (constrained Adj Hi Hmu Hs Lx (sparse_nearly Sx) Lz Hc _ _ _); try lra.
      rewrite (@lin_sub n m A _ _ (proj1 Adj)) by auto. rewrite E. apply Req_le.
      replace (rsub (A x) (A x)) with (rzero m); [apply nrm_rzero|]. assert (length (A x) = m) by (now apply Adj). veq. }
    unfold constrained_error, Rdiv in B. rewrite !Rmult_0_l, !Rmult_0_r, !Rplus_0_r, !Rmult_0_r, Rplus_0_r, Rmult_0_l in B.
    apply nrm1_0 with (n := n) in B; [|vl]. apply vec_eq; [lia|]. intros i Hi'.
    assert ((rsub z x)@i = 0) by (rewrite B; apply rzero_nth). rewrite rsub_nth in H by lia. lra.
  Qed.
  Lemma fit_le b z r1 r2 : length b = m -> length z = n -> nrm (rsub b (A z)) <= r1 -> nrm (rsub b (A x)) <= r2 -> nrm (A (rsub z x)) <= r1 + r2.
  Proof.
    intros Lb Lz H1 H2. rewrite (@lin_sub n m A _ _ (proj1 Adj)) by auto.
    assert (length (A x) = m) by (now apply Adj). assert (length (A z) = m) by (now apply Adj).
    replace (rsub (A z) (A x)) with (radd (rsub b (A x)) (ropp (rsub b (A z)))) by veq.
    eapply Rle_trans; [apply nrm_triang; vl|]. rewrite nrm_opp. lra.
  Qed.
End Rec.

Section Sls.
  Variables (n m K : nat) (A B : simple_op) (b x0 x : vec) (s mu sigma lambda step L : R).
  Let AB := fun a => so_times A (so_times B a).
  Let TT := fun y => so_trans B (so_trans A y).
  Hypothesis HA : adjoint_ops n m (so_times A) (so_trans A).
  Hypothesis HB : orthonormal_basis n (so_times B) (so_trans B).
  Hypothesis Lb : length b = m.
  Hypothesis Lx0 : length x0 = n.
  Hypothesis Lx : length x = n.
  Hypothesis Hst : 0 < step.
  Hypothesis HsL : step * L <= 1.
  Hypothesis HL : forall z, length z = n -> nrm2 (so_times A z) <= L * nrm2 z.
  Hypothesis Hi : incoherent n AB s mu.
  Hypothesis Hmu : 0 <= mu.
  Hypothesis Hs : 0 < s.
  Hypothesis Hc : (25 * INR K - 1) * mu < 1.
  Hypothesis Sx : nearly_sparse K sigma (so_trans B x).
  Hypothesis Hl : 0 < lambda.
  Hypothesis Hn : 2 * nrminf (so_trans B (so_trans A (rsub b (so_times A x)))) <= lambda.
  Lemma AB_adj : adjoint_ops n m AB TT.
  Proof.
    destruct HA as ((A0 & A1 & A2) & (T0 & T1 & T2) & D). destruct HB as [((B0 & B1 & B2) & (U0 & U1 & U2) & D2) _]. unfold AB, TT. repeat split.
    - auto.
    - intros u v Lu Lv. rewrite B1, A1; auto.
    - intros c u Lu. rewrite B2, A2; auto.
    - auto.
    - intros u v Lu Lv. rewrite T1, U1; auto.
    - intros c u Lu. rewrite T2, U2; auto.
    - intros u v Lu Lv. rewrite D, D2; auto.
  Qed.
  Lemma sls_recovers z gap : length z = n -> 0 <= gap ->
    reg_objective (so_times A) (so_trans B) b (fun v => lambda * nrm1 v) z - reg_objective (so_times A) (so_trans B) b (fun v => lambda * nrm1 v) x <= gap ->
    nrm1 (rsub (so_trans B z) (so_trans B x)) <= penalised_error K s mu sigma lambda gap /\ nrm (rsub z x) <= penalised_error K s mu sigma lambda gap.
  Proof.
    intros Lz Hg H. destruct HB as [((B0 & B1 & B2) & LT & D2) [E1 E2]]. pose proof LT as (U0 & _).
    assert (P : nrm1 (rsub (so_trans B z) (so_trans B x)) <= penalised_error K s mu sigma lambda gap).
    { refine (@penalised n m AB TT s mu AB_adj Hi Hmu Hs K sigma (so_trans B x) (U0 _ Lx) Sx (so_trans B z) b lambda gap (U0 _ Lz) Lb Hc Hl _ Hg _).
      - unfold AB, TT. now rewrite E1.
      - unfold AB. rewrite !E1 by auto. unfold reg_objective in H. lra. }
    split; auto. eapply Rle_trans; [|exact P]. eapply Rle_trans; [|apply nrm_le_nrm1].
    rewrite <- (@lin_sub n n (so_trans B) _ _ LT) by auto. apply Req_le. unfold nrm. f_equal.
    assert (Lr : length (rsub z x) = n) by vl. rewrite <- D2 by auto. now rewrite E1.
  Qed.
  Lemma soft_set : prox_gradient_setting n m A B b x0 (fun z => lambda * nrm1 z) step L (fun _ a => soft_threshold a (step * lambda)).
  Proof. apply C37_soft_threshold; auto. lra. Qed.
End Sls.
