(** Convergence of the YALL1 runs, and their stopping without the iteration limit. *)
From Coq Require Import List Arith Bool Lia Reals Lra Psatz.
From Verif Require Import Vec RVec RMat Loop LoopLemmas XReal SolverSpec SolverLemmas OptProofs FomProofs2 SpglProofs YallModel YallSpec YallProofs YallProofs2 YallProofs3 SeqSpec SeqProofs SeqProofs2 YallConvProofs YallConvProofs2.
Import ListNotations.
Set Implicit Arguments.
Unset Strict Implicit.
Local Open Scope R_scope.

Section Runs.
  Variables (n m : nat) (A T : vec -> vec) (b w : vec) (nonneg : bool) (p : yall_problem) (x0 z0 : vec).
  Hypothesis Adj : adjoint_ops n m A T.
  Hypothesis Lb : length b = m.
  Hypothesis Lw : length w = n.
  Hypothesis Pw : forall i, (i < n)%nat -> 0 < w@i.
  Hypothesis P : problem_ok p.
  Hypothesis O : orthonormal_rows m A T.
  Hypothesis N0 : b <> rzero m.
  Hypothesis L0 : length x0 = n.
  Hypothesis L1 : length z0 = n.
  Notation iter := (ya_iteration A T b w nonneg 1 p).
  Notation kkt := (yall_kkt n m A T b w nonneg p).
  Notation init := (ya_init A T b w p x0 z0).
  Notation St := (st A T b w nonneg p init).
  Let Li : length (ya_x init) = n. Proof. exact L0. Qed.
  Let Lj : length (ya_z init) = n. Proof. exact L1. Qed.
  Notation after tol mx k s := (reaches (ya_cond b tol mx p) (ya_double A T b w nonneg 1 p) init k s).
  Lemma run_state tol mx k s : after tol mx k s -> s = St (2 * k).
  Proof.
    induction 1 as [|k s s' H IH C E]; [reflexivity|]. unfold ya_double in E. rewrite IH in E.
    rewrite (@st_step n m A T b w nonneg p Adj Lb Lw Pw P N0 init Li Lj (2 * k)) in E.
    rewrite (@st_step n m A T b w nonneg p Adj Lb Lw Pw P N0 init Li Lj (S (2 * k))) in E. injection E as <-. f_equal. lia.
  Qed.
  Lemma run_counts tol mx k s : after tol mx k s -> ya_iterations s = (2 * k)%nat.
  Proof.
    intros H. rewrite (run_state H). generalize (2 * k)%nat. clear H. induction n0 as [|j IH]; [reflexivity|].
    destruct (@st_len n m A T b w nonneg p Adj Lb Lw Pw P N0 init Li Lj j) as [Q1 Q2].
    destruct (@iter_inv n m A T b w nonneg 1 p Adj Lb Lw P _ _ Q1 Q2 (@st_step n m A T b w nonneg p Adj Lb Lw Pw P N0 init Li Lj j)) as (q & y & H).
    destruct H as (_ & _ & _ & _ & _ & _ & _ & _ & _ & _ & _ & _ & E & _). rewrite E. lia.
  Qed.
  Lemma st_prev j : ya_x_prev (St (S j)) = ya_x (St j).
  Proof.
    destruct (@st_len n m A T b w nonneg p Adj Lb Lw Pw P N0 init Li Lj j) as [Q1 Q2].
    destruct (@iter_inv n m A T b w nonneg 1 p Adj Lb Lw P _ _ Q1 Q2 (@st_step n m A T b w nonneg p Adj Lb Lw Pw P N0 init Li Lj j)) as (q & y & H). tauto.
  Qed.
  Lemma runs_converge xs ys : kkt xs ys -> exists xl yl, kkt xl yl /\ forall eps, 0 < eps -> exists N, forall tol mx k s, (N <= k)%nat -> after tol mx k s ->
    nrm (rsub (ya_x s) xl) < eps /\ nrm (rsub (ya_z s) (T yl)) < eps.
  Proof.
    intros K. destruct (@yall_converges n m A T b w nonneg p Adj Lb Lw Pw P O N0 init Li Lj xs ys K) as (xl & yl & Kl & [_ C1] & [_ C2]).
    exists xl, yl. split; auto. intros eps He. destruct (C1 eps He) as [N1 H1]. destruct (C2 eps He) as [N2 H2]. exists (N1 + N2)%nat. intros tol mx k s Hk H.
    rewrite (run_state H). split; [apply H1; lia|apply H2; lia].
  Qed.
  Lemma stops xs ys tol : kkt xs ys -> 0 < tol -> ~ yall_solves n A b w nonneg p (rzero n) ->
    exists N, forall mx fuel s, ya_run A T b w nonneg 1 tol mx p x0 z0 fuel = Done s -> (ya_iterations s <= N)%nat.
  Proof.
    intros K Ht NZ. destruct (@yall_converges n m A T b w nonneg p Adj Lb Lw Pw P O N0 init Li Lj xs ys K) as (xl & yl & Kl & [Lxl C1] & _).
    assert (Px : 0 < nrm xl).
    { pose proof (nrm_pos xl). destruct (Req_dec (nrm xl) 0) as [Z|]; [|lra]. exfalso. apply NZ. apply nrm_eq0 in Z. rewrite Lxl in Z. rewrite <- Z.
      eapply kkt_solves; eauto. intros i Hi. left. auto. }
    set (a := nrm xl) in *. set (e := Rmin (a / 2) (tol * a / 8)). assert (He : 0 < e) by (unfold e; apply Rmin_glb_lt; nra).
    destruct (C1 e He) as [N HN]. exists (2 * (N + 1))%nat. intros mx fuel s E.
    apply while_done in E as [k [_ [H _]]]. rewrite (run_counts H). destruct (le_lt_dec k (N + 1)) as [|Hk]; [lia|]. exfalso.
    destruct k as [|k]; [lia|]. destruct (reaches_S_inv H) as [s1 [H1 [C Bd]]].
    assert (XC : xgtb (x_change s1) (tol * (1 - 1 / 10)) = true \/ xgtb (x_change s1) tol = true).
    { unfold ya_cond in C. destruct p; rewrite !andb_true_iff in C; tauto. }
    rewrite (run_state H1) in XC. destruct k as [|k]; [lia|]. replace (2 * S k)%nat with (S (2 * k + 1))%nat in XC by lia.
    unfold x_change in XC. rewrite st_prev in XC. set (u := St (2 * k + 1)) in *. set (v := St (S (2 * k + 1))) in *.
    assert (Hu : nrm (rsub (ya_x u) xl) < e) by (apply HN; lia). assert (Hv : nrm (rsub (ya_x v) xl) < e) by (apply HN; lia).
    assert (Lu : length (ya_x u) = n) by apply (@st_len n m A T b w nonneg p Adj Lb Lw Pw P N0 init Li Lj).
    assert (Lv : length (ya_x v) = n) by apply (@st_len n m A T b w nonneg p Adj Lb Lw Pw P N0 init Li Lj).
    assert (B1 : nrm (rsub (ya_x v) (ya_x u)) < 2 * e).
    { pose proof (@nrm_sub_triang n (ya_x v) xl (ya_x u) Lv Lxl Lu) as Tr. rewrite (@nrm_sub_sym xl (ya_x u)) in Tr by lia. lra. }
    assert (B2 : a / 2 < nrm (ya_x v)).
    { pose proof (@nrm_triang_sub xl (ya_x v) ltac:(lia)) as Tr. rewrite (@nrm_sub_sym xl (ya_x v)) in Tr by lia. fold a in Tr. pose proof (Rmin_l (a / 2) (tol * a / 8)). fold e in H0. lra. }
    assert (E2 : e <= tol * a / 8) by apply Rmin_r.
    unfold xdiv in XC. destruct (Reqb_spec (nrm (ya_x v)) 0); [lra|]. unfold xgtb in XC. rewrite !Rltb_true in XC.
    assert (B3 : nrm (rsub (ya_x v) (ya_x u)) / nrm (ya_x v) < tol / 2).
    { apply Rmult_lt_reg_r with (nrm (ya_x v)); [lra|]. unfold Rdiv. rewrite Rmult_assoc, Rinv_l, Rmult_1_r by lra.
      assert (tol * / 2 * (a / 2) < tol * / 2 * nrm (ya_x v)) by (apply Rmult_lt_compat_l; lra). lra. }
    destruct XC; lra.
  Qed.
End Runs.
