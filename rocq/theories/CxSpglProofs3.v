(** Results about the complex l1-constrained solver. *)
From Coq Require Import ZArith List Arith Bool Lia Reals Lra Psatz.
From Verif Require Import Scalar Vec RVec RMat Loop LoopLemmas SolverSpec SolverLemmas LopModel LopSpec OptSpec OptModel OptProofs OptProofs2 SelModel SelProofs SpgModel SpglModel SpglSpec SpglProofs SpglProofs2 SeqSpec SeqProofs EigenProofs ConvProofs2 CxSpec CxModel CxProofs CxSpglModel CxSpglSpec GSpglProofs CxSpglProofs CxSpglProofs2.
Import ListNotations.
Set Implicit Arguments.
Unset Strict Implicit.
Local Open Scope R_scope.

Lemma flat_misfit A b x : misfit (lift A) (flat b) (flat x) = cmisfit A b x.
Proof. unfold misfit, cmisfit. now rewrite lift_flat, <- flat_sub, flat_nrm2. Qed.
Lemma flat_N1 x : N1 (flat x) = cl1 x. Proof. unfold N1. now rewrite unflat_flat. Qed.
Lemma flat_len' n (x : cvec) : length x = n -> length (flat x) = (2 * n)%nat.
Proof. intros L. rewrite flat_len. now rewrite <- L. Qed.
Lemma flat_solution n A b tau q : classo_solution n A b tau q -> glasso_solution (2 * n) N1 (lift A) (flat b) tau (flat q).
Proof.
  intros [L [C M]]. split; [now apply flat_len'|]. split; [now rewrite flat_N1|]. intros z Lz Cz. pose proof (unflat_len Lz) as Lu. pose proof (flat_unflat Lz) as E. rewrite <- E. rewrite !flat_misfit. apply M; auto.
Qed.
Lemma unflat_solution n A b tau v : glasso_solution (2 * n) N1 (lift A) (flat b) tau v -> classo_solution n A b tau (unflat v).
Proof.
  intros [L [C M]]. split; [now apply unflat_len|]. split; [exact C|]. intros z Lz Cz. rewrite <- !flat_misfit, (flat_unflat L). apply M; [now apply flat_len'|now rewrite flat_N1].
Qed.
Lemma N1_pos v : 0 <= N1 v. Proof. apply cnrm1_pos. Qed.
Lemma Ni_pos v : 0 <= Ni v. Proof. apply clinf_pos. Qed.

Section Runs.
  Variables (n m : nat) (A T : cvec -> cvec) (b : cvec) (tau : R) (x0 : cvec).
  Hypothesis AD : is_adjoint m n A T.
  Hypothesis Lb : length b = m.
  Hypothesis Lx0 : length x0 = n.
  Hypothesis Ht : 0 <= tau.
  Let AD' := lift_adjoint AD.
  Let Lb' := flat_len' Lb.
  Let Lx' := flat_len' Lx0.
  Let GP := gap_lift AD Lb Ht.
  Section Opt.
  Variable opt : spgl1_options.
  Hypothesis Hamin : 0 < go_alpha_min opt.
  Hypothesis Hamax : go_alpha_min opt <= go_alpha_max opt.
  Lemma ok_truthful s : lasso_ok (2 * n) N1 Ni gapf (lift A) (lift T) (flat b) tau opt (fl_la s) -> ctruthful n A T b tau s.
  Proof.
    intros [Lx [Hx [Er [Eg [En [Egap [_ Ent]]]]]]]. cbn [fl_la la_x la_r la_g la_r_norm la_r_gap la_n_times la_iterations la_ls_iters] in *.
    rewrite lift_flat, <- flat_sub in Er. apply flat_inj in Er. rewrite lift_flat, <- flat_opp in Eg. apply flat_inj in Eg.
    assert (L : length (cla_x s) = n). { rewrite flat_len in Lx. apply (Nat.mul_cancel_l _ _ 2); [lia|exact Lx]. }
    rewrite flat_N1 in Hx. rewrite lift_flat, <- flat_sub, flat_nrm in En.
    split; auto. split; auto. split; auto. split; auto. split; auto. split; auto. intros z Lz Cz.
    pose proof (@lasso_gap (2 * n) N1 Ni Ni_pos (@Hholder n) (2 * m) (lift A) (lift T) (flat b) (flat (cla_x s)) tau AD' Lb' Lx (flat z) (flat_len' Lz)) as G. rewrite flat_N1 in G. specialize (G Cz).
    destruct (GP Lx) as [Ga _]; [now rewrite flat_N1|]. rewrite !flat_misfit in G. rewrite flat_misfit, Eg, Er in Egap.
    rewrite !lift_flat, <- !flat_sub, !lift_flat, <- !flat_opp in Ga, G. rewrite Egap, flat_opp. unfold Rdiv. rewrite <- flat_opp.
    pose proof (Rmax_l 1 (cmisfit A b (cla_x s))). rewrite Rmult_assoc, Rinv_l, Rmult_1_r by lra. lra.
  Qed.
  Notation Rch := (classo_after A T b tau opt x0).
  Lemma c_reach k s : Rch k s -> lasso_ok (2 * n) N1 Ni gapf (lift A) (lift T) (flat b) tau opt (fl_la s) /\ cla_iterations s = S k.
  Proof. intros H. apply fl_reaches in H. exact (@lasso_reach (2 * n) N1 Ni PF gapf (@HP n) (2 * m) (lift A) (lift T) (flat b) tau opt (flat x0) AD' Lb' Lx' Ht Hamin Hamax k _ H). Qed.
  Lemma c_total fuel : (go_max_iters opt <= fuel)%nat -> exists s, csolve_lasso_from A T b tau opt x0 fuel = Done s.
  Proof.
    intros Hf. destruct (@lasso_total (2 * n) N1 Ni PF gapf (@HP n) (2 * m) (lift A) (lift T) (flat b) tau opt (flat x0) AD' Lb' Lx' Ht Hamin Hamax fuel Hf) as [s Hs]. rewrite fl_run in Hs.
    destruct (csolve_lasso_from A T b tau opt x0 fuel) as [s'| |]; try discriminate. eauto.
  Qed.
  Lemma c_done fuel s : csolve_lasso_from A T b tau opt x0 fuel = Done s -> ctruthful n A T b tau s /\ (1 <= cla_iterations s <= Nat.max 1 (go_max_iters opt))%nat /\
    ((cla_iterations s < go_max_iters opt)%nat -> cnorm (vsub b (A (cla_x s))) < go_opt_tol opt * cnorm b \/
      forall z, length z = n -> cl1 z <= tau -> cmisfit A b (cla_x s) - cmisfit A b z <= go_opt_tol opt * Rmax 1 (cmisfit A b (cla_x s))).
  Proof.
    intros H. assert (R : gsolve_lasso_from Ni PF gapf (lift A) (lift T) (flat b) tau opt (flat x0) fuel = Done (fl_la s)) by (rewrite fl_run, H; reflexivity).
    destruct (@lasso_done (2 * n) N1 Ni PF gapf (@HP n) Ni_pos (@Hholder n) (2 * m) (lift A) (lift T) (flat b) tau opt (flat x0) AD' Lb' Lx' Ht Hamin Hamax GP fuel _ R) as [I [Hi D]].
    split; [now apply ok_truthful|]. split; [exact Hi|]. intros Hm. specialize (D Hm). cbn [fl_la la_x] in D. rewrite lift_flat, <- flat_sub, !flat_nrm in D. destruct D as [D|D]; [now left|right].
    intros z Lz Cz. specialize (D (flat z) (flat_len' Lz)). rewrite flat_N1, !flat_misfit in D. auto.
  Qed.
  Lemma c_step k s s' : Rch k s -> classo_cond b opt s = true -> classo_body A T b tau opt s = Some s' ->
    (exists j, (j <= 10)%nat /\ cla_alpha s' = / 2 ^ j /\ cla_ls_iters s' = (cla_ls_iters s + j)%nat /\
      (cmisfit A b (cla_x s') + go_gamma opt * cnsq (vsub (cla_x s') (cla_x s)) < vmax (cla_f_past s) \/ cla_x s' = cla_x s \/ j = 10%nat \/ go_gamma opt < 0)) /\
    (cla_x s' = cla_x s -> classo_solution n A b tau (cla_x s)).
  Proof.
    intros H _ B. destruct (c_reach H) as [I _]. assert (B' : glasso_body Ni PF gapf (lift A) (lift T) (flat b) tau opt (fl_la s) = Some (fl_la s')) by (rewrite fl_body, B; reflexivity).
    destruct (@lasso_step (2 * n) N1 Ni PF gapf (@HP n) (2 * m) (lift A) (lift T) (flat b) tau opt (flat x0) AD' Lb' Lx' Ht Hamin Hamax _ _ I B') as [_ [_ [_ [_ [[j [Hj [Ea [El Hd]]]] St]]]]].
    cbn [fl_la la_x la_alpha la_ls_iters la_f_past] in *. rewrite <- flat_sub, flat_nrm2, flat_misfit in Hd. split.
    - exists j. repeat (split; [auto; fail|]). destruct Hd as [Hd|[Hd|Hd]]; auto. right; left. now apply flat_inj.
    - intros E. assert (Q : flat (cla_x s') = flat (cla_x s)) by now rewrite E. specialize (St Q). apply unflat_solution in St. rewrite unflat_flat in St. exact St.
  Qed.
  End Opt.
  Lemma c_exists : exists q, classo_solution n A b tau q.
  Proof.
    destruct (@lasso_exists (2 * n) N1 (@Hnrm1 n) (@Hclosed n) (@HZ n) (2 * m) (lift A) (lift T) (flat b) tau AD' Lb' Ht) as [q Hq]. exists (unflat q). now apply unflat_solution.
  Qed.
  Lemma c_searches opt : csearches_succeed A T b tau opt x0 -> forall k s s', reaches (lasso_cond (flat b) opt) (glasso_body Ni PF gapf (lift A) (lift T) (flat b) tau opt) (glasso_init Ni PF gapf (lift A) (lift T) (flat b) tau opt (flat x0)) k s ->
    lasso_cond (flat b) opt s = true -> glasso_body Ni PF gapf (lift A) (lift T) (flat b) tau opt s = Some s' -> (la_ls_iters s' < la_ls_iters s + 10)%nat.
  Proof.
    intros Hs. assert (Back : forall k s, reaches (lasso_cond (flat b) opt) (glasso_body Ni PF gapf (lift A) (lift T) (flat b) tau opt) (glasso_init Ni PF gapf (lift A) (lift T) (flat b) tau opt (flat x0)) k s -> exists c, classo_after A T b tau opt x0 k c /\ s = fl_la c).
    { intros k s H. induction H as [|k s s' H [c [Hc ->]] Cd B].
      - exists (classo_init A T b tau opt x0). split; [constructor|apply fl_init].
      - rewrite fl_lcond in Cd. rewrite fl_body in B. destruct (classo_body A T b tau opt c) as [c'|] eqn:E; [|discriminate]. injection B as <-. exists c'. split; [|reflexivity]. unfold classo_after. econstructor; eauto. }
    intros k s s' H Cd B. destruct (Back _ _ H) as [c [Hc ->]]. rewrite fl_lcond in Cd. rewrite fl_body in B. destruct (classo_body A T b tau opt c) as [c'|] eqn:E; [|discriminate]. injection B as <-. exact (Hs k c c' Hc Cd E).
  Qed.
  Lemma c_conv opt0 L q eps : sane_figures opt0 -> 0 <= L -> (forall v, length v = n -> cnsq (A v) <= L * cnsq v) -> classo_solution n A b tau q -> 0 < eps ->
    exists N, forall opt k s, search_figures opt = search_figures opt0 -> (N <= k)%nat ->
      (go_alpha_max opt0 * (L / 2 + go_gamma opt0) <= 2 ^ 10 \/ csearches_succeed A T b tau opt x0) -> classo_after A T b tau opt x0 k s ->
      cl1 (cla_x s) <= tau /\ cmisfit A b q <= cmisfit A b (cla_x s) <= cmisfit A b q + eps.
  Proof.
    intros [Ha1 [Ha2 [Hg HM]]] L0 HL Hq He. pose proof (flat_solution Hq) as Hq'.
    destruct (@lasso_conv (2 * n) N1 Ni PF gapf (@HP n) Ni_pos (@Hholder n) (@Hnrm1 n) (@Hdual n) (2 * m) (lift A) (lift T) (flat b) tau (flat x0) _ _ _ _ L AD' Lb' Lx' Ht Ha1 Ha2 HM Hg L0 (lift_bound HL) (flat q) eps Hq' He) as [N HN].
    exists N. intros opt k s Eo Hk HLa H. injection Eo as E1 E2 E3 E4. assert (A1 : 0 < go_alpha_min opt) by (now rewrite E1). assert (A2 : go_alpha_min opt <= go_alpha_max opt) by (now rewrite E1, E2).
    destruct (c_reach A1 A2 H) as [I _]. apply ok_truthful in I. destruct I as [Lx [Cx _]]. pose proof (fl_reaches H) as H'.
    destruct (HN opt k (fl_la s) E1 E2 E3 E4 Hk) as [Q _]; auto. { destruct HLa as [HLa|HLa]; [now left|right; now apply c_searches]. }
    cbn [fl_la la_x] in Q. rewrite !flat_misfit in Q. split; auto. split; auto. apply Hq; auto.
  Qed.
  Lemma c_stops opt0 L tol : sane_figures opt0 -> 0 <= L -> (forall v, length v = n -> cnsq (A v) <= L * cnsq v) -> 0 < tol ->
    exists N, forall opt k s, search_figures opt = search_figures opt0 -> tol <= go_opt_tol opt ->
      (go_alpha_max opt0 * (L / 2 + go_gamma opt0) <= 2 ^ 10 \/ csearches_succeed A T b tau opt x0) -> classo_after A T b tau opt x0 k s -> (k <= N)%nat.
  Proof.
    intros [Ha1 [Ha2 [Hg HM]]] L0 HL Htol.
    destruct (@lasso_stops (2 * n) N1 Ni PF gapf (@HP n) Ni_pos (@Hholder n) (@Hnrm1 n) (@HnrmI n) (@Hdual n) (@Hclosed n) (@HZ n) (2 * m) (lift A) (lift T) (flat b) tau (flat x0) _ _ _ _ L AD' Lb' Lx' Ht Ha1 Ha2 HM Hg L0 (lift_bound HL) GP tol Htol) as [N HN].
    exists N. intros opt k s Eo Ho HLa H. injection Eo as E1 E2 E3 E4. apply (HN opt k (fl_la s)); auto; [|exact (fl_reaches H)].
    destruct HLa as [HLa|HLa]; [now left|right; now apply c_searches].
  Qed.
  Lemma c_bounded : exists L, 0 <= L /\ forall v, length v = n -> cnsq (A v) <= L * cnsq v.
  Proof.
    destruct (op_bounded AD') as [C [C0 HC]]. exists (C * C). split; [now apply Rmult_le_pos|]. intros v Lv. specialize (HC (flat v) (flat_len' Lv)). rewrite lift_flat in HC. rewrite <- !flat_nrm2. unfold nrm2. rewrite <- !nrm_sq.
    pose proof (nrm_pos (flat (A v))). pose proof (nrm_pos (flat v)). replace (C * C * (nrm (flat v) * nrm (flat v))) with ((C * nrm (flat v)) * (C * nrm (flat v))) by ring. apply Rmult_le_compat; lra.
  Qed.
End Runs.
