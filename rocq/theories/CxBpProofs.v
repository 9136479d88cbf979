(** Basis pursuit denoising on complex data: simulation by the solver of GBpProofs.v. *)
From Coq Require Import ZArith List Arith Bool Lia Reals Lra Psatz.
From Verif Require Import Scalar Vec RVec RMat Loop LoopLemmas SolverSpec SolverLemmas LopModel LopSpec OptSpec OptModel OptProofs OptProofs2 SelModel SelProofs SpgModel SpglModel SpglSpec SpglProofs SpglProofs2 CxSpec CxModel CxProofs CxSpglModel CxSpglSpec GSpglProofs CxSpglProofs CxSpglProofs2 CxSpglProofs3 GBpProofs CxBpModel CxBpSpec.
Import ListNotations.
Set Implicit Arguments.
Unset Strict Implicit.
Local Open Scope R_scope.

Lemma flat_zero n : flat (repeat (0, 0) n) = rzero (2 * n).
Proof. induction n as [|n IH]; [reflexivity|]. replace (2 * S n)%nat with (S (S (2 * n))) by lia. unfold rzero in *. cbn [repeat flat]. rewrite <- IH. reflexivity. Qed.
Lemma cproj_self x : cproject x (cl1 x) = x.
Proof. unfold cproject, spgl1_project_to_l1_ball_c. rewrite cl1_cnrm1. destruct (Rltb_spec (cnrm1 x) (cnrm1 x)); [lra|reflexivity]. Qed.
Lemma Hself n x : length x = (2 * n)%nat -> PF x (N1 x) = x.
Proof. intros L. unfold PF, N1. rewrite cproj_self. now apply flat_unflat with n. Qed.
Lemma unflat_opp : forall v, unflat (ropp v) = vopp (unflat v).
Proof.
  fix IH 1. intros [|a [|b v]]; [reflexivity|reflexivity|]. unfold ropp in *. cbn [map unflat]. rewrite IH. reflexivity.
Qed.
Lemma Hopp v : Ni (ropp v) = Ni v.
Proof. unfold Ni. now rewrite unflat_opp, clinf_opp. Qed.

Definition fl_bp (s : cbp_state) : bp_state :=
  BPState (flat (cbp_x s)) (flat (cbp_g s)) (flat (cbp_r s)) (cbp_f_past s) (cbp_tau s) (cbp_tau_changed s) (cbp_r_norm s) (cbp_r_gap s) (cbp_r_res_error s) (cbp_r_f_error s)
    (cbp_alpha s) (cbp_alpha_next s) (cbp_iterations s) (cbp_n_times s) (cbp_n_trans s) (cbp_n_newton s) (cbp_ls_iters s).
Lemma fl_bmetrics b g r f sigma tau : gbpic_metrics Ni gapf (flat b) (flat g) (flat r) f sigma tau = cbpic_metrics b g r f sigma tau.
Proof. unfold gbpic_metrics, cbpic_metrics, Ni, gapf. cbv zeta. now rewrite !unflat_flat, flat_nrm. Qed.
Section Sim.
  Variables (A T : cvec -> cvec) (b : cvec) (sigma : R) (opt : spgl1_options).
  Notation gbody := (gbp_body Ni PF gapf (lift A) (lift T) (flat b) sigma opt).
  Notation ginit := (gbp_init N1 Ni PF gapf (lift A) (lift T) (flat b) sigma opt).
  Lemma fl_update x t : gupdate_xrgf PF (lift A) (lift T) (flat b) (flat x) t = let '(x, r, g, f) := cupdate_xrgf A T b x t in (flat x, flat r, flat g, f).
  Proof. unfold gupdate_xrgf, cupdate_xrgf. cbv zeta. now rewrite flat_proj, lift_flat, <- flat_sub, lift_flat, <- flat_opp, flat_obj. Qed.
  Lemma fl_binit x0 : ginit (flat x0) = option_map fl_bp (cbp_init A T b sigma opt x0).
  Proof.
    unfold gbp_init, cbp_init. cbv zeta. rewrite flat_N1, fl_update. destruct (cupdate_xrgf _ _ _ _ _) as [[[x r] g] f]. rewrite fl_bmetrics.
    destruct (newton_tau _ _ _ _); [|reflexivity]. rewrite <- flat_sub, flat_proj, <- flat_sub. unfold Ni. rewrite unflat_flat. reflexivity.
  Qed.
  Lemma fl_bbody s : gbody (fl_bp s) = option_map fl_bp (cbp_body A T b sigma opt s).
  Proof.
    unfold gbp_body, cbp_body. cbv zeta. cbn [fl_bp bp_x bp_g bp_f_past bp_alpha_next bp_tau bp_tau_changed bp_n_times bp_n_trans bp_n_newton bp_iterations bp_ls_iters]. rewrite fl_search.
    destruct (ccurvy_line_search _ _ _ _ _ _ _ _) as [l| |]; try reflexivity. cbn [fl_cls cl_x cl_r cl_f cl_iters cl_alpha]. rewrite lift_flat, <- flat_opp, fl_bmetrics.
    set (mm := cbpic_metrics _ _ _ _ _ _). destruct (if _ && _ then newton_tau _ _ _ _ else _) as [t|]; [|reflexivity].
    destruct (Rltb t (cbp_tau s)).
    - rewrite fl_update. destruct (cupdate_xrgf _ _ _ _ _) as [[[x r] g] f]. rewrite <- !flat_sub, fl_bb. reflexivity.
    - rewrite <- !flat_sub, fl_bb. reflexivity.
  Qed.
  Lemma fl_bcond s : bp_cond (flat b) sigma opt (fl_bp s) = cbp_cond b sigma opt s.
  Proof. unfold bp_cond, cbp_cond. rewrite flat_nrm. reflexivity. Qed.
  Lemma fl_breaches s0 k s : reaches (cbp_cond b sigma opt) (cbp_body A T b sigma opt) s0 k s -> reaches (bp_cond (flat b) sigma opt) gbody (fl_bp s0) k (fl_bp s).
  Proof. intros H. exact (@sim_reaches _ _ fl_bp _ _ _ _ fl_bcond fl_bbody _ _ _ H). Qed.
  Lemma fl_brun x0 fuel : gsolve_bpic_from N1 Ni PF gapf (lift A) (lift T) (flat b) sigma opt (flat x0) fuel = match csolve_bpic_from A T b sigma opt x0 fuel with Done s => Done (fl_bp s) | Fail => Fail | Fuel => Fuel end.
  Proof.
    unfold gsolve_bpic_from, csolve_bpic_from. rewrite fl_binit. destruct (cbp_init A T b sigma opt x0) as [s0|]; [|reflexivity].
    exact (@sim_while _ _ fl_bp _ _ _ _ fl_bcond fl_bbody fuel _).
  Qed.
End Sim.
Lemma unflat_sub_flat n A b v : length v = (2 * n)%nat -> rsub (flat b) (lift A v) = flat (vsub b (A (unflat v))).
Proof. intros L. rewrite <- (flat_unflat L) at 1. now rewrite lift_flat, <- flat_sub. Qed.
Lemma figs n A T b sigma s v t : length v = (2 * n)%nat -> gfigures_of Ni gapf (lift A) (lift T) (flat b) sigma (fl_bp s) v t -> cfigures_of A T b sigma s (unflat v) t.
Proof.
  intros L [F1 [F2 [F3 F4]]]. cbv zeta in *. cbn [fl_bp bp_r_norm bp_r_gap bp_r_res_error bp_r_f_error] in *. rewrite <- (flat_unflat L), flat_misfit in F2, F4. rewrite (unflat_sub_flat A b L), flat_nrm in F1, F3.
  rewrite (flat_unflat L), (unflat_sub_flat A b L), lift_flat in F2. unfold Ni, gapf in F2. rewrite !unflat_flat in F2. unfold cfigures_of. cbv zeta. auto.
Qed.
Lemma figs' n A T b sigma s x t : length x = n -> cfigures_of A T b sigma s x t -> gfigures_of Ni gapf (lift A) (lift T) (flat b) sigma (fl_bp s) (flat x) t.
Proof.
  intros L [F1 [F2 [F3 F4]]]. cbv zeta in *. unfold gfigures_of. cbv zeta. cbn [fl_bp bp_r_norm bp_r_gap bp_r_res_error bp_r_f_error]. rewrite flat_misfit, lift_flat, <- flat_sub, flat_nrm, lift_flat. unfold Ni, gapf. rewrite !unflat_flat. auto.
Qed.
Lemma half_len n (x : cvec) : length (flat x) = (2 * n)%nat -> length x = n.
Proof. intros H. rewrite flat_len in H. apply (Nat.mul_cancel_l _ _ 2); [lia|exact H]. Qed.

Section Runs.
  Variables (n m : nat) (A T : cvec -> cvec) (b : cvec) (sigma : R) (opt : spgl1_options) (x0 : cvec).
  Hypothesis AD : is_adjoint m n A T.
  Hypothesis Lb : length b = m.
  Hypothesis Lx0 : length x0 = n.
  Hypothesis Hamin : 0 < go_alpha_min opt.
  Hypothesis Hamax : go_alpha_min opt <= go_alpha_max opt.
  Let AD' := lift_adjoint AD.
  Let Lb' := flat_len' Lb.
  Let Lx' := flat_len' Lx0.
  Let HI s0 : cbp_init A T b sigma opt x0 = Some s0 -> gbp_init N1 Ni PF gapf (lift A) (lift T) (flat b) sigma opt (flat x0) = Some (fl_bp s0).
  Proof. intros H. now rewrite fl_binit, H. Qed.
  Lemma cb_first s0 : cbp_init A T b sigma opt x0 = Some s0 ->
    cbp_x s0 = x0 /\ cfigures_of A T b sigma s0 x0 (cl1 x0) /\ clinf (T (vsub b (A x0))) <> 0 /\
    cbp_tau s0 = Rmax 0 (cl1 x0 + cnorm (vsub b (A x0)) * (cnorm (vsub b (A x0)) - sigma) / clinf (T (vsub b (A x0)))).
  Proof.
    intros H. apply HI in H. destruct (@bp_init_ok (2 * n) N1 Ni PF gapf Hopp (@Hself n) (lift A) (lift T) (flat b) sigma opt (flat x0) Lx' Hamax _ H) as [_ [Ex [F [_ [_ [_ [_ [_ [_ [G Et]]]]]]]]]].
    cbn [fl_bp bp_x bp_tau] in Ex, Et. apply flat_inj in Ex. split; [exact Ex|]. rewrite flat_N1 in F, Et. apply (figs Lx') in F. rewrite unflat_flat in F. split; [exact F|].
    rewrite lift_flat, <- flat_sub, lift_flat in G, Et. unfold Ni in G, Et. rewrite flat_nrm, unflat_flat in Et. rewrite unflat_flat in G. auto.
  Qed.
  Lemma cb_state k s : cbp_after A T b sigma opt x0 k s ->
    length (cbp_x s) = n /\ cbp_r s = vsub b (A (cbp_x s)) /\ cbp_g s = vopp (T (cbp_r s)) /\ 0 <= cbp_tau s /\
    go_alpha_min opt <= cbp_alpha_next s <= go_alpha_max opt /\ length (cbp_f_past s) = go_memory opt /\
    ((0 < go_memory opt)%nat -> (cbp_f_past s)@0 = cmisfit A b (cbp_x s)) /\
    ((1 <= k)%nat \/ x0 = repeat (0, 0) n -> cl1 (cbp_x s) <= cbp_tau s) /\ cbp_iterations s = S k /\
    cbp_n_times s = (cbp_n_trans s + cbp_ls_iters s)%nat /\ (S (cbp_iterations s) <= cbp_n_trans s <= cbp_iterations s + cbp_n_newton s)%nat /\
    (2 * cbp_n_newton s <= cbp_iterations s + 1)%nat /\
    (cbp_iterations s <= Nat.max 1 (go_max_iters opt))%nat /\ (cbp_n_times s + cbp_n_trans s <= Nat.max 4 (go_max_matvec opt + 13))%nat.
  Proof.
    intros [s0 [H R]]. pose proof (cb_first H) as [E0 _]. pose proof (HI H) as H'. pose proof (fl_breaches R) as R'.
    destruct (@bp_reach (2 * n) N1 Ni PF gapf (@HP n) Hopp (@Hself n) (2 * m) (lift A) (lift T) (flat b) sigma opt (flat x0) AD' Lb' Lx' Hamin Hamax _ H' k _ R') as [[I1 [I2 [I3 [I4 [I5 [I6 I7]]]]]] [Ei [Hx [Et [En Ew]]]]].
    destruct (@bp_limits (2 * n) N1 Ni PF gapf (@HP n) Hopp (@Hself n) (2 * m) (lift A) (lift T) (flat b) sigma opt (flat x0) AD' Lb' Lx' Hamin Hamax _ H' k _ R') as [M1 M2].
    destruct (@bp_init_ok (2 * n) N1 Ni PF gapf Hopp (@Hself n) (lift A) (lift T) (flat b) sigma opt (flat x0) Lx' Hamax _ H') as [[_ [_ [_ [T0 _]]]] _].
    cbn [fl_bp bp_x bp_g bp_r bp_f_past bp_alpha_next bp_tau bp_tau_changed bp_n_times bp_n_trans bp_n_newton bp_iterations bp_ls_iters] in *.
    rewrite lift_flat, <- flat_sub in I2. apply flat_inj in I2. rewrite lift_flat, <- flat_opp in I3. apply flat_inj in I3. rewrite flat_misfit in I6. rewrite !flat_N1 in Hx.
    split; [now apply half_len|]. repeat (split; [assumption|]). split; [intros Hm; apply I6; intros E; rewrite E in I7; cbn in I7; lia|].
    split; [intros [K|K]; apply Hx; auto; right; rewrite K, cl1_cnrm1, cnrm1_zero; exact T0|]. repeat (split; [assumption|]). split; [|split; assumption]. destruct (cbp_tau_changed s); lia.
  Qed.
  Lemma cb_step k s s' : cbp_after A T b sigma opt x0 k s -> cbp_body A T b sigma opt s = Some s' ->
    cl1 (cbp_x s') <= cbp_tau s' /\
    exists xl, length xl = n /\ cl1 xl <= cbp_tau s /\ cfigures_of A T b sigma s' xl (cbp_tau s) /\
      (cbp_tau s <= cbp_tau s' -> cbp_x s' = xl) /\
      (cbp_tau s' < cbp_tau s -> cbp_x s' = cproject xl (cbp_tau s')) /\
      (cbp_tau_changed s' = false -> cbp_tau s' = cbp_tau s) /\
      (cbp_tau_changed s' = true -> cbp_tau_changed s = false /\ clinf (T (vsub b (A xl))) <> 0 /\
        cbp_tau s' = Rmax 0 (cbp_tau s + cnorm (vsub b (A xl)) * (cnorm (vsub b (A xl)) - sigma) / clinf (T (vsub b (A xl))))) /\
      cbp_n_newton s' = (cbp_n_newton s + if cbp_tau_changed s' then 1 else 0)%nat /\
      exists j, (j <= 10)%nat /\ cbp_alpha s' = / 2 ^ j /\ cbp_ls_iters s' = (cbp_ls_iters s + j)%nat /\
        (cl1 (cbp_x s) <= cbp_tau s -> cmisfit A b xl + go_gamma opt * cnsq (vsub xl (cbp_x s)) < vmax (cbp_f_past s) \/ xl = cbp_x s \/ j = 10%nat \/ go_gamma opt < 0).
  Proof.
    intros [s0 [H R]] B. pose proof (HI H) as H'. pose proof (fl_breaches R) as R'.
    destruct (@bp_reach (2 * n) N1 Ni PF gapf (@HP n) Hopp (@Hself n) (2 * m) (lift A) (lift T) (flat b) sigma opt (flat x0) AD' Lb' Lx' Hamin Hamax _ H' k _ R') as [I _].
    assert (B' : gbp_body Ni PF gapf (lift A) (lift T) (flat b) sigma opt (fl_bp s) = Some (fl_bp s')) by (rewrite fl_bbody, B; reflexivity).
    destruct (@bp_step (2 * n) N1 Ni PF gapf (@HP n) Hopp (2 * m) (lift A) (lift T) (flat b) sigma opt (flat x0) AD' Lb' Lx' Hamin Hamax _ _ I B') as [_ [Hx [_ [v [Lv [Hv [F [X1 [X2 [X3 [X4 [X5 [j [e [J1 [_ [J2 [J3 [_ [_ J4]]]]]]]]]]]]]]]]]]]].
    cbn [fl_bp bp_x bp_g bp_r bp_f_past bp_alpha bp_alpha_next bp_tau bp_tau_changed bp_n_times bp_n_trans bp_n_newton bp_iterations bp_ls_iters] in *.
    rewrite flat_N1 in Hx, J4. split; [exact Hx|]. exists (unflat v). split; [now apply unflat_len|]. split; [exact Hv|]. split; [exact (figs Lv F)|].
    split; [intros Q; specialize (X1 Q); now rewrite <- X1, unflat_flat|]. split; [intros Q; specialize (X2 Q); apply flat_inj; exact X2|]. split; [exact X3|].
    rewrite (unflat_sub_flat A b Lv), lift_flat, flat_nrm in X4. unfold Ni in X4. rewrite unflat_flat in X4. split; [exact X4|]. split; [exact X5|].
    exists j. repeat (split; [assumption|]). intros Q. specialize (J4 Q). rewrite <- (flat_unflat Lv), flat_misfit, <- flat_sub, flat_nrm2 in J4.
    destruct J4 as [J4|[J4|J4]]; auto. right; left. apply flat_inj. exact J4.
  Qed.
  Lemma cb_ends fuel : (go_max_iters opt <= fuel)%nat ->
    (exists s, csolve_bpic_from A T b sigma opt x0 fuel = Done s) \/
    (csolve_bpic_from A T b sigma opt x0 fuel = Fail /\ exists x, length x = n /\ clinf (T (vsub b (A x))) = 0).
  Proof.
    intros Hf. destruct (@bp_ends (2 * n) N1 Ni PF gapf (@HP n) Hopp (@Hself n) (2 * m) (lift A) (lift T) (flat b) sigma opt (flat x0) AD' Lb' Lx' Hamin Hamax fuel Hf) as [[s Hs]|[Hs [v [Lv E]]]]; rewrite fl_brun in Hs.
    - destruct (csolve_bpic_from _ _ _ _ _ _ _) as [s'| |]; try discriminate. eauto.
    - right. split; [destruct (csolve_bpic_from _ _ _ _ _ _ _) as [s'| |]; auto; discriminate|]. exists (unflat v). split; [now apply unflat_len|].
      rewrite (unflat_sub_flat A b Lv), lift_flat in E. unfold Ni in E. now rewrite unflat_flat in E.
  Qed.
  Lemma cb_stop fuel s : csolve_bpic_from A T b sigma opt x0 fuel = Done s ->
    (cbp_iterations s < go_max_iters opt)%nat -> (cbp_n_times s + cbp_n_trans s < go_max_matvec opt)%nat ->
    exists xl t, length xl = n /\ cl1 xl <= t /\ cfigures_of A T b sigma s xl t /\
      (cnorm (vsub b (A xl)) <= sigma \/ cnorm (vsub b (A xl)) <= sigma + go_opt_tol opt * Rmax 1 (cnorm (vsub b (A xl))) \/
       cnorm (vsub b (A xl)) <= go_bp_tol opt * cnorm b) /\
      (cbp_r_gap s <= Rmax (go_opt_tol opt) (cbp_r_f_error s) \/
       Rabs (cnorm (vsub b (A xl)) - sigma) <= go_opt_tol opt * Rmax 1 (cnorm (vsub b (A xl)))).
  Proof.
    intros H Hi Hm. assert (H' : gsolve_bpic_from N1 Ni PF gapf (lift A) (lift T) (flat b) sigma opt (flat x0) fuel = Done (fl_bp s)) by (now rewrite fl_brun, H).
    destruct (@bp_stop (2 * n) N1 Ni PF gapf (@HP n) Hopp (@Hself n) (2 * m) (lift A) (lift T) (flat b) sigma opt (flat x0) AD' Lb' Lx' Hamin Hamax fuel _ H' Hi Hm) as [v [t [Lv [Hv [F [C1 C2]]]]]].
    rewrite (unflat_sub_flat A b Lv), !flat_nrm in C1, C2. try rewrite (flat_nrm b) in C1. exists (unflat v), t. split; [now apply unflat_len|]. split; [exact Hv|]. split; [exact (figs Lv F)|]. split; [exact C1|exact C2].
  Qed.
  Lemma cb_done fuel s : csolve_bpic_from A T b sigma opt x0 fuel = Done s -> exists k, cbp_after A T b sigma opt x0 k s.
  Proof.
    unfold csolve_bpic_from. destruct (cbp_init A T b sigma opt x0) as [s0|] eqn:I0; [|discriminate]. intros W. apply while_done in W as [k [_ [W _]]]. exists k, s0. auto.
  Qed.
End Runs.
Lemma flat_fits n A b sigma z : cfits n A b sigma z -> gfits (2 * n) (lift A) (flat b) sigma (flat z).
Proof. intros [L F]. split; [now apply flat_len'|]. now rewrite lift_flat, <- flat_sub, flat_nrm. Qed.
Lemma cb_bound n m A T b sigma s xl t z : is_adjoint m n A T -> length b = m -> length xl = n -> cl1 xl <= t -> cfigures_of A T b sigma s xl t -> cfits n A b sigma z ->
  t * clinf (T (vsub b (A xl))) <= cl1 z * clinf (T (vsub b (A xl))) + cbp_r_gap s * Rmax 1 (cmisfit A b xl) + cbp_r_norm s * (sigma - cbp_r_norm s).
Proof.
  intros AD Lb L Hx F Fz. assert (T0 : 0 <= t) by (eapply Rle_trans; [|exact Hx]; rewrite cl1_cnrm1; apply cnrm1_pos).
  pose proof (@figures_bound (2 * n) N1 Ni gapf (@Hholder n) Hopp (2 * m) (lift A) (lift T) (flat b) sigma (fl_bp s) (flat xl) t (flat z) (lift_adjoint AD) (flat_len' Lb) (gap_lift AD Lb T0) (flat_len' L) ltac:(now rewrite flat_N1) (figs' L F) (flat_fits Fz)) as Q.
  rewrite !lift_flat, <- !flat_sub, !lift_flat, !flat_N1, flat_misfit in Q. unfold Ni in Q. rewrite !unflat_flat in Q. exact Q.
Qed.
Lemma cb_first_radius n m A T b sigma opt s0 z : is_adjoint m n A T -> length b = m -> go_alpha_min opt <= go_alpha_max opt ->
  cbp_init A T b sigma opt (repeat (0, 0) n) = Some s0 -> cfits n A b sigma z -> cbp_tau s0 <= cl1 z.
Proof.
  intros AD Lb Ha H Fz. rewrite <- (flat_N1 z). assert (H' : gbp_init N1 Ni PF gapf (lift A) (lift T) (flat b) sigma opt (rzero (2 * n)) = Some (fl_bp s0)) by (rewrite <- flat_zero, fl_binit, H; reflexivity).
  exact (@first_radius (2 * n) N1 Ni PF gapf N1_pos Ni_pos (@Hholder n) Hopp (@Hself n) (@HZ n) (2 * m) (lift A) (lift T) (flat b) sigma opt _ (flat z) (lift_adjoint AD) (flat_len' Lb) Ha H' (flat_fits Fz)).
Qed.
