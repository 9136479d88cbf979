From Coq Require Import List Arith Bool Lia Reals Lra Psatz.
From Verif Require Import Vec RVec RMat Loop LoopLemmas SolverSpec SolverLemmas OptSpec OptModel OptProofs OptProofs2 SelModel SelProofs SpgModel FomProofs2 SpglModel SpglSpec SpglProofs SpglProofs2.
Import ListNotations.
Set Implicit Arguments.
Local Open Scope R_scope.

Section BPIC.
  Variables (n m : nat) (A T : vec -> vec) (b : vec) (sigma : R) (opt : spgl1_options) (x0 : vec).
  Hypothesis AD : adjoint_ops n m A T.
  Hypothesis Lb : length b = m.
  Hypothesis Lx0 : length x0 = n.
  Hypothesis Hamin : 0 < go_alpha_min opt.
  Hypothesis Hamax : go_alpha_min opt <= go_alpha_max opt.
  Notation cond := (bp_cond b sigma opt).
  Notation body := (bp_body A T b sigma opt).
  Notation init := (bp_init A T b sigma opt x0).
  Notation P := spgl1_project_to_l1_ball.

  (** the point, its residual and gradient belong together *)
  Definition bp_ok (s : bp_state) : Prop :=
    length (bp_x s) = n /\ bp_r s = rsub b (A (bp_x s)) /\ bp_g s = ropp (T (bp_r s)) /\ 0 <= bp_tau s /\
    go_alpha_min opt <= bp_alpha_next s <= go_alpha_max opt /\
    (bp_f_past s <> [] -> (bp_f_past s)@0 = misfit A b (bp_x s)) /\ length (bp_f_past s) = go_memory opt.
  Notation figures := (figures_of A T b sigma).
  Lemma nrminf_opp v : nrminf (ropp v) = nrminf v.
  Proof. unfold ropp. induction v as [|a v IH]; cbn; [reflexivity|]. rewrite Rabs_Ropp, IH. reflexivity. Qed.
  Lemma proj_self (x : vec) : P x (nrm1 x) = x.
  Proof. unfold spgl1_project_to_l1_ball. destruct (Rltb_spec (nrm1 x) (nrm1 x)); [lra|reflexivity]. Qed.
  Lemma newton_some t rn gd t' : newton_tau t rn sigma gd = Some t' -> gd <> 0 /\ t' = Rmax 0 (t + rn * (rn - sigma) / gd).
  Proof. unfold newton_tau. destruct (Reqb_spec gd 0); [discriminate|]. intros H. injection H as <-. auto. Qed.
  Lemma newton_none t rn gd : newton_tau t rn sigma gd = None -> gd = 0.
  Proof. unfold newton_tau. destruct (Reqb_spec gd 0); [auto|discriminate]. Qed.

  Lemma bp_init_ok s : init = Some s ->
    bp_ok s /\ bp_x s = x0 /\ figures s x0 (nrm1 x0) /\ bp_iterations s = 1%nat /\ bp_tau_changed s = true /\
    bp_n_times s = 2%nat /\ bp_n_trans s = 2%nat /\ bp_n_newton s = 1%nat /\ bp_ls_iters s = 0%nat /\
    nrminf (T (rsub b (A x0))) <> 0 /\
    bp_tau s = Rmax 0 (nrm1 x0 + nrm (rsub b (A x0)) * (nrm (rsub b (A x0)) - sigma) / nrminf (T (rsub b (A x0)))).
  Proof.
    unfold bp_init, update_xrgf. cbv zeta. rewrite proj_self. unfold bpic_metrics. cbv zeta. cbn [mt_r_norm mt_g_dnorm mt_r_gap mt_res mt_f].
    destruct (newton_tau _ _ _ _) as [t|] eqn:N; [|discriminate]. intros H. injection H as <-.
    apply newton_some in N as [N1 N2]. rewrite nrminf_opp in *.
    unfold bp_ok, figures_of. cbv zeta. cbn [bp_x bp_r bp_g bp_tau bp_tau_changed bp_alpha_next bp_f_past bp_r_norm bp_r_gap bp_r_res_error bp_r_f_error bp_iterations bp_n_times bp_n_trans bp_n_newton bp_ls_iters].
    rewrite obj_val_eq. change (/ 2 * nrm2 (rsub b (A x0))) with (misfit A b x0).
    repeat split; auto; try (apply first_step_range; auto).
    - rewrite N2. apply Rmax_l.
    - destruct (go_memory opt); [now intros []|reflexivity].
    - apply repeat_length.
  Qed.
  Lemma cbuf_len buf v : length (cbuf_push_left buf v) = length buf.
  Proof.
    destruct buf as [|a buf]; [reflexivity|]. unfold cbuf_push_left. cbn [length].
    pose proof (@app_removelast_last _ (a :: buf) 0 ltac:(discriminate)) as E. apply (f_equal (@length R)) in E.
    rewrite app_length in E. cbn [length] in E. lia.
  Qed.
  (** one step: the line search result xl, then possibly a smaller radius *)
  Lemma bp_step s s' : bp_ok s -> body s = Some s' ->
    bp_ok s' /\ nrm1 (bp_x s') <= bp_tau s' /\ bp_iterations s' = S (bp_iterations s) /\
    exists xl, length xl = n /\ nrm1 xl <= bp_tau s /\ figures s' xl (bp_tau s) /\
      (bp_tau s <= bp_tau s' -> bp_x s' = xl) /\
      (bp_tau s' < bp_tau s -> bp_x s' = P xl (bp_tau s')) /\
      (bp_tau_changed s' = false -> bp_tau s' = bp_tau s) /\
      (bp_tau_changed s' = true -> bp_tau_changed s = false /\ nrminf (T (rsub b (A xl))) <> 0 /\
        bp_tau s' = Rmax 0 (bp_tau s + nrm (rsub b (A xl)) * (nrm (rsub b (A xl)) - sigma) / nrminf (T (rsub b (A xl))))) /\
      bp_n_newton s' = (bp_n_newton s + if bp_tau_changed s' then 1 else 0)%nat /\
      exists j e, (j <= 10)%nat /\ (e <= if bp_tau_changed s' then 1 else 0)%nat /\ bp_alpha s' = / 2 ^ j /\ bp_ls_iters s' = (bp_ls_iters s + j)%nat /\
        bp_n_times s' = (bp_n_times s + j + 1 + e)%nat /\ bp_n_trans s' = (bp_n_trans s + 1 + e)%nat /\
        (nrm1 (bp_x s) <= bp_tau s -> misfit A b xl + go_gamma opt * nrm2 (rsub xl (bp_x s)) < vmax (bp_f_past s) \/ xl = bp_x s \/ j = 10%nat \/ go_gamma opt < 0).
  Proof.
    intros [Lx [Er [Eg [Ht [Hal [Hf Hm]]]]]] B. unfold bp_body in B. cbv zeta in B.
    pose proof (@LAx n m A T AD _ Lx) as LAx1. assert (Lg : length (bp_g s) = n) by (rewrite Eg, Er; assert (length (T (rsub b (A (bp_x s)))) = n) by (apply AD; vl); vl).
    destruct (curvy_line_search _ _ _ _ _ _ _ _ _) as [l| |] eqn:W; try discriminate.
    destruct (@search_result n A b (bp_x s) (bp_g s) (bp_alpha_next s) (vmax (bp_f_past s)) (bp_tau s) (go_gamma opt) Lx Lg ltac:(lra) Ht l W)
      as [Q1 [Q2 [Q3 [Q4 [Q5 [Q6 [Q7 [Q10 [Q8 [Q9 [Q11 Q12]]]]]]]]]]].
    rewrite Q3, Q4 in B. unfold bpic_metrics in B. cbv zeta in B. cbn [mt_r_norm mt_g_dnorm mt_r_gap mt_res mt_f] in B. rewrite nrminf_opp in B.
    set (xl := cl_x l) in *. set (r := rsub b (A xl)) in *.
    match type of B with context[if ?c then newton_tau _ _ _ _ else _] => set (ch := c) in * end.
    destruct (if ch then newton_tau (bp_tau s) (nrm r) sigma (nrminf (T r)) else Some (bp_tau s)) as [t|] eqn:N; [|discriminate].
    assert (Ht' : 0 <= t /\ (ch = false -> t = bp_tau s) /\ (ch = true -> bp_tau_changed s = false /\ nrminf (T r) <> 0 /\ t = Rmax 0 (bp_tau s + nrm r * (nrm r - sigma) / nrminf (T r)))).
    { destruct ch eqn:Ech.
      - apply newton_some in N as [N1 N2]. split; [rewrite N2; apply Rmax_l|]. split; [discriminate|]. intros _. split; auto.
        unfold ch in Ech. apply andb_prop in Ech as [_ Ech]. now apply negb_true_iff in Ech.
      - injection N as <-. repeat split; auto; discriminate. }
    destruct Ht' as [Tn [T1 T2]].
    assert (DEC : nrm1 (bp_x s) <= bp_tau s -> misfit A b xl + go_gamma opt * nrm2 (rsub xl (bp_x s)) < vmax (bp_f_past s) \/ xl = bp_x s \/ cl_iters l = 10%nat \/ go_gamma opt < 0).
    { intros Hx. specialize (Q9 Hx). destruct (Q11 Hx) as [Q|[Q|Q]]; auto. rewrite Q4, Q10 in Q. destruct (Rlt_dec (go_gamma opt) 0); [auto|]. left.
      pose proof (Rmult_le_compat_l (go_gamma opt) _ _ ltac:(lra) Q9). fold xl in Q. lra. }
    assert (PUSH : forall v, cbuf_push_left (bp_f_past s) v <> [] -> (cbuf_push_left (bp_f_past s) v)@0 = v).
    { intros v. destruct (bp_f_past s); [now intros []|reflexivity]. }
    destruct (Rltb_spec t (bp_tau s)) as [R1|R1].
    - unfold update_xrgf in B. cbv zeta in B. destruct (@vi_spgl1 n t Tn xl Q1) as [Lp [Cp _]]. set (p := P xl t) in *.
      injection B as <-. unfold bp_ok, figures_of. cbv zeta.
      cbn [bp_x bp_r bp_g bp_tau bp_tau_changed bp_alpha_next bp_f_past bp_r_norm bp_r_gap bp_r_res_error bp_r_f_error bp_iterations bp_n_times bp_n_trans bp_n_newton bp_ls_iters bp_alpha].
      rewrite obj_val_eq. change (/ 2 * nrm2 (rsub b (A p))) with (misfit A b p). rewrite cbuf_len.
      split; [repeat split; auto; apply bb_step_range; auto|]. repeat (split; [auto; fail|]). exists xl. repeat (split; [auto; fail|]).
      repeat (split; [solve [auto | intros; exfalso; lra | repeat split; auto | destruct ch; lia]|]).
      exists (cl_iters l), 1%nat. assert (Ech : ch = true) by (destruct ch; [auto|]; rewrite T1 in R1 by auto; lra). rewrite Ech.
      repeat (split; [solve [auto | lia]|]). auto.
    - injection B as <-. unfold bp_ok, figures_of. cbv zeta.
      cbn [bp_x bp_r bp_g bp_tau bp_tau_changed bp_alpha_next bp_f_past bp_r_norm bp_r_gap bp_r_res_error bp_r_f_error bp_iterations bp_n_times bp_n_trans bp_n_newton bp_ls_iters bp_alpha].
      rewrite cbuf_len. split; [repeat split; auto; apply bb_step_range; auto|]. split; [lra|]. repeat (split; [auto; fail|]). exists xl. repeat (split; [auto; fail|]).
      repeat (split; [solve [auto | intros; exfalso; lra | repeat split; auto | destruct ch; lia]|]).
      exists (cl_iters l), 0%nat. repeat (split; [solve [auto | destruct ch; lia]|]). auto.
  Qed.

  Variable s0 : bp_state.
  Hypothesis HI : init = Some s0.
  Notation Rch := (reaches cond body s0).
  Lemma bp_reach k s : Rch k s ->
    bp_ok s /\ bp_iterations s = S k /\ ((1 <= k)%nat \/ nrm1 x0 <= bp_tau s0 -> nrm1 (bp_x s) <= bp_tau s) /\
    bp_n_times s = (bp_n_trans s + bp_ls_iters s)%nat /\ (S (bp_iterations s) <= bp_n_trans s <= bp_iterations s + bp_n_newton s)%nat /\
    (2 * bp_n_newton s <= bp_iterations s + if bp_tau_changed s then 1 else 0)%nat.
  Proof.
    intros H. induction H as [|k s s' H IH C B].
    - destruct (bp_init_ok HI) as [I [Ex [F [Ei [Ec [Et [En [Ew [El _]]]]]]]]]. rewrite Ei, Et, En, Ew, El, Ec, Ex.
      split; [auto|]. split; [auto|]. split; [intros [K|K]; [lia|auto]|]. lia.
    - destruct IH as [I [Ei [_ [Et [En Ew]]]]].
      destruct (bp_step I B) as [I' [Hx' [Ei' [xl [_ [_ [_ [_ [_ [_ [Hc [En' [j [e [_ [He [_ [El [Et' [Er' _]]]]]]]]]]]]]]]]]]]].
      split; auto. split; [lia|]. split; [auto|]. split; [lia|]. rewrite Ei', En', Er'. destruct (bp_tau_changed s') eqn:Q.
      + destruct (Hc eq_refl) as [Q' _]. rewrite Q' in Ew. lia.
      + destruct (bp_tau_changed s); lia.
  Qed.
  Lemma bp_limits k s : Rch k s -> (bp_iterations s <= Nat.max 1 (go_max_iters opt))%nat /\ (bp_n_times s + bp_n_trans s <= Nat.max 4 (go_max_matvec opt + 13))%nat.
  Proof.
    intros H. destruct H as [|k s s' H C B].
    - destruct (bp_init_ok HI) as [_ [_ [_ [Ei [_ [Et [En _]]]]]]]. lia.
    - destruct (bp_reach H) as [I _].
      destruct (bp_step I B) as [_ [_ [Ei' [xl [_ [_ [_ [_ [_ [_ [_ [_ [j [e [Hj [He [_ [_ [Et' [Er' _]]]]]]]]]]]]]]]]]]]].
      unfold bp_cond in C. apply andb_prop in C as [C C2]. apply andb_prop in C as [_ C]. apply Nat.ltb_lt in C, C2.
      destruct (bp_tau_changed s'); lia.
  Qed.
  (** figures of every state *)
  Lemma bp_figures k s : Rch k s -> exists xl t, length xl = n /\ (nrm1 xl <= t) /\ figures s xl t.
  Proof.
    intros H. destruct H as [|k s s' H C B].
    - destruct (bp_init_ok HI) as [_ [_ [F _]]]. exists x0, (nrm1 x0). repeat split; auto; try lra; apply F.
    - destruct (bp_reach H) as [I _]. destruct (bp_step I B) as [_ [_ [_ [xl [L [Hn [F _]]]]]]]. exists xl, (bp_tau s). auto.
  Qed.
  Lemma bp_body_none s : bp_ok s -> body s = None -> exists xl, length xl = n /\ nrminf (T (rsub b (A xl))) = 0.
  Proof.
    intros [Lx [Er [Eg [Ht [Hal [Hf Hm]]]]]] B. unfold bp_body in B. cbv zeta in B.
    pose proof (@LAx n m A T AD _ Lx) as LAx1. assert (Lg : length (bp_g s) = n) by (rewrite Eg, Er; assert (length (T (rsub b (A (bp_x s)))) = n) by (apply AD; vl); vl).
    destruct (@search_total n A b (bp_x s) (bp_g s) (bp_alpha_next s) (vmax (bp_f_past s)) (bp_tau s) (go_gamma opt) Lx Lg) as [l E].
    destruct (@search_result n A b (bp_x s) (bp_g s) (bp_alpha_next s) (vmax (bp_f_past s)) (bp_tau s) (go_gamma opt) Lx Lg ltac:(lra) Ht l E)
      as [Q1 [Q2 [Q3 _]]].
    rewrite E, Q3 in B. unfold bpic_metrics in B. cbv zeta in B. cbn [mt_r_norm mt_g_dnorm] in B. exists (cl_x l). split; auto.
    match type of B with context[if ?c then newton_tau _ _ _ _ else _] => set (ch := c) in * end. destruct ch.
    - destruct (newton_tau _ _ _ _) as [t|] eqn:N; [|apply newton_none in N; now rewrite nrminf_opp in N].
      destruct (Rltb t (bp_tau s)); [unfold update_xrgf in B; cbv zeta in B|]; discriminate.
    - destruct (Rltb (bp_tau s) (bp_tau s)); [unfold update_xrgf in B; cbv zeta in B|]; discriminate.
  Qed.
End BPIC.

Section BPEnds.
  Variables (n m : nat) (A T : vec -> vec) (b : vec) (sigma : R) (opt : spgl1_options) (x0 : vec).
  Hypothesis AD : adjoint_ops n m A T.
  Hypothesis Lb : length b = m.
  Hypothesis Lx0 : length x0 = n.
  Hypothesis Hamin : 0 < go_alpha_min opt.
  Hypothesis Hamax : go_alpha_min opt <= go_alpha_max opt.
  Lemma bp_ends fuel : (go_max_iters opt <= fuel)%nat ->
    (exists s, solve_bpic_from A T b sigma opt x0 fuel = Done s) \/
    (solve_bpic_from A T b sigma opt x0 fuel = Fail /\ exists x, length x = n /\ nrminf (T (rsub b (A x))) = 0).
  Proof.
    intros Hf. unfold solve_bpic_from. destruct (bp_init A T b sigma opt x0) as [s0|] eqn:I0.
    - destruct (while_ _ _ _ _) as [s| |] eqn:W; [left; eauto| |].
      + right. split; auto. destruct (while_fail fuel (reach_0 _ _ _) W) as [j [s' [H [C B]]]].
        eapply bp_body_none; eauto. eapply bp_reach; eauto.
      + exfalso. destruct (while_fuel fuel (reach_0 _ _ _) W) as [s' [H C]].
        destruct (@bp_reach n m A T b sigma opt x0 AD Lb Lx0 Hamin Hamax s0 I0 _ _ H) as [_ [E _]]. unfold bp_cond in C.
        apply andb_prop in C as [C _]. apply andb_prop in C as [_ C]. apply Nat.ltb_lt in C. lia.
    - right. split; auto. exists x0. split; auto. unfold bp_init, update_xrgf in I0. cbv zeta in I0. rewrite proj_self in I0.
      unfold bpic_metrics in I0. cbv zeta in I0. cbn [mt_r_norm mt_g_dnorm mt_r_gap mt_res mt_f] in I0. destruct (newton_tau _ _ _ _) eqn:N; [discriminate|].
      apply newton_none in N. now rewrite nrminf_opp in N.
  Qed.
  Lemma bp_done fuel s : solve_bpic_from A T b sigma opt x0 fuel = Done s ->
    exists s0 k, bp_init A T b sigma opt x0 = Some s0 /\ reaches (bp_cond b sigma opt) (bp_body A T b sigma opt) s0 k s /\ bp_cond b sigma opt s = false.
  Proof.
    unfold solve_bpic_from. destruct (bp_init A T b sigma opt x0) as [s0|] eqn:I0; [|discriminate].
    intros W. apply while_done in W as [k [_ [W C]]]. eauto.
  Qed.
  Lemma ratio_le a c t : 0 < c -> a / c <= t -> a <= t * c.
  Proof. intros Hc H. apply Rmult_le_reg_r with (/ c); [now apply Rinv_0_lt_compat|]. rewrite Rmult_assoc, Rinv_r by lra. unfold Rdiv in H. lra. Qed.
  Lemma bp_stop fuel s : solve_bpic_from A T b sigma opt x0 fuel = Done s ->
    (bp_iterations s < go_max_iters opt)%nat -> (bp_n_times s + bp_n_trans s < go_max_matvec opt)%nat ->
    exists xl t, length xl = n /\ nrm1 xl <= t /\ figures_of A T b sigma s xl t /\
      (nrm (rsub b (A xl)) <= sigma \/ nrm (rsub b (A xl)) <= sigma + go_opt_tol opt * Rmax 1 (nrm (rsub b (A xl))) \/
       nrm (rsub b (A xl)) <= go_bp_tol opt * nrm b) /\
      (bp_r_gap s <= Rmax (go_opt_tol opt) (bp_r_f_error s) \/
       Rabs (nrm (rsub b (A xl)) - sigma) <= go_opt_tol opt * Rmax 1 (nrm (rsub b (A xl)))).
  Proof.
    intros H Hi Hm. destruct (bp_done _ H) as [s0 [k [I0 [HR C]]]].
    destruct (@bp_figures n m A T b sigma opt x0 AD Lb Lx0 Hamin Hamax s0 I0 _ _ HR) as [xl [t [L [Hn F]]]]. exists xl, t. repeat (split; [auto; fail|]).
    destruct F as [F1 [F2 [F3 F4]]]. cbv zeta in *. unfold bp_cond in C.
    apply andb_false_iff in C as [C|C]; [|apply Nat.ltb_ge in C; lia]. apply andb_false_iff in C as [C|C]; [|apply Nat.ltb_ge in C; lia].
    apply orb_false_iff in C as [C1 C2].
    assert (RES : bp_r_res_error s <= go_opt_tol opt -> Rabs (nrm (rsub b (A xl)) - sigma) <= go_opt_tol opt * Rmax 1 (nrm (rsub b (A xl)))).
    { intros Q. rewrite F3 in Q. apply ratio_le; auto. pose proof (Rmax_l 1 (nrm (rsub b (A xl)))). lra. }
    split.
    - apply andb_false_iff in C2 as [C2|C2]; [apply andb_false_iff in C2 as [C2|C2]|].
      + apply Rltb_false in C2. rewrite F1 in C2. auto.
      + apply Rltb_false in C2. specialize (RES C2). pose proof (Rle_abs (nrm (rsub b (A xl)) - sigma)). right; left. lra.
      + apply Rltb_false in C2. rewrite F1 in C2. auto.
    - apply andb_false_iff in C1 as [C1|C1]; apply Rltb_false in C1; auto.
  Qed.
  (** the figures give a lower bound on the l1 norm of every point that fits the data *)
  Lemma figures_bound s xl t z : length xl = n -> nrm1 xl <= t -> figures_of A T b sigma s xl t -> fits n A b sigma z ->
    t * nrminf (T (rsub b (A xl))) <= nrm1 z * nrminf (T (rsub b (A xl))) + bp_r_gap s * Rmax 1 (misfit A b xl) + bp_r_norm s * (sigma - bp_r_norm s).
  Proof.
    intros L Hn [F1 [F2 _]] Fz. cbv zeta in *. rewrite F1, F2. set (r := rsub b (A xl)) in *. pose proof (Rmax_l 1 (misfit A b xl)).
    pose proof (@gap_nonneg n m A T b xl t AD Lb L Hn) as G. rewrite nrminf_opp in G. fold r in G. rewrite (Rabs_pos_eq _ G).
    unfold Rdiv. rewrite Rmult_assoc, Rinv_l, Rmult_1_r by lra. pose proof (nrminf_pos (T r)) as Gp.
    destruct (Req_dec (nrminf (T r)) 0) as [Z|Z].
    - (* zero gradient: the residual is orthogonal to the range *)
      rewrite Z in *. rewrite !Rmult_0_r in *. destruct Fz as [Lz Fz]. pose proof (@LAx n m A T AD _ L) as L1. pose proof (@LAx n m A T AD _ Lz) as L2.
      assert (O : forall y, length y = n -> rdot r (A y) = 0).
      { intros y Ly. rewrite rdot_sym. destruct AD as [_ [_ Hadj]]. rewrite Hadj by (auto; unfold r; vl).
        pose proof (holder (T r) y) as HH. rewrite Z, Rmult_0_l, rdot_sym in HH. pose proof (Rabs_pos (rdot y (T r))).
        destruct (Req_dec (rdot y (T r)) 0) as [|NE]; auto. pose proof (Rabs_pos_lt _ NE). lra. }
      assert (E1 : rdot r b = nrm r * nrm r).
      { rewrite nrm_sq. replace b with (radd r (A xl)) at 1 by (unfold r; veq). rewrite rdot_add_r by (unfold r; vl). rewrite O by auto. ring. }
      assert (E2 : rdot r (rsub b (A z)) = nrm r * nrm r) by (rewrite rdot_sub_r by (unfold r; vl); rewrite O, E1 by auto; ring).
      pose proof (cauchy_le r (rsub b (A z))) as Cc. rewrite E2 in Cc. pose proof (nrm_pos r) as Np.
      pose proof (Rmult_le_compat_l (nrm r) _ _ Np Fz). lra.
    - pose proof (@newton_bound n m A T b xl t AD Lb L sigma z ltac:(rewrite nrminf_opp; fold r; lra) Fz) as N. rewrite nrminf_opp in N. fold r in N.
      apply (Rmult_le_compat_r (nrminf (T r))) in N; [|lra]. rewrite Rmult_plus_distr_r in N.
      unfold Rdiv in N. rewrite Rmult_assoc, Rinv_l, Rmult_1_r in N by auto. lra.
  Qed.
End BPEnds.
