(** Basis pursuit denoising of SPGL1 on complex data (property C100). *)
From Coq Require Import List Arith Bool Lia Reals Lra.
From Verif Require Import Scalar Vec RVec Loop SolverSpec LopSpec OptModel OptProofs2 SelModel SpgModel SpglModel CxSpec CxProofs CxSpglModel CxSpglSpec CxSpglProofs CxBpModel CxBpSpec CxBpProofs CxBpProofs2.
Import ListNotations.
Set Implicit Arguments.
Local Open Scope R_scope.

(** the first state: the initial vector, its figures for the radius |x0|_1, and the radius after one
    Newton step *)
Theorem C100_start n times trans b sigma opt x0 s0 :
  length x0 = n -> go_alpha_min opt <= go_alpha_max opt -> cbp_init times trans b sigma opt x0 = Some s0 ->
  cbp_x s0 = x0 /\ cfigures_of times trans b sigma s0 x0 (cl1 x0) /\ clinf (trans (vsub b (times x0))) <> 0 /\
  cbp_tau s0 = Rmax 0 (cl1 x0 + cnorm (vsub b (times x0)) * (cnorm (vsub b (times x0)) - sigma) / clinf (trans (vsub b (times x0)))).
Proof. exact (fun H1 H2 H3 => @cb_first n times trans b sigma opt x0 H1 H2 s0 H3). Qed.
Print Assumptions C100_start.
(** every state: the point, its residual and its gradient belong together, the point lies in the current
    ball after the first iteration or from zero, the newest remembered misfit is that of the point; the
    radius changes in at most every other iteration; the counters; the budgets *)
Theorem C100_state n m times trans b sigma opt x0 k s :
  is_adjoint m n times trans -> length b = m -> length x0 = n -> 0 < go_alpha_min opt -> go_alpha_min opt <= go_alpha_max opt ->
  cbp_after times trans b sigma opt x0 k s ->
  length (cbp_x s) = n /\ cbp_r s = vsub b (times (cbp_x s)) /\ cbp_g s = vopp (trans (cbp_r s)) /\ 0 <= cbp_tau s /\
  go_alpha_min opt <= cbp_alpha_next s <= go_alpha_max opt /\ length (cbp_f_past s) = go_memory opt /\
  ((0 < go_memory opt)%nat -> (cbp_f_past s)@0 = cmisfit times b (cbp_x s)) /\
  ((1 <= k)%nat \/ x0 = repeat (0, 0) n -> cl1 (cbp_x s) <= cbp_tau s) /\ cbp_iterations s = S k /\
  cbp_n_times s = (cbp_n_trans s + cbp_ls_iters s)%nat /\ (S (cbp_iterations s) <= cbp_n_trans s <= cbp_iterations s + cbp_n_newton s)%nat /\
  (2 * cbp_n_newton s <= cbp_iterations s + 1)%nat /\
  (cbp_iterations s <= Nat.max 1 (go_max_iters opt))%nat /\ (cbp_n_times s + cbp_n_trans s <= Nat.max 4 (go_max_matvec opt + 13))%nat.
Proof. exact (fun H1 H2 H3 H4 H5 H6 => @cb_state n m times trans b sigma opt x0 H1 H2 H3 H4 H5 k s H6). Qed.
Print Assumptions C100_state.
(** one iteration: the line search gives a point of the current ball whose figures are reported; the
    radius is kept or moved by the Newton step; the point is kept, or projected when the radius shrinks *)
Theorem C100_step n m times trans b sigma opt x0 k s s' :
  is_adjoint m n times trans -> length b = m -> length x0 = n -> 0 < go_alpha_min opt -> go_alpha_min opt <= go_alpha_max opt ->
  cbp_after times trans b sigma opt x0 k s -> cbp_body times trans b sigma opt s = Some s' ->
  cl1 (cbp_x s') <= cbp_tau s' /\
  exists xl, length xl = n /\ cl1 xl <= cbp_tau s /\ cfigures_of times trans b sigma s' xl (cbp_tau s) /\
    (cbp_tau s <= cbp_tau s' -> cbp_x s' = xl) /\
    (cbp_tau s' < cbp_tau s -> cbp_x s' = spgl1_project_to_l1_ball_c xl (cbp_tau s')) /\
    (cbp_tau_changed s' = false -> cbp_tau s' = cbp_tau s) /\
    (cbp_tau_changed s' = true -> cbp_tau_changed s = false /\ clinf (trans (vsub b (times xl))) <> 0 /\
      cbp_tau s' = Rmax 0 (cbp_tau s + cnorm (vsub b (times xl)) * (cnorm (vsub b (times xl)) - sigma) / clinf (trans (vsub b (times xl))))) /\
    cbp_n_newton s' = (cbp_n_newton s + if cbp_tau_changed s' then 1 else 0)%nat /\
    exists j, (j <= 10)%nat /\ cbp_alpha s' = / 2 ^ j /\ cbp_ls_iters s' = (cbp_ls_iters s + j)%nat /\
      (cl1 (cbp_x s) <= cbp_tau s -> 0 <= go_gamma opt ->
        cmisfit times b xl + go_gamma opt * cnsq (vsub xl (cbp_x s)) < vmax (cbp_f_past s) \/ xl = cbp_x s \/ j = 10%nat).
Proof.
  intros H1 H2 H3 H4 H5 H6 B. destruct (@cb_step n m times trans b sigma opt x0 H1 H2 H3 H4 H5 k s s' H6 B) as [Hx [xl [L [Hn [F [X1 [X2 [X3 [X4 [X5 [j [J1 [J2 [J3 J4]]]]]]]]]]]]]].
  split; [exact Hx|]. exists xl. repeat (split; [assumption|]). exists j. repeat (split; [assumption|]). intros Q Hg. destruct (J4 Q) as [Z|[Z|[Z|Z]]]; auto. exfalso; lra.
Qed.
Print Assumptions C100_step.
(** from zero, the first radius does not exceed the l1 norm of any point that fits the data *)
Theorem C100_first_radius n m times trans b sigma opt s0 z :
  is_adjoint m n times trans -> length b = m -> go_alpha_min opt <= go_alpha_max opt ->
  cbp_init times trans b sigma opt (repeat (0, 0) n) = Some s0 -> cfits n times b sigma z -> cbp_tau s0 <= cl1 z.
Proof. exact (@cb_first_radius n m times trans b sigma opt s0 z). Qed.
Print Assumptions C100_first_radius.
(** although the duality gap is a complex number, its reported modulus bounds the excess of the radius
    over the l1 norm of every point z that fits the data:
      tau |A^H r|_inf <= |z|_1 |A^H r|_inf + gap + |r| (sigma - |r|) *)
Theorem C100_bound n m times trans b sigma s xl tau z :
  is_adjoint m n times trans -> length b = m -> length xl = n -> cl1 xl <= tau ->
  cfigures_of times trans b sigma s xl tau -> cfits n times b sigma z ->
  tau * clinf (trans (vsub b (times xl))) <=
    cl1 z * clinf (trans (vsub b (times xl))) + cbp_r_gap s * Rmax 1 (cmisfit times b xl) + cbp_r_norm s * (sigma - cbp_r_norm s).
Proof. exact (@cb_bound n m times trans b sigma s xl tau z). Qed.
Print Assumptions C100_bound.
(** the solver returns, unless it divides by the norm of a vanishing gradient *)
Theorem C100_ends n m times trans b sigma opt x0 fuel :
  is_adjoint m n times trans -> length b = m -> length x0 = n -> 0 < go_alpha_min opt -> go_alpha_min opt <= go_alpha_max opt -> (go_max_iters opt <= fuel)%nat ->
  (exists s, csolve_bpic_from times trans b sigma opt x0 fuel = Done s) \/
  (csolve_bpic_from times trans b sigma opt x0 fuel = Fail /\ exists x, length x = n /\ clinf (trans (vsub b (times x))) = 0).
Proof. exact (fun H1 H2 H3 H4 H5 => @cb_ends n m times trans b sigma opt x0 H1 H2 H3 H4 H5 fuel). Qed.
Print Assumptions C100_ends.
(** stopped within the budgets: the reported figures belong to a point that fits the data within the
    tolerances, with a small duality gap or a residual norm close to sigma *)
Theorem C100_certificate n m times trans b sigma opt x0 fuel s :
  is_adjoint m n times trans -> length b = m -> length x0 = n -> 0 < go_alpha_min opt -> go_alpha_min opt <= go_alpha_max opt ->
  csolve_bpic_from times trans b sigma opt x0 fuel = Done s ->
  (cbp_iterations s < go_max_iters opt)%nat -> (cbp_n_times s + cbp_n_trans s < go_max_matvec opt)%nat ->
  exists xl t, length xl = n /\ cl1 xl <= t /\ cfigures_of times trans b sigma s xl t /\
    (cnorm (vsub b (times xl)) <= sigma \/ cnorm (vsub b (times xl)) <= sigma + go_opt_tol opt * Rmax 1 (cnorm (vsub b (times xl))) \/
     cnorm (vsub b (times xl)) <= go_bp_tol opt * cnorm b) /\
    (cbp_r_gap s <= Rmax (go_opt_tol opt) (cbp_r_f_error s) \/
     Rabs (cnorm (vsub b (times xl)) - sigma) <= go_opt_tol opt * Rmax 1 (cnorm (vsub b (times xl)))).
Proof. exact (fun H1 H2 H3 H4 H5 => @cb_stop n m times trans b sigma opt x0 H1 H2 H3 H4 H5 fuel s). Qed.
Print Assumptions C100_certificate.
(** solve_bpic and solve_bp start from zero: what they return lies in the reported ball, and its residual
    and gradient are the reported ones *)
Theorem C100_from_zero n m times trans b sigma opt fuel s :
  is_adjoint m n times trans -> length b = m -> 0 < go_alpha_min opt -> go_alpha_min opt <= go_alpha_max opt ->
  csolve_bpic times trans b sigma opt n fuel = Done s \/ (sigma = 0 /\ csolve_bp times trans b opt n fuel = Done s) ->
  length (cbp_x s) = n /\ cl1 (cbp_x s) <= cbp_tau s /\ cbp_r s = vsub b (times (cbp_x s)) /\ cbp_g s = vopp (trans (cbp_r s)) /\
  exists k, cbp_after times trans b sigma opt (repeat (0, 0) n) k s.
Proof.
  intros H1 H2 H4 H5 H. assert (E : csolve_bpic_from times trans b sigma opt (repeat (0, 0) n) fuel = Done s) by (destruct H as [H|[-> H]]; exact H).
  destruct (cb_done E) as [k Hk]. destruct (@cb_state n m times trans b sigma opt (repeat (0, 0) n) H1 H2 (repeat_length _ _) H4 H5 k s Hk) as [I1 [I2 [I3 [_ [_ [_ [_ [I4 _]]]]]]]].
  repeat (split; [auto; fail|]). exists k. exact Hk.
Qed.
Print Assumptions C100_from_zero.
(** real data stored as complex data: the complex solver makes the steps of the real solver, with the same
    figures and counters *)
Theorem C100_real_data times trans timesr transr b sigma opt x0 fuel :
  (forall x, times (as_complex x) = as_complex (timesr x)) -> (forall x, trans (as_complex x) = as_complex (transr x)) ->
  match solve_bpic_from timesr transr b sigma opt x0 fuel with
  | Done s => exists c, csolve_bpic_from times trans (as_complex b) sigma opt (as_complex x0) fuel = Done c /\ same_state s c
  | Fail => csolve_bpic_from times trans (as_complex b) sigma opt (as_complex x0) fuel = Fail
  | Fuel => csolve_bpic_from times trans (as_complex b) sigma opt (as_complex x0) fuel = Fuel
  end.
Proof.
  intros HA HT. pose proof (@em_run times trans timesr transr b sigma opt HA HT x0 fuel) as E. destruct (solve_bpic_from _ _ _ _ _ _ _) as [s| |]; [|exact E|exact E].
  exists (em_bp s). split; [exact E|apply em_same].
Qed.
Print Assumptions C100_real_data.
(** the hypotheses hold: multiplication by i with data 3i and sigma 1; the first radius is 2, the l1 norm
    of the point 2, which fits the data *)
Example C100_nonvacuous : let opt := SPGL1Options (/ 10 ^ 6) (/ 10 ^ 4) (/ 10 ^ 4) (/ 10 ^ 4) (/ 10 ^ 16) 1000 3 1000 100 in
  let A := fun x : cvec => vscale ((0, 1) : Cs) x in let T := fun x : cvec => vscale ((0, -1) : Cs) x in
  is_adjoint 1 1 A T /\ 0 < go_alpha_min opt <= go_alpha_max opt /\ cfits 1 A [(0, 3)] 1 [(2, 0)] /\
  exists s, cbp_init A T [(0, 3)] 1 opt (repeat (0, 0) 1) = Some s /\ cbp_tau s = 2 /\ cl1 [(2, 0)] = 2.
Proof.
  cbv zeta. assert (S3 : sqrt (3 * 3) = 3) by (apply sqrt_square; lra). split; [|split; [|split]].
  - split; [|split].
    + intros x Lx. unfold vscale. now rewrite map_length.
    + intros x Lx. unfold vscale. now rewrite map_length.
    + intros x y _ _. rewrite inner_scale_l, inner_scale_r. apply (f_equal2 (@smul Cs)); [|reflexivity]. cbn. unfold Cconj. cbn. apply (f_equal2 pair); ring.
  - cbn [go_alpha_min go_alpha_max]. split; [apply Rinv_0_lt_compat, pow_lt; lra|].
    apply Rle_trans with 1; [|lra]. rewrite <- Rinv_1. apply Rinv_le_contravar; lra.
  - split; [reflexivity|]. unfold cnorm, cnsq, Cnsq. cbn. match goal with |- sqrt ?u <= _ => replace u with 1 by ring end. rewrite sqrt_1. lra.
  - set (A := fun x : cvec => vscale ((0, 1) : Cs) x). set (T := fun x : cvec => vscale ((0, -1) : Cs) x).
    set (opt := SPGL1Options _ _ _ _ _ _ _ _ _).
    assert (Er : @vsub Cs [(0, 3)] (A (repeat (0, 0) 1)) = [(0, 3)]) by (cbn; unfold Csub, Cmul; cbn; repeat f_equal; ring).
    assert (Eg : clinf (@vopp Cs (T [(0, 3)])) = 3).
    { rewrite clinf_opp. unfold clinf. cbn. unfold cabs. cbn. rewrite (Rabs_pos_eq (sqrt _)) by apply sqrt_pos. match goal with |- Rmax (sqrt ?u) 0 = _ => replace u with (3 * 3) by ring end. rewrite S3. apply Rmax_left. lra. }
    assert (En : cnorm [(0, 3)] = 3) by (unfold cnorm, cnsq, Cnsq; cbn; match goal with |- sqrt ?u = _ => replace u with (3 * 3) by ring end; exact S3).
    assert (E1 : cl1 (repeat (0, 0) 1) = 0) by (rewrite cl1_cnrm1; apply cnrm1_zero).
    destruct (cbp_init A T [(0, 3)] 1 opt (repeat (0, 0) 1)) as [s|] eqn:E.
    + exists s. split; [reflexivity|]. split.
      * destruct (@C100_start 1 A T [(0, 3)] 1 opt (repeat (0, 0) 1) s eq_refl) as [_ [_ [_ Et]]]; [|exact E|].
        -- unfold opt. cbn [go_alpha_min go_alpha_max]. apply Rle_trans with 1; [|lra]. rewrite <- Rinv_1. apply Rinv_le_contravar; lra.
        -- rewrite Et, Er, En, E1, <- clinf_opp, Eg. replace (0 + 3 * (3 - 1) / 3) with 2 by field. apply Rmax_right. lra.
      * unfold cl1, Cnsq. cbn. match goal with |- sqrt ?u + 0 = _ => replace u with (2 * 2) by ring end. rewrite sqrt_square; lra.
    + exfalso. unfold cbp_init, cupdate_xrgf in E. cbv zeta in E. rewrite cproj_self, Er in E. unfold cbpic_metrics, newton_tau in E. cbv zeta in E. cbn [mt_r_norm mt_g_dnorm] in E. rewrite Eg in E.
      destruct (Reqb_spec 3 0); [lra|discriminate].
Qed.
