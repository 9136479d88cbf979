(** C41: the truncated Newton interior point solver for  |A x - y|^2 + lambda |x|_1 .
    A has m rows and n > 0 columns; times and trans are its product and its adjoint. *)
From Coq Require Import List Arith Bool Lia Reals Lra Psatz.
From Verif Require Import Vec RVec RMat Loop LoopLemmas XReal SolverSpec OptSpec SelModel CGModel FomProofs2 SpglProofs4 L1lsModel L1lsSpec L1lsProofs L1lsProofs2 L1lsProofs3 L1lsProofs4.
Import ListNotations.
Local Open Scope R_scope.

(** in every reachable state x is strictly inside |x_i| < u_i, z = A x - y, nu is dual
    feasible, the reported values are those of x, the dual value is a lower bound of the
    objective, it never decreases, and the barrier parameter stays positive *)
Theorem C41_state n m times trans y lambda tol xi t0 mi pmi ff bf x0 u0 k s :
  adjoint_ops n m times trans -> length y = m -> (0 < n)%nat -> 0 <= lambda -> (forall t, t0 = Some t -> 0 < t) -> strictly_inside n x0 u0 ->
  reaches (l1_cond tol mi) (l1_body times trans y lambda xi pmi ff bf) (l1_init times trans y lambda t0 x0 u0) k s ->
  strictly_inside n (l1_x s) (l1_u s) /\
  l1_z s = rsub (times (l1_x s)) y /\
  length (l1_nu s) = m /\ nrminf (trans (l1_nu s)) <= lambda /\
  l1_primal s = l1ls_obj times y lambda (l1_x s) /\
  (forall w, length w = n -> l1_dual s <= l1ls_obj times y lambda w) /\
  l1_gap s = l1_primal s - l1_dual s /\ 0 <= l1_gap s /\
  l1_dual (l1_init times trans y lambda t0 x0 u0) <= l1_dual s /\
  0 < l1_t s /\ l1_iterations s = S k.
Proof.
  intros Adj Ly Hn Hl Ht Hin H. destruct (reach_ok Adj Ly Hn Hl Ht Hin H) as [O [It [Du _]]].
  destruct O as [I1 [Ez [_ [Pt [Ln [Nf [Ep [Eg Hw]]]]]]]]. repeat (split; [solve [auto]|]). split; [|auto].
  specialize (Hw (l1_x s) (proj1 I1)). lra.
Qed.
Print Assumptions C41_state.

(** every iteration takes an inexact Newton step: the direction does not increase the
    quadratic model compared with the previous direction, it solves the Newton system
    within the tolerance unless the PCG budget is used up, the step is a power of 1/2,
    and the barrier function decreases by at least the sufficient amount.  The barrier
    parameter never decreases and at most doubles: it is kept after a step below 1/2 and
    otherwise follows 4 n / gap *)
Theorem C41_step n m times trans y lambda tol xi t0 mi pmi ff bf x0 u0 k s s' :
  adjoint_ops n m times trans -> length y = m -> (0 < n)%nat -> 0 <= lambda -> (forall t, t0 = Some t -> 0 < t) -> strictly_inside n x0 u0 ->
  reaches (l1_cond tol mi) (l1_body times trans y lambda xi pmi ff bf) (l1_init times trans y lambda t0 x0 u0) k s ->
  l1_body times trans y lambda xi pmi ff bf s = Some s' ->
  exists d i sz, let dx := firstn n d in let du := skipn n d in
    let g := gradient_phi trans y lambda (l1_x s) (l1_u s) (l1_z s) (l1_t s) in
    let H := hessian times trans y (l1_x s) (l1_u s) (l1_t s) in
    let eta := Rmin (1 / 10) (xi * l1_gap s / Rmin 1 (nrm g)) in
    length d = (2 * n)%nat /\ sz = (/ 2) ^ i /\
    l1_x s' = radd (l1_x s) (rscale sz dx) /\ l1_u s' = radd (l1_u s) (rscale sz du) /\ l1_dxu s' = d /\
    / 2 * rdot d (H d) + rdot g d <= / 2 * rdot (l1_dxu s) (H (l1_dxu s)) + rdot g (l1_dxu s) /\
    ((1 + l1_n_trans s + pmi <= l1_n_trans s')%nat \/ nrm g = 0 \/ nrm2 (radd (H d) g) <= eta * eta * nrm2 g) /\
    barrier n times y lambda (l1_t s) (l1_x s') (l1_u s') <= barrier n times y lambda (l1_t s) (l1_x s) (l1_u s) + 1 / 100 * sz * rdot g d /\
    l1_dual s <= l1_dual s' /\ l1_t s <= l1_t s' <= 2 * l1_t s /\
    (sz < 1 / 2 -> l1_t s' = l1_t s) /\ (1 / 2 <= sz -> l1_gap s' = 0 -> l1_t s' = 2 * l1_t s) /\
    (1 / 2 <= sz -> l1_gap s' <> 0 -> l1_t s' = Rmax (Rmin (2 * INR n * 2 / l1_gap s') (2 * l1_t s)) (l1_t s)) /\
    l1_iterations s' = S (l1_iterations s).
Proof.
  intros Adj Ly Hn Hl Ht Hin R B. destruct (reach_ok Adj Ly Hn Hl Ht Hin R) as [O [It [Du Tt]]].
  destruct (body_inv xi pmi ff bf Adj Ly Hn O B) as [p [b [j [Ep Q]]]]. cbv zeta in Q.
  destruct Q as [K0 [K1 [J [Db [Ex [Eu [Ez [En [Ed [Epr [Edu [Eg [Er [Et [Ei [Et1 [Et2 [U1 [U2 U3]]]]]]]]]]]]]]]]]]].
  destruct (@direction_ok n m times trans y lambda xi pmi Adj Ly Hn s O) as [p' [Ep' [Lp [Pi [Hp Hr]]]]]. assert (p' = p) by congruence. subst p'.
  destruct J as [sz [S0 [[i Si] [Es [Bx [Bu _]]]]]].
  exists (pcg_x p), i, sz. cbv zeta. split; [exact Lp|]. split; [exact Si|]. split; [congruence|]. split; [congruence|]. split; [exact Ed|].
  split; [rewrite !energy_dot, !rdot_opp_l in Hp; lra|]. split; [|split; [|split; [|split; [|split; [|split; [|split; [|exact Ei]]]]]]].
  - destruct Hr as [Hr|Hr]; [left; lia|right]. unfold pcg_tolerance in Hr. cbv zeta in Hr.
    match type of Hr with context[Reqb ?a 0] => destruct (Reqb_spec a 0) as [E|E] end.
    + left. pose proof (nrm_pos (gradient_phi trans y lambda (l1_x s) (l1_u s) (l1_z s) (l1_t s))).
      unfold Rmin in E. destruct (Rle_dec _ _); lra.
    + right. exact Hr.
  - rewrite Ex, Eu. rewrite Es in Db. exact Db.
  - rewrite Edu. apply Rmax_r.
  - destruct O as [_ [_ [_ [Pt _]]]]. rewrite Rmax_right in Et by lra. exact Et.
  - intros Q. apply U1. rewrite Es. exact Q.
  - intros Q1 Q2. rewrite U2; auto; [|now rewrite Es]. destruct O as [_ [_ [_ [Pt _]]]]. apply Rmax_left. lra.
  - intros Q1 Q2. apply U3; auto. now rewrite Es.
Qed.
Print Assumptions C41_step.

(** the vector called gradient is the gradient of the barrier function, and the operator
    called Hessian is its derivative; the Hessian is symmetric positive definite *)
Theorem C41_newton_system n m times trans y lambda t x u :
  adjoint_ops n m times trans -> length y = m -> strictly_inside n x u -> 0 < t ->
  (forall dx du, length dx = n -> length du = n ->
     derivable_pt_lim (fun s => barrier n times y lambda t (radd x (rscale s dx)) (radd u (rscale s du))) 0
       (rdot (gradient_phi trans y lambda x u (rsub (times x) y) t) (dx ++ du))) /\
  (forall dx du w, length dx = n -> length du = n -> length w = (2 * n)%nat ->
     derivable_pt_lim (fun s => rdot (gradient_phi trans y lambda (radd x (rscale s dx)) (radd u (rscale s du))
                                        (rsub (times (radd x (rscale s dx))) y) t) w) 0
       (rdot (hessian times trans y x u t (dx ++ du)) w)) /\
  symmetric_op (2 * n) (hessian times trans y x u t) /\ positive_op (2 * n) (hessian times trans y x u t).
Proof.
  intros Adj Ly Hin Ht. split; [intros; eapply barrier_derivative; eauto|]. split; [intros; eapply gradient_derivative; eauto|].
  split; [eapply hessian_sym; eauto|eapply hessian_pos; eauto].
Qed.
Print Assumptions C41_newton_system.

(** the preconditioner is symmetric positive definite; when A^T A is the identity it is
    the exact inverse of the Hessian *)
Theorem C41_preconditioner n m times trans y t x u :
  adjoint_ops n m times trans -> length y = m -> strictly_inside n x u -> 0 < t ->
  symmetric_op (2 * n) (preconditioner trans y x u t) /\ positive_op (2 * n) (preconditioner trans y x u t) /\
  ((forall v, length v = n -> trans (times v) = v) ->
   forall v, length v = (2 * n)%nat -> preconditioner trans y x u t (hessian times trans y x u t v) = v).
Proof.
  intros Adj Ly Hin Ht. split; [eapply precond_sym; eauto|]. split; [eapply precond_pos; eauto|]. intros Hid v Lv.
  destruct (halves n Lv) as [K0 K1]. pose proof (Ld1 y x u t Adj Ly) as L1. pose proof (Ld2 y x u t Adj Ly) as L2.
  assert (E : hessian times trans y x u t v = blk n (tab n (fun i => 2 + (d1_ trans y x u t)@i)) (d2_ trans y x u t) (d1_ trans y x u t) v).
  { rewrite (@hessian_eq n m) by auto. unfold gram, blk. destruct Adj as [[A0 _] [[T0 [_ T2]] _]]. pose proof (A0 _ K0). rewrite T2, Hid by vl.
    rewrite app_radd by vl. f_equal; apply vec_eq; try vl; intros i Hi; assert (Hi' : (i < n)%nat) by (revert Hi; vl).
    - rewrite !radd_nth, rscale_nth, !rmul_nth, nth_tab by vl. ring.
    - rewrite !radd_nth, rzero_nth, !rmul_nth by vl. ring. }
  rewrite E. eapply precond_inverse; eauto.
Qed.
Print Assumptions C41_preconditioner.

(** the conjugate gradient solve never breaks down *)
Theorem C41_direction n m times trans y lambda tol xi t0 mi pmi ff bf x0 u0 k s :
  adjoint_ops n m times trans -> length y = m -> (0 < n)%nat -> 0 <= lambda -> (forall t, t0 = Some t -> 0 < t) -> strictly_inside n x0 u0 ->
  reaches (l1_cond tol mi) (l1_body times trans y lambda xi pmi ff bf) (l1_init times trans y lambda t0 x0 u0) k s ->
  exists p, newton_direction times trans y lambda xi pmi s = Some p /\ length (pcg_x p) = (2 * n)%nat /\ (pcg_it p <= Nat.max 1 pmi)%nat.
Proof.
  intros Adj Ly Hn Hl Ht Hin R. destruct (reach_ok Adj Ly Hn Hl Ht Hin R) as [O _].
  destruct (@direction_ok n m times trans y lambda xi pmi Adj Ly Hn s O) as [p [Ep [Lp [Pi _]]]]. exists p. split; auto. split; auto. apply Pi.
Qed.
Print Assumptions C41_direction.

(** the feasibility loop always ends, whatever the direction *)
Theorem C41_feasibility_ends n x u dx du : (0 < n)%nat -> strictly_inside n x u -> length dx = n -> length du = n ->
  exists fuel, forall s, 0 < s <= 1 -> exists f, feasible x u dx du fuel s = Done f /\ strictly_inside n (fe_x f) (fe_u f).
Proof.
  intros Hn Hin L1 L2. destruct (@feasible_total n 0 [] x u dx du eq_refl Hin Hn L1 L2) as [fuel F]. exists fuel. intros s Hs. destruct (F s Hs) as [f E]. exists f. split; auto.
  destruct (@feasible_done n 0 [] x u dx du eq_refl Hin Hn L1 L2 _ _ _ E) as [_ [_ I]]. exact I.
Qed.
Print Assumptions C41_feasibility_ends.

(** the whole line search ends, with some number of steps, at every reachable state in
    which the direction carried over from the previous iteration has a non-positive value
    in the current quadratic model; the first iteration is such a state.
    Missing: nothing in the code keeps that value non-positive in later iterations *)
Theorem C41_step_ends_partial n m times trans y lambda tol xi t0 mi pmi ff bf x0 u0 k s :
  adjoint_ops n m times trans -> length y = m -> (0 < n)%nat -> 0 <= lambda -> (forall t, t0 = Some t -> 0 < t) -> strictly_inside n x0 u0 ->
  reaches (l1_cond tol mi) (l1_body times trans y lambda xi pmi ff bf) (l1_init times trans y lambda t0 x0 u0) k s ->
  k = 0%nat \/
  / 2 * rdot (l1_dxu s) (hessian times trans y (l1_x s) (l1_u s) (l1_t s) (l1_dxu s)) +
    rdot (gradient_phi trans y lambda (l1_x s) (l1_u s) (l1_z s) (l1_t s)) (l1_dxu s) <= 0 ->
  exists ff' bf' s', l1_body times trans y lambda xi pmi ff' bf' s = Some s'.
Proof.
  intros Adj Ly Hn Hl Ht Hin R [->|He]; destruct (reach_ok Adj Ly Hn Hl Ht Hin R) as [O _]; eapply step_defined; eauto.
  inversion R; subst. cbn [l1_init l1_dxu]. rewrite rdot_zero_l, rdot_zero_r. lra.
Qed.
Print Assumptions C41_step_ends_partial.

(** what the solver returns *)
Theorem C41_returns n m times trans y lambda tol xi t0 mi pmi x0 u0 ff bf fuel sol :
  adjoint_ops n m times trans -> length y = m -> (0 < n)%nat -> 0 <= lambda -> (forall t, t0 = Some t -> 0 < t) -> strictly_inside n x0 u0 ->
  l1ls_solve_from times trans y lambda tol xi t0 mi pmi x0 u0 ff bf fuel = Done sol ->
  length (l1s_x sol) = n /\ l1s_r sol = rsub y (times (l1s_x sol)) /\ (1 <= l1s_iterations sol <= Nat.max 1 mi)%nat.
Proof.
  intros Adj Ly Hn Hl Ht Hin H. unfold l1ls_solve_from in H. destruct (l1ls_run _ _ _ _ _ _ _ _ _ _ _ _ _ _) as [s| |] eqn:E; try discriminate.
  injection H as <-. cbn [l1s_x l1s_r l1s_iterations]. apply while_done in E as [k [_ [R C]]].
  destruct (reach_ok Adj Ly Hn Hl Ht Hin R) as [O [It _]]. destruct O as [I1 [Ez _]].
  split; [apply I1|]. pose proof Adj as [[A0 _] _]. pose proof (A0 _ (proj1 I1)). split; [rewrite Ez; veq|]. split; [lia|].
  destruct k as [|k]; [lia|]. apply reaches_S_inv in R as [s1 [R [C' _]]]. unfold l1_cond in C'. apply andb_true_iff in C' as [_ C']. apply Nat.ltb_lt in C'.
  destruct (reach_ok Adj Ly Hn Hl Ht Hin R) as [_ [It' _]]. lia.
Qed.
Print Assumptions C41_returns.

(** a run that ends before its iteration limit is within the relative tolerance of the
    optimal value, provided the dual value of the starting point is positive *)
Theorem C41_certificate n m times trans y lambda tol xi t0 mi pmi x0 u0 ff bf fuel sol :
  adjoint_ops n m times trans -> length y = m -> (0 < n)%nat -> 0 <= lambda -> 0 <= tol -> (forall t, t0 = Some t -> 0 < t) -> strictly_inside n x0 u0 ->
  0 < get_dual_obj y (get_nu trans lambda (rsub (times x0) y)) ->
  l1ls_solve_from times trans y lambda tol xi t0 mi pmi x0 u0 ff bf fuel = Done sol -> (l1s_iterations sol < mi)%nat ->
  forall w, length w = n -> l1ls_obj times y lambda (l1s_x sol) - l1ls_obj times y lambda w <= tol * l1ls_obj times y lambda w.
Proof.
  intros Adj Ly Hn Hl Htol Ht Hin Hd H Hi. unfold l1ls_solve_from in H. destruct (l1ls_run _ _ _ _ _ _ _ _ _ _ _ _ _ _) as [s| |] eqn:E; try discriminate.
  injection H as <-. cbn in *. apply while_done in E as [k [_ [R C]]].
  refine (certificate Adj Ly Hn Hl Ht Hin Htol Hd R _). unfold l1_cond in C. apply andb_false_iff in C as [C|C]; auto. apply Nat.ltb_ge in C. lia.
Qed.
Print Assumptions C41_certificate.

(** with the default start (x0 = 0, u0 = 1) no further condition is needed *)
Theorem C41_certificate_default n m times trans y lambda tol xi t0 mi pmi ff bf fuel sol :
  adjoint_ops n m times trans -> length y = m -> (0 < n)%nat -> 0 < lambda -> 0 <= tol -> (forall t, t0 = Some t -> 0 < t) ->
  l1ls_solve times trans y lambda tol xi t0 mi pmi n ff bf fuel = Done sol -> (l1s_iterations sol < mi)%nat ->
  forall w, length w = n -> l1ls_obj times y lambda (l1s_x sol) - l1ls_obj times y lambda w <= tol * l1ls_obj times y lambda w.
Proof.
  intros Adj Ly Hn Hl Htol Ht H Hi w Lw. unfold l1ls_solve in H.
  assert (Hin : strictly_inside n (rzero n) (repeat 1 n)).
  { split; [vl|]. split; [apply repeat_length|]. intros i Hi'. rewrite rzero_nth, Rabs_R0. rewrite (repeat_spec n 1 ((repeat 1 n)@i)); [lra|]. apply nth_In. now rewrite repeat_length. }
  destruct (list_eq_dec Req_EM_T y (rzero m)) as [Z|Z].
  - assert (Hy : nrminf (trans (rscale 2 y)) <= lambda).
    { pose proof Adj as [_ [[T0 [_ T2]] _]]. replace (rscale 2 y) with (rscale 0 y) by (subst y; veq). rewrite T2, nrminf_scale by (auto; lra). lra. }
    destruct (@zero_run n m times trans y lambda tol xi t0 mi pmi (repeat 1 n) ff bf fuel Adj Ly ltac:(lra) Htol Hy) as [s [E [Ex _]]].
    unfold l1ls_solve_from in H. rewrite E in H. injection H as <-. cbn. rewrite Ex.
    pose proof (zero_optimal y Adj Ly Hy w Lw) as P. assert (0 <= l1ls_obj times y lambda w).
    { unfold l1ls_obj. pose proof (rdot_pos (rsub (times w) y)). unfold nrm2. pose proof (Rmult_le_pos lambda (nrm1 w) ltac:(lra) (nrm1_pos w)). lra. }
    pose proof (Rmult_le_pos _ _ Htol H). lra.
  - eapply C41_certificate; eauto; [lra|]. eapply dual_at_zero; eauto. lra.
Qed.
Print Assumptions C41_certificate_default.

(** when lambda is at least the largest entry of 2 A^T y, zero is an optimal point and the
    solver returns it without iterating *)
Theorem C41_zero_solution n m times trans y lambda tol xi t0 mi pmi ff bf fuel :
  adjoint_ops n m times trans -> length y = m -> 0 <= tol -> nrminf (trans (rscale 2 y)) <= lambda ->
  (exists sol, l1ls_solve times trans y lambda tol xi t0 mi pmi n ff bf fuel = Done sol /\ l1s_x sol = rzero n /\ l1s_iterations sol = 1%nat) /\
  forall w, length w = n -> l1ls_obj times y lambda (rzero n) <= l1ls_obj times y lambda w.
Proof.
  intros Adj Ly Htol Hy. split; [|eapply zero_optimal; eauto]. pose proof (nrminf_pos (trans (rscale 2 y))).
  destruct (@zero_run n m times trans y lambda tol xi t0 mi pmi (repeat 1 n) ff bf fuel Adj Ly ltac:(lra) Htol Hy) as [s [E [Ex Ei]]].
  unfold l1ls_solve, l1ls_solve_from. rewrite E. eexists. split; [reflexivity|]. cbn. auto.
Qed.
Print Assumptions C41_zero_solution.

(** "a run that ends before its limit is nearly optimal" fails for warm starts: with
    A = [1], y = 1, lambda = 1, x0 = 3, the initial dual value is negative, the relative
    gap is negative, and the solver returns x0 at once, whatever the tolerance; its value
    is 7 while the optimal value is at most 3/4 *)
Theorem C41_warm_start_refuted : exists n (times trans : vec -> vec) y lambda x0 u0,
  adjoint_ops n n times trans /\ length y = n /\ 0 < lambda /\ strictly_inside n x0 u0 /\
  forall tol xi t0 mi pmi ff bf fuel, 0 <= tol ->
  exists sol w, l1ls_solve_from times trans y lambda tol xi t0 mi pmi x0 u0 ff bf fuel = Done sol /\ l1s_x sol = x0 /\ l1s_iterations sol = 1%nat /\
    length w = n /\ l1ls_obj times y lambda (l1s_x sol) = 7 /\ l1ls_obj times y lambda w = 3 / 4.
Proof.
  exists 1%nat, (fun x => x), (fun x => x), [1], 1, [3], [4]. split; [apply id_adj|]. split; [reflexivity|]. split; [lra|].
  split. { split; [reflexivity|]. split; [reflexivity|]. intros i Hi. destruct i; [|lia]. cbn. rewrite Rabs_pos_eq; lra. }
  intros tol xi t0 mi pmi ff bf fuel Htol.
  assert (C : l1_cond tol mi (l1_init (fun x => x) (fun x => x) [1] 1 t0 [3] [4]) = false).
  { unfold l1_cond. apply andb_false_iff. left. unfold l1_init. cbv zeta. cbn [l1_rel_gap].
    assert (N : get_nu (fun x => x) 1 (rsub [3] [1]) = [1]).
    { unfold get_nu. cbv zeta. one_d. rewrite (Rabs_pos_eq (2 * (3 - 1))) by lra. destruct (Reqb_spec (2 * (3 - 1)) 0); [lra|].
      destruct (Rltb_spec (1 / (2 * (3 - 1))) 1); [|lra]. one_d. f_equal. lra. }
    rewrite N. unfold get_primal_obj, get_dual_obj. one_d. unfold nrm1. cbn [fold_right map rlsum]. rewrite Rabs_pos_eq by lra.
    unfold xdiv. destruct (Reqb_spec (- (1 / 4) * (1 * 1) - 1 * 1) 0); [lra|]. cbn.
    match goal with |- Rltb tol ?q = false => destruct (Rltb_spec tol q); auto; assert (q = - (33 / 5)) by field; lra end. }
  exists (L1lsSolution [3] (ropp (rsub [3] [1])) 1 1 2), [1 / 2].
  split. { unfold l1ls_solve_from, l1ls_run. destruct fuel; cbn [while_]; rewrite C; reflexivity. }
  split; [reflexivity|]. split; [reflexivity|]. split; [reflexivity|]. cbn [l1s_x]. unfold l1ls_obj, nrm2. one_d. unfold nrm1. cbn [fold_right map rlsum].
  rewrite !Rabs_pos_eq by lra. split; field.
Qed.
Print Assumptions C41_warm_start_refuted.

(** the hypotheses are met: a run with A = [1], y = 1, lambda = 1 from the default start
    reaches a second state *)
Example C41_nonvacuous : adjoint_ops 1 1 (fun x => x) (fun x => x) /\ strictly_inside 1 (rzero 1) (repeat 1 1) /\
  0 < get_dual_obj [1] (get_nu (fun x => x) 1 (rsub (rzero 1) [1])) /\
  exists ff bf s, reaches (l1_cond (1 / 1000) 400) (l1_body (fun x => x) (fun x => x) [1] 1 (1 / 1000) 5000 ff bf)
    (l1_init (fun x => x) (fun x => x) [1] 1 None (rzero 1) (repeat 1 1)) 1 s.
Proof.
  assert (Hin : strictly_inside 1 (rzero 1) (repeat 1 1)).
  { split; [reflexivity|]. split; [reflexivity|]. intros [|i] Hi; [|lia]. cbn. rewrite Rabs_R0. lra. }
  assert (D : 0 < get_dual_obj [1] (get_nu (fun x => x) 1 (rsub (rzero 1) [1]))).
  { apply (@dual_at_zero 1 1 (fun x => x) (fun x => x) [1] 1 (id_adj 1)); try reflexivity; try lra. cbn. intros [= E]. lra. }
  split; [apply id_adj|]. split; auto. split; auto.
  set (i0 := l1_init (fun x => x) (fun x => x) [1] 1 None (rzero 1) (repeat 1 1)).
  assert (C : l1_cond (1 / 1000) 400 i0 = true).
  { unfold l1_cond, i0, l1_init. cbv zeta. cbn [l1_rel_gap l1_iterations]. apply andb_true_iff. split; [|reflexivity]. cbn [rzero repeat].
    assert (N : get_nu (fun x => x) 1 (rsub [0] [1]) = [- (1)]).
    { unfold get_nu. cbv zeta. one_d. replace (2 * (0 - 1)) with (- (2)) by ring. rewrite Rabs_Ropp, (Rabs_pos_eq 2) by lra. destruct (Reqb_spec 2 0); [lra|].
      destruct (Rltb_spec (1 / 2) 1); [|lra]. one_d. f_equal. lra. }
    rewrite N. unfold get_primal_obj, get_dual_obj. one_d. unfold nrm1. cbn [fold_right map rlsum]. rewrite Rabs_R0.
    unfold xdiv. destruct (Reqb_spec (- (1 / 4) * (- (1) * - (1)) - - (1) * 1) 0); [lra|]. cbn.
    match goal with |- Rltb ?a ?q = true => destruct (Rltb_spec a q); auto; assert (q = 1 / 3) by field; lra end. }
  destruct (@C41_step_ends_partial 1 1 (fun x => x) (fun x => x) [1] 1 (1 / 1000) (1 / 1000) None 400 5000 0 0 (rzero 1) (repeat 1 1) 0 i0) as [ff [bf [s B]]];
    auto; try lra; try apply id_adj; try discriminate; try constructor.
  exists ff, bf, s. econstructor; [constructor|exact C|exact B].
Qed.
