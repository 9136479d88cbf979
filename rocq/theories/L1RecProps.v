(** C86: the l1 solvers recover sparse vectors from incoherent measurements. *)
From Coq Require Import List Arith Bool Lia Reals Lra Psatz.
From Verif Require Import Scalar Vec RVec RMat Loop LoopLemmas XReal SolverSpec SolverLemmas OptSpec OptModel SelSpec SelProofs CGProofs SlsModel SlsSpec SlsProofs SlsLemmas SlsProps SpglModel SpglSpec SpglProofs4 SpglProps L1lsModel L1lsSpec L1lsProps FomModel FomSpec FomProps YallModel YallSpec YallProofs YallProps PursuitModel PursuitSpec PursuitProofs L1RecSpec L1RecProofs L1RecProofs2 L1RecRefute.
Import ListNotations.
Local Open Scope R_scope.

(** a vector whose l1 norm is not larger than that of a nearly sparse x and whose
    measurements are close to those of x is close to x *)
Theorem C86_constrained n m K A T s mu sigma x z eta eps :
  measures n m A T s mu x -> nearly_sparse K sigma x -> (2 * INR K - 1) * mu < 1 ->
  length z = n -> 0 <= eps -> nrm1 z <= nrm1 x + eps -> nrm (A (rsub z x)) <= eta ->
  nrm1 (rsub z x) <= constrained_error K s mu sigma eta eps.
Proof. intros (Adj & Hi & Hm & Hs & Lx) Sx Hc Lz. now apply (constrained Adj Hi Hm Hs Lx Sx Lz). Qed.
Print Assumptions C86_constrained.
(** a sparse vector is the only one of least l1 norm with its measurements: every solution of
    the basis pursuit problem handed to YALL1 is the vector that was measured *)
Theorem C86_basis_pursuit n m K A T s mu x nonneg :
  measures n m A T s mu x -> sparse K x -> (2 * INR K - 1) * mu < 1 -> candidate n nonneg x ->
  yall_solves n A (A x) (repeat 1 n) nonneg BP x /\ forall z, yall_solves n A (A x) (repeat 1 n) nonneg BP z -> z = x.
Proof.
  intros (Adj & Hi & Hm & Hs & Lx) Sx Hc Cx.
  assert (U : forall z, length z = n -> A z = A x -> nrm1 z <= nrm1 x -> z = x) by (intros z; apply (unique Adj Hi Hm Hs Lx Hc Sx)).
  split.
  - split; [auto|]. split; [reflexivity|]. intros v [Lv _] E. cbn in *. rewrite !ones_wnorm by auto.
    destruct (Rle_dec (nrm1 x) (nrm1 v)); auto. rewrite (U v Lv E); lra.
  - intros z ([Lz _] & E & M). apply U; auto. specialize (M x Cx eq_refl). cbn in M. now rewrite !ones_wnorm in M by auto.
Qed.
Print Assumptions C86_basis_pursuit.
(** YALL1 for basis pursuit, orthonormal rows: the iteration rests only at the measured vector *)
Theorem C86_yall1_rest n m K A T s mu x nonneg gamma st st' :
  measures n m A T s mu x -> sparse K x -> (2 * INR K - 1) * mu < 1 -> candidate n nonneg x -> A x <> rzero m ->
  orthonormal_rows m A T -> gamma <> 0 -> length (ya_x st) = n -> length (ya_z st) = n ->
  ya_iteration A T (A x) (repeat 1 n) nonneg gamma BP st = Some st' -> ya_x st' = ya_x st -> ya_z st' = ya_z st -> ya_x st = x.
Proof.
  intros H Sx Hc Cx Nb O G L1 L2 E E1 E2. pose proof H as (Adj & Hi & Hm & Hs & Lx).
  assert (LA : length (A x) = m) by now apply Adj. assert (Lw : length (repeat 1 n) = n) by apply repeat_length.
  assert (Hw : forall i, (i < n)%nat -> 0 <= (repeat 1 n)@i).
  { intros i Hi'. rewrite (repeat_spec n 1 ((repeat 1 n)@i)); [lra|]. apply nth_In. now rewrite repeat_length. }
  pose proof (proj1 (@C43_fixed_point n m A T (A x) (repeat 1 n) nonneg gamma BP st st' Adj LA Lw Hw Logic.I O G Nb L1 L2 E) (conj E1 E2)) as (y & K' & _).
  apply (proj2 (@C86_basis_pursuit n m K A T s mu x nonneg H Sx Hc Cx)).
  eapply C43_optimality; eauto. exact Logic.I.
Qed.
Print Assumptions C86_yall1_rest.
(** YALL1 for basis pursuit and basis pursuit denoising: a run stopped by its tests on the gap
    and the residuals returns a vector close to the measured one *)
Theorem C86_yall1 n m K A T s mu sigma x nonneg gamma tolerance max_iters x0 z0 fuel st :
  measures n m A T s mu x -> nearly_sparse K sigma x -> (2 * INR K - 1) * mu < 1 -> candidate n nonneg x ->
  length x0 = n -> length z0 = n -> 0 <= tolerance < 1 ->
  ya_run A T (A x) (repeat 1 n) nonneg gamma tolerance max_iters BP x0 z0 fuel = Done st ->
  (0 < ya_iterations st < max_iters)%nat -> xgtb (x_change st) tolerance = true ->
  nrm1 (rsub (ya_x st) x) <=
    constrained_error K s mu sigma (tolerance * nrm (A x)) (tolerance / (1 - tolerance) * (nrm1 x + nrm (ya_z st) * nrm x)).
Proof.
  intros (Adj & Hi & Hm & Hs & Lx) Sx Hc Cx L0 Lz [Ht Ht1] E Hit Hch.
  assert (LA : length (A x) = m) by now apply Adj. assert (Lw : length (repeat 1 n) = n) by apply repeat_length.
  assert (Hw : forall i, (i < n)%nat -> 0 <= (repeat 1 n)@i).
  { intros i Hi'. rewrite (repeat_spec n 1 ((repeat 1 n)@i)); [lra|]. apply nth_In. now rewrite repeat_length. }
  destruct (@C43_certificate n m A T (A x) (repeat 1 n) nonneg gamma tolerance max_iters BP x0 z0 fuel st Adj LA Lw Hw Logic.I L0 Lz Ht E Hit Hch) as [F G].
  assert (Ls : length (ya_x st) = n) by (destruct (@YallProofs3.run_done n m A T (A x) (repeat 1 n) nonneg gamma tolerance max_iters BP Adj LA Lw Hw Logic.I x0 z0 fuel st L0 Lz E) as (k & Inv & _); apply Inv).
  specialize (G x Cx eq_refl). cbn in F, G. rewrite !ones_wnorm in G by auto.
  pose proof (nrm1_pos x) as P1. pose proof (nrm_pos (ya_z st)) as P2. pose proof (nrm_pos x) as P3. pose proof (Rmult_le_pos _ _ P2 P3) as P4.
  refine (constrained Adj Hi Hm Hs Lx Sx Ls Hc _ _ _).
  - apply Rmult_le_pos; [|lra]. apply Rmult_le_pos; auto. left. apply Rinv_0_lt_compat. lra.
  - apply Rmult_le_reg_l with (1 - tolerance); [lra|].
    replace ((1 - tolerance) * (nrm1 x + tolerance / (1 - tolerance) * (nrm1 x + nrm (ya_z st) * nrm x))) with (nrm1 x + tolerance * nrm (ya_z st) * nrm x) by (field; lra). exact G.
  - rewrite (@lin_sub n m A _ _ (proj1 Adj)) by auto. assert (length (A (ya_x st)) = m) by now apply Adj.
    rewrite nrm_sub_sym by lia. lra.
Qed.
Print Assumptions C86_yall1.
Theorem C86_yall1_denoising n m K A T s mu sigma x b delta nonneg gamma tolerance max_iters x0 z0 fuel st :
  measures n m A T s mu x -> nearly_sparse K sigma x -> (2 * INR K - 1) * mu < 1 -> candidate n nonneg x ->
  length b = m -> 0 < delta -> nrm (rsub b (A x)) <= delta ->
  length x0 = n -> length z0 = n -> 0 <= tolerance < 1 ->
  ya_run A T b (repeat 1 n) nonneg gamma tolerance max_iters (L1L2con delta) x0 z0 fuel = Done st ->
  (0 < ya_iterations st < max_iters)%nat -> xgtb (x_change st) tolerance = true ->
  nrm1 (rsub (ya_x st) x) <=
    constrained_error K s mu sigma (delta * (2 + tolerance)) (tolerance / (1 - tolerance) * (nrm1 x + nrm (ya_z st) * nrm x)).
Proof.
  intros (Adj & Hi & Hm & Hs & Lx) Sx Hc Cx Lb Hd Fx L0 Lz [Ht Ht1] E Hit Hch.
  assert (LA : length (A x) = m) by now apply Adj. assert (Lw : length (repeat 1 n) = n) by apply repeat_length.
  assert (Hw : forall i, (i < n)%nat -> 0 <= (repeat 1 n)@i).
  { intros i Hi'. rewrite (repeat_spec n 1 ((repeat 1 n)@i)); [lra|]. apply nth_In. now rewrite repeat_length. }
  destruct (@C43_certificate n m A T b (repeat 1 n) nonneg gamma tolerance max_iters (L1L2con delta) x0 z0 fuel st Adj Lb Lw Hw Hd L0 Lz Ht E Hit Hch) as [F G].
  assert (Ls : length (ya_x st) = n) by (destruct (@YallProofs3.run_done n m A T b (repeat 1 n) nonneg gamma tolerance max_iters (L1L2con delta) Adj Lb Lw Hw Hd x0 z0 fuel st L0 Lz E) as (k & Inv & _); apply Inv).
  specialize (G x Cx Fx). cbn in F, G. rewrite !ones_wnorm in G by auto.
  pose proof (nrm1_pos x) as P1. pose proof (nrm_pos (ya_z st)) as P2. pose proof (nrm_pos x) as P3. pose proof (Rmult_le_pos _ _ P2 P3) as P4.
  refine (constrained Adj Hi Hm Hs Lx Sx Ls Hc _ _ _).
  - apply Rmult_le_pos; [|lra]. apply Rmult_le_pos; auto. left. apply Rinv_0_lt_compat. lra.
  - apply Rmult_le_reg_l with (1 - tolerance); [lra|].
    replace ((1 - tolerance) * (nrm1 x + tolerance / (1 - tolerance) * (nrm1 x + nrm (ya_z st) * nrm x))) with (nrm1 x + tolerance * nrm (ya_z st) * nrm x) by (field; lra). exact G.
  - eapply Rle_trans; [apply (fit_le Adj Lx Lb Ls F Fx)|]. apply Req_le. ring.
Qed.
Print Assumptions C86_yall1_denoising.
(** SPGL1 with the l1 norm of the measured vector as radius: a run stopped before its
    iteration limit returns a vector close to the measured one *)
Theorem C86_spgl1_lasso n m K A T s mu sigma x b opt x0 fuel st :
  measures n m A T s mu x -> nearly_sparse K sigma x -> (2 * INR K - 1) * mu < 1 -> length b = m -> length x0 = n ->
  0 < go_alpha_min opt -> go_alpha_min opt <= go_alpha_max opt -> 0 <= go_opt_tol opt < 1 ->
  solve_lasso_from A T b (nrm1 x) opt x0 fuel = Done st -> (la_iterations st < go_max_iters opt)%nat ->
  nrm1 (rsub (la_x st) x) <=
    constrained_error K s mu sigma
      (Rmax (go_opt_tol opt * nrm b) (sqrt (nrm2 (rsub b (A x)) / (1 - go_opt_tol opt) + 2 * go_opt_tol opt)) + nrm (rsub b (A x))) 0.
Proof.
  intros (Adj & Hi & Hm & Hs & Lx) Sx Hc Lb L0 A1 A2 [Ht Ht1] E Hit.
  destruct (@C42_lasso_certificate n m A T b (nrm1 x) opt x0 fuel st Adj Lb L0 (nrm1_pos x) A1 A2 E) as (Ls & N & _ & C).
  refine (constrained Adj Hi Hm Hs Lx Sx Ls Hc (Rle_refl 0) _ _); [lra|].
  apply (fit_le Adj Lx Lb Ls); [|apply Rle_refl]. destruct (C Hit) as [C'|C'].
  - eapply Rle_trans; [apply Rlt_le, C'|apply Rmax_l].
  - eapply Rle_trans; [|apply Rmax_r]. unfold nrm. apply sqrt_le_1_alt. fold (nrm2 (rsub b (A (la_x st)))).
    specialize (C' x Lx (Rle_refl _)). unfold misfit in C'. set (q := nrm2 (rsub b (A (la_x st)))) in *. set (p := nrm2 (rsub b (A x))) in *.
    assert (P0 : 0 <= p) by apply rdot_pos. set (t := go_opt_tol opt) in *.
    assert (P1 : p <= p / (1 - t)). { apply Rmult_le_reg_r with (1 - t); [lra|]. unfold Rdiv. rewrite Rmult_assoc, Rinv_l by lra. nra. }
    unfold Rmax in C'. destruct (Rle_dec 1 (/ 2 * q)) as [R|R].
    + assert (q <= p / (1 - t)); [|lra]. apply Rmult_le_reg_r with (1 - t); [lra|]. unfold Rdiv. rewrite Rmult_assoc, Rinv_l by lra. lra.
    + lra.
Qed.
Print Assumptions C86_spgl1_lasso.
(** the first order driver on the l1 ball of the measured vector: the error falls like one
    over the number of iterations *)
Theorem C86_fom_lasso n m K A T s mu x opt x0 L fuel :
  measures n m A T s mu x -> sparse K x -> (2 * INR K - 1) * mu < 1 ->
  0 < L -> (forall v, length v = n -> nrm2 (A v) <= L * nrm2 v) ->
  0 < fo_beta opt -> fo_alpha opt = 1 -> fo_L0 opt = L -> fo_Lexact opt = Some L ->
  length x0 = n -> nrm1 x0 <= nrm1 x -> (fo_max_iters opt <= fuel)%nat ->
  exists st, fom_lasso A T (A x) (nrm1 x) x0 opt fuel = Done st /\
    nrm1 (rsub (fm_x st) x) <= 4 * INR K * sqrt L * nrm (rsub x0 x) / (s * (1 - (2 * INR K - 1) * mu) * INR (fm_iterations st + 1)).
Proof.
  intros (Adj & Hi & Hm & Hs & Lx) Sx Hc PL HL Hb Ha E0 EL L0 N0 Hf.
  assert (LA : length (A x) = m) by now apply Adj.
  assert (Z : nrm2 (rsub (A x) (A x)) = 0). { replace (rsub (A x) (A x)) with (rzero m) by veq. unfold nrm2. apply rdot_zero_l. }
  assert (Mu : forall v, length v = n -> nrm1 v <= nrm1 x -> / 2 * nrm2 (rsub (A x) (A x)) <= / 2 * nrm2 (rsub (A v) (A x))).
  { intros v _ _. rewrite Z. pose proof (rdot_pos (rsub (A v) (A x))). unfold nrm2. lra. }
  destruct (@C45_lasso n m A T (A x) (nrm1 x) opt x0 L x fuel Adj LA (nrm1_pos x) PL HL Hb Ha E0 EL L0 N0 Hf Lx (Rle_refl _) Mu) as (st & Ed & Nx & R).
  exists st. split; auto.
  assert (Ls : length (fm_x st) = n).
  { assert (Ho : fom_options_ok opt). { unfold fom_options_ok. rewrite Ha, E0, EL. split; [lra|]. split; [auto|]. split; [auto|]. intros e Ee. injection Ee as <-. lra. }
    assert (Lob : length (ropp (A x)) = m) by vl. assert (Sm : smooth_ok m (smooth_quad_matrix None None None)) by (split; auto).
    unfold fom_lasso, fom in Ed. destruct (fom_first _ _ _ _ _ _ _) as [s1|] eqn:E1; [|discriminate].
    apply while_done in Ed as [j [_ [Hr _]]].
    destruct (@C45_invariants n m (smooth_quad_matrix None None None) (prox_l1_ball (nrm1 x)) A T (ropp (A x)) opt (fun y => nrm1 y <= nrm1 x) (fun _ => 0) x0 Adj Lob Sm (@FomProofs2.ball_convex n (nrm1 x)) (@FomProofs2.capable_l1_ball n (nrm1 x) (nrm1_pos x)) Ho L0) as [s1' [E1' R1]].
    rewrite E1 in E1'. injection E1' as <-. apply (R1 _ _ Hr). }
  set (q := INR (fm_iterations st + 1)) in *. assert (Pq : 0 < q) by (apply lt_0_INR; lia).
  rewrite Z in R. pose proof (nrm_pos (rsub x0 x)) as Pn. pose proof (sqrt_pos L) as Psl.
  assert (B : nrm (A (rsub (fm_x st) x)) <= 2 * sqrt L * nrm (rsub x0 x) / q).
  { rewrite (@lin_sub n m A _ _ (proj1 Adj)) by auto. assert (P0 : 0 <= 2 * sqrt L * nrm (rsub x0 x) / q).
    { apply Rmult_le_pos; [apply Rmult_le_pos; lra|]. left. now apply Rinv_0_lt_compat. }
    unfold nrm at 1. rewrite <- (sqrt_square _ P0). apply sqrt_le_1_alt. fold (nrm2 (rsub (A (fm_x st)) (A x))).
    replace (2 * sqrt L * nrm (rsub x0 x) / q * (2 * sqrt L * nrm (rsub x0 x) / q)) with (2 * (2 * (sqrt L * sqrt L) * (nrm (rsub x0 x) * nrm (rsub x0 x)) / q ^ 2)) by (field; lra).
    rewrite sqrt_sqrt by lra. rewrite nrm_sq. fold (nrm2 (rsub x0 x)). lra. }
  eapply Rle_trans; [exact (constrained Adj Hi Hm Hs Lx (sparse_nearly Sx) Ls Hc (Rle_refl 0) ltac:(lra) B)|].
  unfold constrained_error. apply Req_le. field. repeat split; lra.
Qed.
Print Assumptions C86_fom_lasso.
(** penalised problems: a vector whose value is within gap of that of x is close to x when
    lambda is at least twice the largest correlation of a column with the noise *)
Theorem C86_penalised n m K A T s mu sigma x z b lambda gap :
  measures n m A T s mu x -> nearly_sparse K sigma x -> (25 * INR K - 1) * mu < 1 ->
  length z = n -> length b = m -> 0 < lambda -> 2 * nrminf (T (rsub b (A x))) <= lambda -> 0 <= gap ->
  / 2 * nrm2 (rsub b (A z)) + lambda * nrm1 z <= / 2 * nrm2 (rsub b (A x)) + lambda * nrm1 x + gap ->
  nrm1 (rsub z x) <= penalised_error K s mu sigma lambda gap.
Proof. intros (Adj & Hi & Hm & Hs & Lx) Sx Hc Lz Lb. now apply (penalised Adj Hi Hm Hs Lx Sx Lz Lb). Qed.
Print Assumptions C86_penalised.
(** ISTA with soft thresholding after k iterations: the coefficients of the estimate in the
    basis B, and the estimate itself, are close to those of the measured vector *)
Theorem C86_ista n m K A B b x0 x s mu sigma lambda step L rtol xtol max_iters k st :
  measures n m (fun a => so_times A (so_times B a)) (fun y => so_trans B (so_trans A y)) s mu x ->
  adjoint_ops n m (so_times A) (so_trans A) -> orthonormal_basis n (so_times B) (so_trans B) ->
  nearly_sparse K sigma (so_trans B x) -> (25 * INR K - 1) * mu < 1 -> length b = m -> length x0 = n ->
  0 < step -> step * L <= 1 -> (forall z, length z = n -> nrm2 (so_times A z) <= L * nrm2 z) ->
  0 < lambda -> 2 * nrminf (so_trans B (so_trans A (rsub b (so_times A x)))) <= lambda -> (0 < k)%nat ->
  ista_after A b x0 step (fun _ a => soft_threshold a (step * lambda)) B rtol xtol max_iters k st ->
  let bound := penalised_error K s mu sigma lambda (nrm2 (rsub x0 x) / (2 * step * INR k)) in
  nrm1 (rsub (so_trans B (is_x st)) (so_trans B x)) <= bound /\ nrm (rsub (is_x st) x) <= bound.
Proof.
  intros (_ & Hi & Hm & Hs & Lx) HA HB Sx Hc Lb L0 P1 P2 HL Pl Hn Hk H bound.
  pose proof (soft_set HA HB Lb L0 P1 P2 HL Pl) as S.
  assert (Ls : length (is_x st) = n).
  { pose proof S as [_ [_ [_ [_ [_ [_ [_ [Cf HT]]]]]]]]. eapply ista_len with (m := m); eauto. apply (setting_strong S). }
  apply (sls_recovers HA HB Lb L0 Lx Hi Hm Hs Hc Sx Pl Hn Ls).
  - apply Rmult_le_pos; [apply rdot_pos|]. left. apply Rinv_0_lt_compat. pose proof (lt_0_INR k Hk). nra.
  - exact (@C37_rate n m A B b x0 _ step L _ rtol xtol max_iters x k st S Lx Hk H).
Qed.
Print Assumptions C86_ista.
Theorem C86_fista n m K A B b x0 x s mu sigma lambda step L rtol xtol max_iters k st :
  measures n m (fun a => so_times A (so_times B a)) (fun y => so_trans B (so_trans A y)) s mu x ->
  adjoint_ops n m (so_times A) (so_trans A) -> orthonormal_basis n (so_times B) (so_trans B) ->
  nearly_sparse K sigma (so_trans B x) -> (25 * INR K - 1) * mu < 1 -> length b = m -> length x0 = n ->
  0 < step -> step * L <= 1 -> (forall z, length z = n -> nrm2 (so_times A z) <= L * nrm2 z) ->
  0 < lambda -> 2 * nrminf (so_trans B (so_trans A (rsub b (so_times A x)))) <= lambda -> (0 < k)%nat ->
  fista_after A b x0 step (fun _ a => soft_threshold a (step * lambda)) B rtol xtol max_iters k st ->
  let bound := penalised_error K s mu sigma lambda (2 * nrm2 (rsub x0 x) / (step * ((INR k + 1) * (INR k + 1)))) in
  nrm1 (rsub (so_trans B (fs_x st)) (so_trans B x)) <= bound /\ nrm (rsub (fs_x st) x) <= bound.
Proof.
  intros (_ & Hi & Hm & Hs & Lx) HA HB Sx Hc Lb L0 P1 P2 HL Pl Hn Hk H bound.
  pose proof (soft_set HA HB Lb L0 P1 P2 HL Pl) as S.
  assert (Ls : length (fs_x st) = n).
  { pose proof S as [_ [_ [_ [_ [_ [_ [_ [Cf HT]]]]]]]]. eapply fista_len with (m := m); eauto. apply (setting_strong S). }
  apply (sls_recovers HA HB Lb L0 Lx Hi Hm Hs Hc Sx Pl Hn Ls).
  - pose proof (lt_0_INR k Hk). pose proof (rdot_pos (rsub x0 x)). apply Rmult_le_pos; [unfold nrm2; lra|]. left. apply Rinv_0_lt_compat. nra.
  - exact (@C38_rate n m A B b x0 _ step L _ rtol xtol max_iters x k st S Lx Hk H).
Qed.
Print Assumptions C86_fista.
(** l1_ls stopped before its iteration limit *)
Theorem C86_l1_ls n m K A T s mu sigma x y lambda tol xi t0 mi pmi ff bf fuel sol :
  measures n m A T s mu x -> nearly_sparse K sigma x -> (25 * INR K - 1) * mu < 1 -> (0 < n)%nat -> length y = m ->
  0 < lambda -> 4 * nrminf (T (rsub y (A x))) <= lambda -> 0 <= tol -> (forall t, t0 = Some t -> 0 < t) ->
  l1ls_solve A T y lambda tol xi t0 mi pmi n ff bf fuel = Done sol -> (l1s_iterations sol < mi)%nat ->
  nrm1 (rsub (l1s_x sol) x) <= penalised_error K s mu sigma (lambda / 2) (tol / 2 * l1ls_obj A y lambda x).
Proof.
  intros (Adj & Hi & Hm & Hs & Lx) Sx Hc Hn Ly Pl Hl Ht Ht0 E Hit.
  pose proof (@C41_certificate_default n m A T y lambda tol xi t0 mi pmi ff bf fuel sol Adj Ly Hn Pl Ht Ht0 E Hit x Lx) as C.
  assert (Ls : length (l1s_x sol) = n).
  { unfold l1ls_solve in E. apply (@C41_returns n m A T y lambda tol xi t0 mi pmi _ _ ff bf fuel sol Adj Ly Hn ltac:(lra) Ht0) in E; [apply E|].
    split; [vl|]. split; [apply repeat_length|]. intros i Hi'. rewrite rzero_nth, Rabs_R0. rewrite (repeat_spec n 1 ((repeat 1 n)@i)); [lra|]. apply nth_In. now rewrite repeat_length. }
  assert (LA : length (A x) = m) by now apply Adj. assert (LA' : length (A (l1s_x sol)) = m) by now apply Adj.
  refine (penalised Adj Hi Hm Hs Lx Sx Ls Ly Hc _ _ _ _); try lra.
  - apply Rmult_le_pos; [lra|]. unfold l1ls_obj. pose proof (rdot_pos (rsub (A x) y)). pose proof (Rmult_le_pos lambda (nrm1 x) ltac:(lra) (nrm1_pos x)). unfold nrm2. lra.
  - unfold l1ls_obj in *. rewrite (@OptProofs.nrm2_sub_sym y (A x)), (@OptProofs.nrm2_sub_sym y (A (l1s_x sol))) by lia. lra.
Qed.
Print Assumptions C86_l1_ls.
(** a dictionary with unit atoms and coherence at most mu is such a measurement operator *)
Theorem C86_dictionary m D mu x : unit_dict m D -> coherence_at_most D mu -> 0 <= mu -> length x = d_n D ->
  measures (d_n D) m (combine_atoms m D) (d_trans D) 1 mu x.
Proof.
  intros [V U] C Hm Lx.
  assert (E : forall i, (i < d_n D)%nat -> combine_atoms m D (coordinate (d_n D) i) = d_atom D i).
  { intros i Hi. apply (@len_ext m); [apply (combine_len V)|apply V; auto|]. intros r Lr. rewrite (combine_adj V) by auto. rewrite coord_dot; auto; now apply V. }
  split; [|split; [split|split; [|split]]]; auto; try lra.
  - split; [apply (combine_linear V)|]. split; [|intros; now apply (combine_adj V)].
    destruct V as (V1 & V2 & V3). split; [auto|]. split.
    + intros u v Lu Lv. apply vec_eq; [rewrite radd_len, !V2 by vl; lia|]. intros i Hi. rewrite V2 in Hi by vl.
      rewrite radd_nth by (rewrite !V2; auto). rewrite !V3 by (auto; vl). rewrite rdot_add_r by (rewrite ?V1; lia). ring.
    + intros c u Lu. apply vec_eq; [rewrite rscale_len, !V2 by vl; lia|]. intros i Hi. rewrite V2 in Hi by vl.
      rewrite rscale_nth. rewrite !V3 by (auto; vl). apply rdot_scale_r.
  - intros i Hi. rewrite E by auto. unfold nrm. rewrite (U i Hi : rdot _ _ = 1). apply sqrt_1.
  - intros i j Hi Hj N. rewrite !E by auto. rewrite Rmult_1_r, Rmult_1_r. auto.
Qed.
Print Assumptions C86_dictionary.
(** the condition on the coherence cannot be relaxed: with (2 K - 1) mu = 1 basis pursuit can
    have a second solution *)
Theorem C86_coherent_refuted : exists n m K A T s mu x z,
  measures n m A T s mu x /\ sparse K x /\ (2 * INR K - 1) * mu = 1 /\
  yall_solves n A (A x) (repeat 1 n) false BP x /\ yall_solves n A (A x) (repeat 1 n) false BP z /\ z <> x.
Proof. exact parallel_wrong. Qed.
Print Assumptions C86_coherent_refuted.
(** operators meeting the hypotheses: three vectors of the plane at 120 degrees, with
    orthonormal rows, and two nearly orthogonal columns with the identity as basis *)
Example C86_hyps_constrained : measures 3 2 (mv mercedes) (mtv 3 mercedes) (sqrt (2 / 3)) (1 / 2) [0; 3; 0] /\
  sparse 1 [0; 3; 0] /\ (2 * INR 1 - 1) * (1 / 2) < 1.
Proof. exact mercedes_measures. Qed.
Example C86_hyps_rows : orthonormal_rows 2 (mv mercedes) (mtv 3 mercedes).
Proof. exact mercedes_rows. Qed.
Example C86_hyps_penalised : measures 2 2 (fun a => so_times (SimpleOp (mv skew) (mtv 2 skew)) (so_times identity_op a))
    (fun y => so_trans identity_op (so_trans (SimpleOp (mv skew) (mtv 2 skew)) y)) 1 (100 / 2501) [0; 3] /\
  sparse 1 [0; 3] /\ (25 * INR 1 - 1) * (100 / 2501) < 1 /\ forall z, length z = 2%nat -> nrm2 (mv skew z) <= 2 * nrm2 z.
Proof. exact skew_measures. Qed.
