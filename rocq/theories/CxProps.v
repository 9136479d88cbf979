(** Property C94: ISTA and FISTA on complex data. *)
From Coq Require Import List Arith Bool Lia Reals Lra.
From Verif Require Import Scalar Vec RVec Loop SolverSpec LopModel LopSpec LopOpSpec FourierModel FourierProofs OptModel OptProofs SlsModel SlsSpec SlsProofs SlsLemmas SeqSpec ConvProofs2 CxSpec CxModel CxSpec2 CxProofs CxProofs2.
Import ListNotations.
Set Implicit Arguments.
Local Open Scope R_scope.

(** the returned residual is the residual of the returned vector *)
Theorem C94_exit A b x0 step thr B rtol xtol max_iters fuel s :
  cista A b x0 step thr B rtol xtol max_iters fuel = Done s ->
  ci_r s = vsub b (co_times A (ci_x s)) /\ ci_rn2 s = cnsq (vsub b (co_times A (ci_x s))) /\ (ci_it s <= max_iters)%nat /\
  (ci_it s = max_iters \/ ci_change s <= xtol \/ cnsq (vsub b (co_times A (ci_x s))) <= rtol * rtol * cnsq b).
Proof.
  intros H. apply fl_ista_run in H. apply ista_exit in H. cbn [fl_ista is_x is_r is_rn2 is_it is_change lift_op so_times] in H.
  rewrite lift_flat, <- flat_sub, !flat_nrm2 in H. destruct H as (H1 & H2 & H3 & H4). split; [now apply flat_inj|]. auto.
Qed.
Print Assumptions C94_exit.
Theorem C94_ends A b x0 step thr B rtol xtol max_iters fuel : (max_iters <= fuel)%nat ->
  (exists s, cista A b x0 step thr B rtol xtol max_iters fuel = Done s) /\ (exists s, cfista A b x0 step thr B rtol xtol max_iters fuel = Done s).
Proof.
  intros H. split.
  - destruct (@ista_total (lift_op A) (lift_op B) (flat b) (flat x0) step rtol xtol (lift_thr thr) max_iters fuel H) as [s E].
    unfold ista in E. rewrite fl_ista_init, (sim_while (fl_ista_cond b rtol xtol max_iters) (fl_ista_body A b step thr B)) in E. unfold cista.
    destruct (while_ (cista_cond b rtol xtol max_iters) (cista_body A b step thr B) fuel (cista_init A b x0)); try discriminate. eauto.
  - destruct (@fista_total (lift_op A) (lift_op B) (flat b) (flat x0) step rtol xtol (lift_thr thr) max_iters fuel H) as [s E].
    unfold fista in E. rewrite fl_fista_init, (sim_while (fl_fista_cond b rtol xtol max_iters) (fl_fista_body A b step thr B)) in E. unfold cfista.
    destruct (while_ (cfista_cond b rtol xtol max_iters) (cfista_body A b step thr B) fuel (cfista_init A b x0)); try discriminate. eauto.
Qed.
Print Assumptions C94_ends.
(** the residual of FISTA is that of the extrapolated point *)
Theorem C94_fista_exit A b x0 step thr B rtol xtol max_iters fuel s :
  cfista A b x0 step thr B rtol xtol max_iters fuel = Done s ->
  cf_r s = vsub b (co_times A (cf_z s)) /\ cf_rn2 s = cnsq (vsub b (co_times A (cf_z s))) /\ (cf_it s <= max_iters)%nat /\
  (cf_it s = max_iters \/ cf_change s <= xtol \/ cnsq (vsub b (co_times A (cf_z s))) <= rtol * rtol * cnsq b).
Proof.
  intros H. apply fl_fista_run in H. apply fista_exit in H. cbn [fl_fista fs_x fs_z fs_r fs_rn2 fs_it fs_change lift_op so_times] in H.
  rewrite lift_flat, <- flat_sub, !flat_nrm2 in H. destruct H as (H1 & H2 & H3 & H4). split; [now apply flat_inj|]. auto.
Qed.
Print Assumptions C94_fista_exit.
(** the objective decreases *)
Theorem C94_objective_decreases n m A B b x0 f step L thr rtol xtol max_iters k s s' :
  cprox_gradient_setting n m A B b x0 f step L thr ->
  cista_after A b x0 step thr B rtol xtol max_iters k s -> cista_after A b x0 step thr B rtol xtol max_iters (S k) s' ->
  creg_objective (co_times A) (co_trans B) b f (ci_x s') <=
  creg_objective (co_times A) (co_trans B) b f (ci_x s) - cnsq (vsub (ci_x s') (ci_x s)) / (2 * step).
Proof.
  intros HS H H'. pose proof (set_ista_mono (lift_setting HS) (fl_ista_after H) (fl_ista_after H')) as Q.
  cbn [fl_ista is_x lift_op so_times so_trans] in Q. now rewrite !lift_obj, <- flat_sub, flat_nrm2 in Q.
Qed.
Print Assumptions C94_objective_decreases.
(** rates of the two methods, against every competitor *)
Theorem C94_ista_rate n m A B b x0 f step L thr rtol xtol max_iters z k s :
  cprox_gradient_setting n m A B b x0 f step L thr -> length z = n -> (0 < k)%nat ->
  cista_after A b x0 step thr B rtol xtol max_iters k s ->
  creg_objective (co_times A) (co_trans B) b f (ci_x s) - creg_objective (co_times A) (co_trans B) b f z
    <= cnsq (vsub x0 z) / (2 * step * INR k).
Proof.
  intros HS Lz Hk H. assert (Lf : length (flat z) = (2 * n)%nat) by (rewrite flat_len; now rewrite Lz).
  pose proof (set_ista_rate (lift_setting HS) (flat z) Lf Hk (fl_ista_after H)) as Q.
  cbn [fl_ista is_x lift_op so_times so_trans] in Q. now rewrite !lift_obj, <- flat_sub, flat_nrm2 in Q.
Qed.
Print Assumptions C94_ista_rate.
Theorem C94_fista_rate n m A B b x0 f step L thr rtol xtol max_iters z k s :
  cprox_gradient_setting n m A B b x0 f step L thr -> length z = n -> (0 < k)%nat ->
  cfista_after A b x0 step thr B rtol xtol max_iters k s ->
  creg_objective (co_times A) (co_trans B) b f (cf_x s) - creg_objective (co_times A) (co_trans B) b f z
    <= 2 * cnsq (vsub x0 z) / (step * ((INR k + 1) * (INR k + 1))).
Proof.
  intros HS Lz Hk H. assert (Lf : length (flat z) = (2 * n)%nat) by (rewrite flat_len; now rewrite Lz).
  pose proof (set_fista_rate (lift_setting HS) (flat z) Lf Hk (fl_fista_after H)) as Q.
  cbn [fl_fista fs_x lift_op so_times so_trans] in Q. now rewrite !lift_obj, <- flat_sub, flat_nrm2 in Q.
Qed.
Print Assumptions C94_fista_rate.
(** complex soft thresholding meets the hypotheses, with the sum of the moduli as regulariser *)
Theorem C94_soft_threshold n m A B b x0 lambda step L :
  is_adjoint m n (co_times A) (co_trans A) -> unitary_basis n (co_times B) (co_trans B) -> length b = m -> length x0 = n ->
  0 <= lambda -> 0 < step -> step * L <= 1 -> (forall x, length x = n -> cnsq (co_times A x) <= L * cnsq x) ->
  cprox_gradient_setting n m A B b x0 (fun z => lambda * cl1 z) step L (fun _ a => soft_threshold_c a (step * lambda)).
Proof. intros; now apply csoft_setting. Qed.
Print Assumptions C94_soft_threshold.
(** the iterates of ISTA converge to one solution of the complex l1 problem *)
Theorem C94_ista_converges n m A B b x0 lambda step L :
  is_adjoint m n (co_times A) (co_trans A) -> unitary_basis n (co_times B) (co_trans B) -> length b = m -> length x0 = n ->
  0 < lambda -> 0 < step -> step * L <= 1 -> (forall x, length x = n -> cnsq (co_times A x) <= L * cnsq x) ->
  exists xs, cminimises n (creg_objective (co_times A) (co_trans B) b (fun z => lambda * cl1 z)) xs /\
  forall eps, 0 < eps -> exists N, forall rtol xtol max_iters k s, (N <= k)%nat ->
    cista_after A b x0 step (fun _ a => soft_threshold_c a (step * lambda)) B rtol xtol max_iters k s -> cnorm (vsub (ci_x s) xs) < eps.
Proof. intros HA HB Hb Hx Pl Hs HsL HL. exact (csoft_converges HA HB Hb Hx Pl Hs HsL HL). Qed.
Print Assumptions C94_ista_converges.
(** those of FISTA approach the solutions *)
Theorem C94_fista_converges n m A B b x0 lambda step L eps :
  is_adjoint m n (co_times A) (co_trans A) -> unitary_basis n (co_times B) (co_trans B) -> length b = m -> length x0 = n ->
  0 < lambda -> 0 < step -> step * L <= 1 -> (forall x, length x = n -> cnsq (co_times A x) <= L * cnsq x) -> 0 < eps ->
  exists N, forall rtol xtol max_iters k s, (N <= k)%nat ->
    cfista_after A b x0 step (fun _ a => soft_threshold_c a (step * lambda)) B rtol xtol max_iters k s ->
    exists xs, cminimises n (creg_objective (co_times A) (co_trans B) b (fun z => lambda * cl1 z)) xs /\ cnorm (vsub (cf_x s) xs) < eps.
Proof. intros HA HB Hb Hx Pl Hs HsL HL He. exact (csoft_fista_approaches HA HB Hb Hx Pl Hs HsL HL He). Qed.
Print Assumptions C94_fista_converges.
(** a positive tolerance on the change makes ISTA stop *)
Theorem C94_ista_stops n m A B b x0 f step L thr c xtol :
  cprox_gradient_setting n m A B b x0 f step L thr -> (forall x, length x = n -> c <= creg_objective (co_times A) (co_trans B) b f x) -> 0 < xtol ->
  exists N, forall rtol max_iters fuel s, cista A b x0 step thr B rtol xtol max_iters fuel = Done s -> (ci_it s <= N)%nat.
Proof.
  intros HS Hc Hx. destruct (@ista_stops _ _ _ _ _ _ _ _ _ _ (lift_setting HS) c) with (xtol := xtol) as [N Q]; auto.
  - intros v Lv. rewrite <- (flat_unflat Lv). cbn [lift_op so_times so_trans]. rewrite lift_obj. apply Hc. now apply unflat_len.
  - exists N. intros rtol mx fuel s H. apply (Q rtol mx fuel (fl_ista s)). now apply fl_ista_run.
Qed.
Print Assumptions C94_ista_stops.
(** operators of the library that are used in the example: the Fourier basis is a unitary basis *)
Theorem C94_fourier_basis n : (0 < n)%nat -> unitary_basis n (co_times (of_operator (op_fourier_basis n))) (co_trans (of_operator (op_fourier_basis n))).
Proof.
  intros Hn. split; [|split].
  - destruct (fourier_basis_adjoint Hn) as (_ & _ & H). exact H.
  - intros x Lx. now apply fourier_basis_inv.
  - intros x Lx. now apply fourier_basis_inv.
Qed.
Print Assumptions C94_fourier_basis.
(** non-vacuity: sparse representations in spikes and sinusoids, for every n and every signal *)
Lemma rlsum_app (l w : list R) : rlsum (l ++ w) = rlsum l + rlsum w.
Proof. induction l as [|a l IH]; cbn [app rlsum]; [lra|]. rewrite IH. lra. Qed.
Lemma dirac_fourier_bound n x : (0 < n)%nat -> length x = (2 * n)%nat -> cnsq (times (op_dirac_fourier_basis n) x) <= 2 * cnsq x.
Proof.
  intros Hn Lx. cbn [op_dirac_fourier_basis times]. set (u := firstn n x). set (v := skipn n x).
  assert (Lu : length u = n) by (unfold u; rewrite firstn_length; lia). assert (Lv : length v = n) by (unfold v; rewrite skipn_length; lia).
  assert (Ex : cnsq x = cnsq u + cnsq v).
  { rewrite <- (firstn_skipn n x). fold u v. unfold cnsq. rewrite map_app. apply rlsum_app. }
  set (w := vscale (ofR (sqrt (INR n))) (idft n v)). assert (Ew : cnsq w = cnsq v).
  { rewrite <- !flat_nrm2. unfold nrm2. rewrite !flat_dot. f_equal. exact (fourier_basis_isometry _ _ Hn Lv Lv). }
  assert (Lw : length w = n) by (unfold w; rewrite vscale_length; apply idft_length).
  rewrite Ex, <- Ew, <- !flat_nrm2, flat_add. pose proof (flat_len u). pose proof (flat_len w). pose proof (nrm2_pos (rsub (flat u) (flat w))) as P.
  unfold nrm2 in *. revert P. vdot. rewrite (rdot_sym (flat w) (flat u)). lra.
Qed.
Example C94_nonvacuous n (b : cvec) : (0 < n)%nat -> length b = n ->
  cprox_gradient_setting (2 * n) n (of_operator (op_dirac_fourier_basis n)) cidentity_op b (@vzero Cs (2 * n)) (fun z => / 10 * cl1 z) (/ 2) 2
    (fun _ a => soft_threshold_c a (/ 2 * / 10)).
Proof.
  intros Hn Lb. apply csoft_setting; auto; try lra.
  - destruct (dirac_fourier_adjoint Hn) as (_ & _ & H). exact H.
  - split; [|split; auto]. split; [|split]; [intros x Lx; exact Lx|intros x Lx; exact Lx|reflexivity].
  - apply repeat_length.
  - intros x Lx. now apply dirac_fourier_bound.
Qed.
