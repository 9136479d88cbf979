(** Vocabulary for basis pursuit denoising over C^n. *)
From Coq Require Import List Arith Reals.
From Verif Require Import Scalar Vec RVec LopSpec SolverSpec SpglModel CxSpec CxSpglModel CxSpglSpec CxBpModel.
Local Open Scope R_scope.
(** z fits the data within sigma *)
Definition cfits (n : nat) (A : cvec -> cvec) (b : cvec) (sigma : R) (z : cvec) : Prop :=
  length z = n /\ cnorm (vsub b (A z)) <= sigma.
(** the figures reported in state s are those of the point x with radius tau: residual norm, modulus of
    the complex duality gap relative to max(1, misfit), relative errors of the residual norm and of the
    misfit *)
Definition cfigures_of (A T : cvec -> cvec) (b : cvec) (sigma : R) (s : cbp_state) (x : cvec) (tau : R) : Prop :=
  let r := vsub b (A x) in
  let gap := Cadd (inner r (vsub r b)) (tau * clinf (T r), 0) in
  cbp_r_norm s = cnorm r /\
  cbp_r_gap s = sqrt (fst gap * fst gap + snd gap * snd gap) / Rmax 1 (cmisfit A b x) /\
  cbp_r_res_error s = Rabs (cnorm r - sigma) / Rmax 1 (cnorm r) /\
  cbp_r_f_error s = Rabs (cmisfit A b x - sigma ^ 2 / 2) / Rmax 1 (cmisfit A b x).
(** state of the solver after k iterations from x0 *)
Definition cbp_after (times trans : cvec -> cvec) (b : cvec) (sigma : R) (opt : spgl1_options) (x0 : cvec) (k : nat) (s : cbp_state) : Prop :=
  exists s0, cbp_init times trans b sigma opt x0 = Some s0 /\ reaches (cbp_cond b sigma opt) (cbp_body times trans b sigma opt) s0 k s.
(** a real vector as a complex vector with zero imaginary parts *)
Definition as_complex (x : vec) : cvec := map (fun a => (a, 0)) x.
(** the same state of the two solvers *)
Definition same_state (s : bp_state) (c : cbp_state) : Prop :=
  cbp_x c = as_complex (bp_x s) /\ cbp_g c = as_complex (bp_g s) /\ cbp_r c = as_complex (bp_r s) /\ cbp_f_past c = bp_f_past s /\
  cbp_tau c = bp_tau s /\ cbp_tau_changed c = bp_tau_changed s /\ cbp_r_norm c = bp_r_norm s /\ cbp_r_gap c = bp_r_gap s /\
  cbp_r_res_error c = bp_r_res_error s /\ cbp_r_f_error c = bp_r_f_error s /\ cbp_alpha c = bp_alpha s /\ cbp_alpha_next c = bp_alpha_next s /\
  cbp_iterations c = bp_iterations s /\ cbp_n_times c = bp_n_times s /\ cbp_n_trans c = bp_n_trans s /\ cbp_n_newton c = bp_n_newton s /\ cbp_ls_iters c = bp_ls_iters s.
