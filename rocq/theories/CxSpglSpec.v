(** Vocabulary for l1-constrained least squares over C^n. *)
From Coq Require Import List Arith Reals.
From Verif Require Import Scalar Vec RVec LopSpec SolverSpec CxSpec SpglModel CxSpglModel.
Local Open Scope R_scope.
(** half the squared residual norm *)
Definition cmisfit (A : cvec -> cvec) (b x : cvec) : R := / 2 * cnsq (vsub b (A x)).
(** x minimises the misfit over the vectors whose moduli sum to at most tau *)
Definition classo_solution (n : nat) (A : cvec -> cvec) (b : cvec) (tau : R) (x : cvec) : Prop :=
  length x = n /\ cl1 x <= tau /\ forall z, length z = n -> cl1 z <= tau -> cmisfit A b x <= cmisfit A b z.
(** state of the solver after k iterations *)
Definition classo_after (times trans : cvec -> cvec) (b : cvec) (tau : R) (opt : spgl1_options) (x0 : cvec) (k : nat) (s : classo_state) : Prop :=
  reaches (classo_cond b opt) (classo_body times trans b tau opt) (classo_init times trans b tau opt x0) k s.
(** every line search of the run ends before its ten halvings are used up *)
Definition csearches_succeed (times trans : cvec -> cvec) (b : cvec) (tau : R) (opt : spgl1_options) (x0 : cvec) : Prop :=
  forall k s s', classo_after times trans b tau opt x0 k s -> classo_cond b opt s = true -> classo_body times trans b tau opt s = Some s' ->
    (cla_ls_iters s' < cla_ls_iters s + 10)%nat.
(** the figures of the options that the search uses *)
Definition search_figures (opt : spgl1_options) : R * R * R * nat := (go_alpha_min opt, go_alpha_max opt, go_gamma opt, go_memory opt).
Definition sane_figures (opt : spgl1_options) : Prop :=
  0 < go_alpha_min opt /\ go_alpha_min opt <= go_alpha_max opt /\ 0 < go_gamma opt /\ (1 <= go_memory opt)%nat.
(** the figures reported with the point x: true residual and gradient, residual norm, and the modulus of
    the duality gap relative to max(1, misfit) *)
Definition ctruthful (n : nat) (A T : cvec -> cvec) (b : cvec) (tau : R) (s : classo_state) : Prop :=
  length (cla_x s) = n /\ cl1 (cla_x s) <= tau /\ cla_r s = vsub b (A (cla_x s)) /\ cla_g s = vopp (T (cla_r s)) /\
  cla_r_norm s = cnorm (vsub b (A (cla_x s))) /\
  cla_n_times s = (cla_iterations s + cla_ls_iters s)%nat /\
  forall z, length z = n -> cl1 z <= tau -> cmisfit A b (cla_x s) - cmisfit A b z <= cla_r_gap s * Rmax 1 (cmisfit A b (cla_x s)).
