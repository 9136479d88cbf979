(** C68: FOCUSS.  [step_noiseless] is the public single step and
    [matrix_solve_noiseless] the solver.  [solve] is jnp.linalg.solve, taken
    to be exact on nonsingular systems and to have no finite result on
    singular ones. *)
From Coq Require Import List Arith Bool Reals Lia Lra.
From Verif Require Import Vec RVec Loop SolverSpec BsblModel FocussModel FocussSpec
  FocussProofs FocussProofs2 FocussProofs3.
Local Open Scope R_scope.

(** After at least one iteration the result satisfies the equations exactly,
    the reported residual is zero and exactly max_iters iterations were
    made. *)
Theorem C68_feasible : forall m n Phi y solve p max_iters fuel s,
  exact_solver m solve -> 0 < p -> (0 < max_iters)%nat ->
  matrix_solve_noiseless m n Phi y solve p max_iters fuel = Done s ->
  solves m n Phi y (fo_x s) /\ (forall i, (i < m)%nat -> fo_r s i = 0) /\
  fo_r_norm_sqr s = 0 /\ fo_iterations s = max_iters.
Proof. intros. eapply run_feasible; eauto. Qed.
Print Assumptions C68_feasible.

(** A step solves the weighted least squares problem: among all solutions of
    the equations that vanish where x does, the new vector has the smallest
    energy sum x'_i^2 / |x_i|^(2p), and it is the only such minimiser. *)
Theorem C68_minimises : forall m n Phi y solve p x x1,
  exact_solver m solve -> 0 < p ->
  step_noiseless m n Phi y solve p x = Some x1 ->
  solves m n Phi y x1 /\ supported n x x1 /\
  forall x', solves m n Phi y x' -> supported n x x' ->
    weighted_energy n p x x1 <= weighted_energy n p x x' /\
    (weighted_energy n p x x' <= weighted_energy n p x x1 ->
     forall i, (i < n)%nat -> x' i = x1 i).
Proof.
  intros m n Phi y solve p x x1 Hs Hp H.
  split; [eapply step_solves; eauto|split; [eapply step_supported; eauto|]].
  intros x' H1 H2. eapply step_minimises; eauto.
Qed.
Print Assumptions C68_minimises.

(** A step has a result exactly when the rows of Phi, restricted to the
    columns where x is nonzero, are linearly independent. *)
Theorem C68_defined : forall m n Phi y solve p x,
  exact_solver m solve -> 0 < p ->
  (exists x1, step_noiseless m n Phi y solve p x = Some x1) <->
  full_row_rank_on m n Phi x.
Proof. intros. now apply step_defined. Qed.
Print Assumptions C68_defined.

(** For p < 1, a step from a solution of the equations does not increase the
    sum of |x_i|^(2 - 2p), and decreases it unless x is returned. *)
Theorem C68_descent_step : forall m n Phi y solve p x x1,
  exact_solver m solve -> 0 < p < 1 ->
  step_noiseless m n Phi y solve p x = Some x1 -> solves m n Phi y x ->
  lp_sum n (2 - 2 * p) x1 <= lp_sum n (2 - 2 * p) x /\
  ((exists i, (i < n)%nat /\ x1 i <> x i) ->
   lp_sum n (2 - 2 * p) x1 < lp_sum n (2 - 2 * p) x).
Proof. intros m n Phi y solve p x x1 Hs [Hp Hp1]. now apply step_descent. Qed.
Print Assumptions C68_descent_step.

(** Along a run that sum is non-increasing from the first iterate on. *)
Theorem C68_descent : forall m n Phi y solve p max_iters j k s s',
  exact_solver m solve -> 0 < p < 1 -> (0 < j <= k)%nat ->
  reaches (focuss_cond max_iters) (focuss_body m n Phi y solve p)
    (focuss_init m n Phi y) j s ->
  reaches (focuss_cond max_iters) (focuss_body m n Phi y solve p)
    (focuss_init m n Phi y) k s' ->
  lp_sum n (2 - 2 * p) (fo_x s') <= lp_sum n (2 - 2 * p) (fo_x s).
Proof. intros m n Phi y solve p mi j k s s' Hs [Hp Hp1]. eapply reach_descent; eauto. Qed.
Print Assumptions C68_descent.

(** For the default p = 1, a step from a solution does not increase the
    product of the magnitudes over the support. *)
Theorem C68_product : forall m n Phi y solve x x1,
  exact_solver m solve ->
  step_noiseless m n Phi y solve 1 x = Some x1 -> solves m n Phi y x ->
  support_product n x x1 <= support_product n x x.
Proof. intros. eapply step_product; eauto. Qed.
Print Assumptions C68_product.

(** A solution whose support columns are linearly independent is a fixed
    point. *)
Theorem C68_fixed_point : forall m n Phi y solve p x x1,
  exact_solver m solve -> 0 < p ->
  step_noiseless m n Phi y solve p x = Some x1 ->
  solves m n Phi y x -> independent_support m n Phi x ->
  forall i, (i < n)%nat -> x1 i = x i.
Proof. intros. eapply step_fixed; eauto. Qed.
Print Assumptions C68_fixed_point.

(** Defect: as soon as an iterate has fewer than m nonzero entries, that is
    once the sparse solution has been found, the next step has no finite
    result. *)
Theorem C68_sparse_refuted : forall m n Phi y solve p x,
  exact_solver m solve -> 0 < p -> (nnz n x < m)%nat ->
  step_noiseless m n Phi y solve p x = None.
Proof. intros. now apply step_too_sparse. Qed.
Print Assumptions C68_sparse_refuted.

(** Defect: the solver fails for zero measurements, for every matrix. *)
Theorem C68_zero_refuted : forall m n Phi y solve p max_iters fuel,
  exact_solver m solve -> 0 < p -> (0 < m)%nat ->
  (forall i, (i < m)%nat -> y i = 0) -> (2 <= max_iters <= fuel)%nat ->
  matrix_solve_noiseless m n Phi y solve p max_iters fuel = Fail.
Proof. intros. now apply zero_data_fails. Qed.
Print Assumptions C68_zero_refuted.

(** Defect: with the identity matrix the solver fails for every y that has a
    zero entry, although the unique solution y is found in one step. *)
Theorem C68_identity_refuted : forall m y solve p max_iters fuel k,
  exact_solver m solve -> 0 < p -> (k < m)%nat -> y k = 0 ->
  (2 <= max_iters <= fuel)%nat ->
  matrix_solve_noiseless m m (fun i j => if Nat.eqb i j then 1 else 0) y solve p max_iters fuel = Fail.
Proof. intros. now apply (identity_fails m y solve p max_iters fuel k). Qed.
Print Assumptions C68_identity_refuted.

(** The parameter is documented as the type of the norm that is minimised,
    but for p = 1 a step can increase the sum of the magnitudes. *)
Theorem C68_norm_type_refuted : forall solve, exact_solver 1 solve ->
  exists Phi y x x1,
    step_noiseless 1 2 Phi y solve 1 x = Some x1 /\ solves 1 2 Phi y x /\
    rsum 2 (fun i => Rabs (x i)) < rsum 2 (fun i => Rabs (x1 i)).
Proof.
  intros solve H. exists phi12, (fun _ => 2), (two_entries (6 / 5) (2 / 5)).
  now apply l1_increases.
Qed.
Print Assumptions C68_norm_type_refuted.

(** Exact solvers exist for every size. *)
Example C68_solver : forall m, exists solve, exact_solver m solve.
Proof. exact solver_exists. Qed.

(** Three iterations on x_0 + 2 x_1 = 5 succeed. *)
Example C68_nonvacuous : forall solve, exact_solver 1 solve ->
  exists s, matrix_solve_noiseless 1 2 (fun _ j => match j with O => 1 | _ => 2 end)
    (fun _ => 5) solve 1 3 3 = Done s /\ 0 < fo_x s 0%nat /\ 0 < fo_x s 1%nat.
Proof. exact run_example. Qed.
