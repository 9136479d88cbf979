(** C88: CG, PCG and LSQR converge at the rate given by the condition number. *)
From Coq Require Import List Arith Bool Lia Reals Lra.
From Verif Require Import Vec RVec RMat Loop SolverSpec SolverLemmas CGModel CGSpec CGProofs SlsModel LsqrModel LsqrSpec EigenSpec EigenProofs CondSpec CondProofs CondProofs2 CondProofs3 CondLemmas.
Import ListNotations.
Local Open Scope R_scope.

(** every symmetric operator has an orthonormal basis of eigenvectors *)
Theorem C88_eigenbasis n H : linear_op n n H -> symmetric_op n H -> exists lam v, eigenbasis n H lam v.
Proof. exact (@spectral n H). Qed.
Print Assumptions C88_eigenbasis.
(** the factor is less than one, and its powers fall below eps after (sqrt kappa + 1) / 2 * ln (2 / eps) steps *)
Theorem C88_factor mu L : 0 < mu <= L -> 0 <= cond_rate mu L < 1 /\
  forall k eps, 0 < eps -> (sqrt (L / mu) + 1) / 2 * ln (2 / eps) <= INR k -> 2 * cond_rate mu L ^ k <= eps.
Proof. exact (fun H => conj (rate_range H) (fun k eps He => @enough_iterations mu L k eps H He)). Qed.
Print Assumptions C88_factor.
(** CG: the error in the energy norm after k iterations, the residual, and the iterations after which it has stopped *)
Theorem C88_cg n A b x0 z mx rtol mu L k s : shape n n A -> symmetric_op n (mv A) ->
  0 < mu <= L -> (forall x, length x = n -> mu * nrm2 x <= rdot x (mv A x) <= L * nrm2 x) ->
  length x0 = n -> length z = n -> mv A z = b -> cg_after A b x0 mx rtol k s ->
  energy_norm (mv A) (rsub (cg_x s) z) <= 2 * cond_rate mu L ^ k * energy_norm (mv A) (rsub x0 z) /\
  nrm (rsub b (mv A (cg_x s))) <= 2 * sqrt (L / mu) * cond_rate mu L ^ k * nrm (rsub b (mv A x0)).
Proof. exact (fun HA SA HL Bd Lx Lz Hz H => conj (cg_rate HA SA HL Bd Lx Lz Hz H) (cg_residual_rate HA SA HL Bd Lx Lz Hz H)). Qed.
Print Assumptions C88_cg.
Theorem C88_cg_stops n A b x0 z mx rtol mu L k fuel s : shape n n A -> symmetric_op n (mv A) ->
  0 < mu <= L -> (forall x, length x = n -> mu * nrm2 x <= rdot x (mv A x) <= L * nrm2 x) ->
  length x0 = n -> length z = n -> mv A z = b -> 0 <= rtol ->
  2 * sqrt (L / mu) * cond_rate mu L ^ k * nrm (rsub b (mv A x0)) <= rtol * nrm b ->
  cg_solve_from A b x0 mx rtol fuel = Done s -> (cg_it s <= k)%nat.
Proof. exact (fun HA SA HL Bd Lx Lz Hz => @cg_stops n A b x0 z mx rtol mu L HA SA HL Bd Lx Lz Hz k fuel s). Qed.
Print Assumptions C88_cg_stops.
(** PCG: mu and L bound the preconditioned operator M A in the energy norm of A *)
Theorem C88_pcg n A b x0 z mx tol atol M mu L k s : linear_op n n A -> symmetric_op n A -> positive_op n A ->
  linear_op n n (pcg_M M) -> symmetric_op n (pcg_M M) ->
  0 < mu <= L -> (forall x, length x = n -> mu * rdot x (A x) <= rdot (A x) (pcg_M M (A x)) <= L * rdot x (A x)) ->
  length x0 = n -> length z = n -> A z = b -> pcg_after A b x0 mx tol atol M k s ->
  energy_norm A (rsub (pcg_x s) z) <= 2 * cond_rate mu L ^ k * energy_norm A (rsub x0 z).
Proof. exact (fun LA SA PA LM SM HL Bd Lx Lz Hz => @pcg_rate n A b x0 z mx tol atol mu L M LA SA PA LM SM HL Bd Lx Lz Hz k s). Qed.
Print Assumptions C88_pcg.
(** LSQR: mu and L bound the squared nonzero singular values; the operator may be rectangular and rank deficient *)
Theorem C88_lsqr n m A b x0 z damp atol btol conlim mx mu L k s : adjoint_ops n m (so_times A) (so_trans A) ->
  length b = m -> length x0 = n -> length z = n ->
  (forall y, length y = n -> damped_objective A b x0 damp z <= damped_objective A b x0 damp y) ->
  0 < mu <= L -> (forall y, length y = m -> mu * nrm2 (so_trans A y) <= nrm2 (so_times A (so_trans A y)) <= L * nrm2 (so_trans A y)) ->
  lsqr_after A b x0 damp atol btol conlim mx k s ->
  damped_objective A b x0 damp (lq_x s) - damped_objective A b x0 damp z <=
  (2 * cond_rate (mu + damp * damp) (L + damp * damp) ^ k) ^ 2 * (damped_objective A b x0 damp x0 - damped_objective A b x0 damp z).
Proof. exact (fun HA Hb Hx Lz Mz HL Bd => @lsqr_rate n m A b x0 z damp atol btol conlim mu L mx HA Hb Hx Lz Mz HL Bd k s). Qed.
Print Assumptions C88_lsqr.
(** such bounds exist for every operator, so LSQR always converges geometrically, at a rate that depends on the operator only *)
Theorem C88_lsqr_geometric n m A : adjoint_ops n m (so_times A) (so_trans A) ->
  exists rho, 0 <= rho < 1 /\ forall b x0 z atol btol conlim mx k s,
    length b = m -> length x0 = n -> length z = n ->
    (forall y, length y = n -> damped_objective A b x0 0 z <= damped_objective A b x0 0 y) ->
    lsqr_after A b x0 0 atol btol conlim mx k s ->
    damped_objective A b x0 0 (lq_x s) - damped_objective A b x0 0 z <= (2 * rho ^ k) ^ 2 * (damped_objective A b x0 0 x0 - damped_objective A b x0 0 z).
Proof.
  intros HA. destruct (row_space_bounds HA) as (mu & L & HL & Bd). exists (cond_rate mu L). split; [now apply rate_range|]. intros b x0 z atol btol conlim mx k s Hb Hx Lz Mz H.
  pose proof (@C88_lsqr n m A b x0 z 0 atol btol conlim mx mu L k s HA Hb Hx Lz Mz HL Bd H) as Q. now rewrite Rmult_0_l, !Rplus_0_r in Q.
Qed.
Print Assumptions C88_lsqr_geometric.
Lemma A22_bounds x : length x = 2%nat -> 1 * nrm2 x <= rdot x (mv A22 x) <= 3 * nrm2 x.
Proof. destruct x as [|p [|q [|]]]; try discriminate. intros _. unfold nrm2, A22. cbn. pose proof (Rle_0_sqr (p + q)). pose proof (Rle_0_sqr (p - q)). unfold Rsqr in *. lra. Qed.
(** CG on the matrix [2 1; 1 2]: condition number 3 *)
Example C88_cg_instance k s : cg_after A22 [4; 5] [0; 0] None (/ 1000) k s ->
  energy_norm (mv A22) (rsub (cg_x s) [1; 2]) <= 2 * cond_rate 1 3 ^ k * energy_norm (mv A22) [- (1); - (2)].
Proof.
  intros H. pose proof A22_spd as [S1 [S2 _]]. replace [- (1); - (2)] with (rsub [0; 0] [1; 2]) by (cbn; f_equal; [ring|f_equal; ring]).
  apply (fun Hz => proj1 (@C88_cg 2 A22 [4; 5] [0; 0] [1; 2] None (/ 1000) 1 3 k s S1 S2 ltac:(lra) A22_bounds eq_refl eq_refl Hz H)). unfold A22. cbn. f_equal; [ring|f_equal; ring].
Qed.
(** the preconditioner x / 2 moves the bounds to 1/2 and 3/2 *)
Example C88_pcg_hyps x : length x = 2%nat ->
  / 2 * rdot x (mv A22 x) <= rdot (mv A22 x) (pcg_M (Some (rscale (/ 2))) (mv A22 x)) <= 3 / 2 * rdot x (mv A22 x).
Proof. destruct x as [|p [|q [|]]]; try discriminate. intros _. unfold A22. cbn. pose proof (Rle_0_sqr (p + q)). pose proof (Rle_0_sqr (p - q)). unfold Rsqr in *. lra. Qed.
(** a matrix of rank one: LSQR is done after the first iteration *)
Example C88_lsqr_instance b x0 z atol btol conlim mx k s : length b = 2%nat -> length x0 = 2%nat -> length z = 2%nat ->
  let A := SimpleOp (mv [[1; 1]; [1; 1]]) (mv [[1; 1]; [1; 1]]) in
  (forall y, length y = 2%nat -> damped_objective A b x0 0 z <= damped_objective A b x0 0 y) ->
  lsqr_after A b x0 0 atol btol conlim mx (S k) s -> damped_objective A b x0 0 (lq_x s) <= damped_objective A b x0 0 z.
Proof.
  intros Hb Hx Lz A Mz H.
  assert (HA : adjoint_ops 2 2 (so_times A) (so_trans A)).
  { assert (LA : linear_op 2 2 (mv [[1; 1]; [1; 1]])).
    { split; [reflexivity|]. split.
      - intros [|p [|q [|]]] [|u [|w [|]]]; try discriminate. intros _ _. cbn. f_equal; [ring|f_equal; ring].
      - intros c [|p [|q [|]]]; try discriminate. intros _. cbn. f_equal; [ring|f_equal; ring]. }
    split; [exact LA|]. split; [exact LA|]. intros [|p [|q [|]]] [|u [|w [|]]]; try discriminate. intros _ _. cbn. ring. }
  assert (Bd : forall y, length y = 2%nat -> 4 * nrm2 (so_trans A y) <= nrm2 (so_times A (so_trans A y)) <= 4 * nrm2 (so_trans A y)).
  { intros [|p [|q [|]]]; try discriminate. intros _. unfold nrm2, A. cbn. split; right; ring. }
  pose proof (@C88_lsqr 2 2 A b x0 z 0 atol btol conlim mx 4 4 (S k) s HA Hb Hx Lz Mz ltac:(lra) Bd H) as Q.
  replace (cond_rate (4 + 0 * 0) (4 + 0 * 0)) with 0 in Q by (unfold cond_rate, Rdiv; rewrite Rminus_diag_eq, Rmult_0_l by reflexivity; reflexivity).
  rewrite pow_i in Q by lia. lra.
Qed.
