(** C43: the alternating direction solvers for l1 problems (YALL1). *)
From Coq Require Import List Arith Bool Lia Reals Lra.
From Verif Require Import Vec RVec Loop XReal SolverSpec SpglProofs4 YallModel YallSpec YallProofs YallProofs2 YallProofs3 YallProofs4 YallProofs5.
Import ListNotations.
Local Open Scope R_scope.

(** what a returned solution satisfies: the residual is that of the returned solution (for
    non-negative problems once an iteration with the standard step was made), the iteration count
    is even and exceeds the limit by at most one, and the product counts follow from it *)
Theorem C43_returned : forall n m A T b W weights x0 z0 nonneg rho delta gamma tolerance max_iters fuel sol,
  adjoint_ops n m A T -> match W with None => True | Some (wt, wa) => adjoint_ops n n wt wa end -> length b = m ->
  match weights with None => True | Some ws => length ws = n /\ forall i, (i < n)%nat -> 0 < ws@i end ->
  match x0 with None => True | Some x => length x = n end -> match z0 with None => True | Some z => length z = n end ->
  yall1_solve A T b x0 z0 W weights nonneg rho delta gamma tolerance max_iters fuel = Done sol ->
    Nat.even (ys_iterations sol) = true /\ (ys_iterations sol <= max_iters + 1)%nat /\
    length (ys_x sol) = n /\
    ((nonneg = false \/ (gamma = 1 /\ (0 < ys_iterations sol)%nat)) -> ys_r sol = rsub b (A (ys_x sol))) /\
    (nonneg = true -> W = None -> forall i, (i < n)%nat -> 0 <= (ys_x sol)@i) /\
    ((ys_n_times sol = 0 /\ ys_n_trans sol = 1 /\ ys_iterations sol = 0)%nat \/
     (ys_n_times sol = 1 + 2 * ys_iterations sol /\ ys_n_trans sol = 2 + ys_iterations sol)%nat).
Proof.
  intros n m A T b W weights x0 z0 nonneg rho delta gamma tolerance max_iters fuel sol Adj HW Lb Lws Lx Lz E.
  exact (@solve_state n m A T b W weights x0 z0 nonneg rho delta gamma tolerance max_iters fuel Adj HW Lb Lws Lx Lz sol E).
Qed.
Print Assumptions C43_returned.

(** the solver returns for every non-zero b and positive weights *)
Theorem C43_terminates : forall n m A T b W weights x0 z0 nonneg rho delta gamma tolerance max_iters fuel,
  adjoint_ops n m A T -> match W with None => True | Some (wt, wa) => adjoint_ops n n wt wa end -> length b = m ->
  match weights with None => True | Some ws => length ws = n /\ forall i, (i < n)%nat -> 0 < ws@i end ->
  match x0 with None => True | Some x => length x = n end -> match z0 with None => True | Some z => length z = n end ->
  b <> rzero m -> (max_iters <= fuel)%nat ->
  exists sol, yall1_solve A T b x0 z0 W weights nonneg rho delta gamma tolerance max_iters fuel = Done sol.
Proof.
  intros n m A T b W weights x0 z0 nonneg rho delta gamma tolerance max_iters fuel Adj HW Lb Lws Lx Lz N Hf.
  exact (@solve_total n m A T b W weights x0 z0 nonneg rho delta gamma tolerance max_iters fuel Adj HW Lb Lws Lx Lz N Hf).
Qed.
Print Assumptions C43_terminates.

(** for an odd limit the count exceeds it *)
Theorem C43_iteration_limit_refuted : exists sol,
  yall1_solve (fun x => x) (fun x => x) [1] (Some [2]) None None None false 0 0 1 (1 / 100) 1 10 = Done sol /\ ys_iterations sol = 2%nat.
Proof. exact odd_limit_overrun. Qed.
Print Assumptions C43_iteration_limit_refuted.
(** without an iteration the residual of a non-negative problem is not that of the clipped solution *)
Theorem C43_nonneg_residual_refuted : exists sol,
  yall1_solve (fun x => x) (fun x => x) [-1] None None None None true 0 0 1 (1 / 100) 0 10 = Done sol /\ ys_r sol <> rsub [-1] (ys_x sol).
Proof. exact nonneg_residual_wrong. Qed.
Print Assumptions C43_nonneg_residual_refuted.
(** a given start is not divided by the scale of b, but the result is multiplied by it *)
Theorem C43_start_refuted : exists sol,
  yall1_solve (fun x => x) (fun x => x) [2] (Some [2]) None None None false 0 0 1 (1 / 100) 0 10 = Done sol /\ ys_x sol = [4] /\ ys_iterations sol = 0%nat.
Proof. exact start_scaled. Qed.
Print Assumptions C43_start_refuted.

(** after every iteration the dual variable lies in the weighted box (or half space) *)
Theorem C43_dual_box : forall n m A T b w nonneg gamma p s s',
  adjoint_ops n m A T -> length b = m -> length w = n -> (forall i, (i < n)%nat -> 0 <= w@i) -> problem_ok p ->
  length (ya_x s) = n -> length (ya_z s) = n ->
  ya_iteration A T b w nonneg gamma p s = Some s' -> in_dual_set n nonneg w (ya_z s').
Proof. intros; eapply iter_C; [| | | | |apply H4|apply H5|]; eauto. Qed.
Print Assumptions C43_dual_box.

(** the optimality conditions are sufficient for each of the problems, for any adjoint pair *)
Theorem C43_optimality : forall n m A T b w nonneg p x y,
  adjoint_ops n m A T -> length b = m -> length w = n -> (forall i, (i < n)%nat -> 0 <= w@i) -> problem_ok p ->
  yall_kkt n m A T b w nonneg p x y -> yall_solves n A b w nonneg p x.
Proof. intros; eapply kkt_solves; eauto. Qed.
Print Assumptions C43_optimality.

(** solving the scaled problem and multiplying back solves the original one *)
Theorem C43_rescaling : forall n m A b w nonneg p x c,
  linear_op n m A -> length b = m -> problem_ok p -> 0 < c ->
  yall_solves n A (rscale (/ c) b) w nonneg (scale_problem c p) x -> yall_solves n A b w nonneg p (rscale c x).
Proof. intros; eapply rescaling; eauto. Qed.
Print Assumptions C43_rescaling.

(** with orthonormal rows, an iteration leaves (x, z) unchanged exactly at the solutions with
    their dual certificates *)
Theorem C43_fixed_point : forall n m A T b w nonneg gamma p s s',
  adjoint_ops n m A T -> length b = m -> length w = n -> (forall i, (i < n)%nat -> 0 <= w@i) -> problem_ok p ->
  orthonormal_rows m A T -> gamma <> 0 -> b <> rzero m -> length (ya_x s) = n -> length (ya_z s) = n ->
  ya_iteration A T b w nonneg gamma p s = Some s' ->
  ((ya_x s' = ya_x s /\ ya_z s' = ya_z s) <-> exists y, yall_kkt n m A T b w nonneg p (ya_x s) y /\ T y = ya_z s).
Proof.
  intros n m A T b w nonneg gamma p s s' Adj Lb Lw Hw P O G N Lx Lz E. pose proof (mu_pos w Lb Lw N) as Hm. split.
  - intros [Ex Ez]. eapply (@fixed_kkt n m A T b w nonneg gamma p); eauto.
  - intros (y & K & ET). eapply (@kkt_fixed n m A T b w nonneg gamma p); eauto.
Qed.
Print Assumptions C43_fixed_point.
(** without orthonormal rows the method can be at rest away from the constraint *)
Theorem C43_fixed_point_general_refuted : let A := rscale 2 in
  exists s', ya_iteration A A [1] [1] false 1 BP (YallState [5 / 4] [5 / 4] [1] [1] [1] 0 0 0 0 0) = Some s' /\ ya_x s' = [5 / 4] /\ ya_z s' = [1] /\ A (ya_x s') <> [1].
Proof. exact rest_infeasible. Qed.
Print Assumptions C43_fixed_point_general_refuted.

(** with orthonormal rows and the standard step, the distance to every solution decreases from
    the first iteration on, by at least the size of the step *)
Theorem C43_distance_decreases : forall n m A T b w nonneg p s s1 s2 k xs ys,
  adjoint_ops n m A T -> length b = m -> length w = n -> (forall i, (i < n)%nat -> 0 <= w@i) -> problem_ok p ->
  orthonormal_rows m A T -> b <> rzero m -> length (ya_x s) = n -> length (ya_z s) = n ->
  yall_kkt n m A T b w nonneg p xs ys -> let mu := ya_mu b in
  ya_iterate (ya_iteration A T b w nonneg 1 p) (S k) s = Some s1 -> ya_iteration A T b w nonneg 1 p s1 = Some s2 ->
  nrm2 (rsub (ya_x s2) xs) + mu * mu * nrm2 (rsub (ya_z s2) (T ys)) <=
  nrm2 (rsub (ya_x s1) xs) + mu * mu * nrm2 (rsub (ya_z s1) (T ys)) - nrm2 (rsub (ya_x s2) (ya_x s1)) - mu * mu * nrm2 (rsub (ya_z s2) (ya_z s1)).
Proof.
  intros n m A T b w nonneg p s s1 s2 k xs ys Adj Lb Lw Hw P O N Lx Lz K mu E1 E2. pose proof (mu_pos w Lb Lw N) as Hm.
  destruct (@iterate_normal n m A T b w nonneg 1 p Adj Lb Lw Hw P k s s1 Hm eq_refl Lx Lz E1) as [Nm L1].
  exact (@fejer n m A T b w nonneg 1 p Adj Lb Lw Hw P O eq_refl s1 s2 xs ys Hm L1 Nm K E2).
Qed.
Print Assumptions C43_distance_decreases.

(** and among k steps one is of size at most (initial distance) / sqrt k *)
Theorem C43_rate : forall n m A T b w nonneg p s s1 sk k xs ys,
  adjoint_ops n m A T -> length b = m -> length w = n -> (forall i, (i < n)%nat -> 0 <= w@i) -> problem_ok p ->
  orthonormal_rows m A T -> b <> rzero m -> length (ya_x s) = n -> length (ya_z s) = n ->
  yall_kkt n m A T b w nonneg p xs ys -> (0 < k)%nat -> let mu := ya_mu b in let step := ya_iteration A T b w nonneg 1 p in
  ya_iterate step 1 s = Some s1 -> ya_iterate step (S k) s = Some sk ->
  exists j t t', (1 <= j <= k)%nat /\ ya_iterate step j s = Some t /\ ya_iterate step (S j) s = Some t' /\
    INR k * (nrm2 (rsub (ya_x t') (ya_x t)) + mu * mu * nrm2 (rsub (ya_z t') (ya_z t))) <=
    nrm2 (rsub (ya_x s1) xs) + mu * mu * nrm2 (rsub (ya_z s1) (T ys)).
Proof.
  intros n m A T b w nonneg p s s1 sk k xs ys Adj Lb Lw Hw P O N Lx Lz K Hk mu step E1 Ek. pose proof (mu_pos w Lb Lw N) as Hm.
  exact (@rate n m A T b w nonneg 1 p Adj Lb Lw Hw P s s1 xs ys k sk O eq_refl Hm Lx Lz K E1 Hk Ek).
Qed.
Print Assumptions C43_rate.

(** a run that stops by its tests on the gap and the residuals (not by the iteration limit and
    not because x stopped changing) comes with a certificate against every feasible vector *)
Theorem C43_certificate : forall n m A T b w nonneg gamma tolerance max_iters p x0 z0 fuel s,
  adjoint_ops n m A T -> length b = m -> length w = n -> (forall i, (i < n)%nat -> 0 <= w@i) -> problem_ok p ->
  length x0 = n -> length z0 = n -> 0 <= tolerance ->
  ya_run A T b w nonneg gamma tolerance max_iters p x0 z0 fuel = Done s ->
  (0 < ya_iterations s < max_iters)%nat -> xgtb (x_change s) tolerance = true ->
  match p with BP => nrm (rsub b (A (ya_x s))) < tolerance * nrm b | L1L2 _ => True | L1L2con delta => nrm (rsub b (A (ya_x s))) <= delta * (1 + tolerance) end /\
  forall v, candidate n nonneg v -> yall_feasible A b p v ->
    (1 - tolerance) * yall_value A b w p (ya_x s) <= yall_value A b w p v + tolerance * nrm (ya_z s) * nrm v.
Proof.
  intros n m A T b w nonneg gamma tolerance max_iters p x0 z0 fuel s Adj Lb Lw Hw P Lx Lz Ht E Hi Hx.
  exact (@certificate n m A T b w nonneg gamma tolerance max_iters p Adj Lb Lw Hw P x0 z0 fuel s Lx Lz Ht E Hi Hx).
Qed.
Print Assumptions C43_certificate.

(** the shortcut returning zero is right without weights when only one of rho, delta is given *)
Theorem C43_zero_solution : forall n m A T b nonneg rho delta,
  adjoint_ops n m A T -> length b = m -> yall1_zero_solution T b rho delta = true ->
  (delta <= 0 -> 0 < rho /\ yall_solves n A b (repeat 1 n) nonneg (L1L2 rho) (rzero n)) /\
  (0 < delta -> yall_solves n A b (repeat 1 n) nonneg (L1L2con delta) (rzero n)).
Proof.
  intros n m A T b nonneg rho delta Adj Lb. unfold yall1_zero_solution. destruct (Rltb_spec 0 rho) as [Hr|Hr]; destruct (Rltb_spec 0 delta) as [Hd|Hd]; try discriminate.
  - destruct (Rleb_spec (nrm b) delta); [|discriminate]. intros _. split; [lra|]. intros _. eapply zero_value_con; [apply Adj|exact Lb|auto].
  - destruct (Rleb_spec (nrminf (T b)) rho); [|discriminate]. intros _. split; [|lra]. intros _. split; auto.
    eapply zero_value_l1; eauto; [apply repeat_length|]. intros i Hi. rewrite nth_repeat by auto. lra.
  - destruct (Rleb_spec (nrm b) delta); [|discriminate]. intros _. split; [lra|]. intros _. eapply zero_value_con; [apply Adj|exact Lb|auto].
Qed.
Print Assumptions C43_zero_solution.
(** with weights it ignores them *)
Theorem C43_zero_solution_weights_refuted :
  exists sol, yall1_solve (fun x => x) (fun x => x) [1] None None None (Some [1 / 10]) false 1 0 1 (1 / 100) 10 10 = Done sol /\
  ys_x sol = [0] /\ ~ yall_solves 1 (fun x => x) [1] [1 / 10] false (L1L2 1) (ys_x sol).
Proof. exact zero_weights_wrong. Qed.
Print Assumptions C43_zero_solution_weights_refuted.
(** with both rho and delta the test for delta replaces the one for rho, although the problem
    with rho is the one solved *)
Theorem C43_zero_solution_both_refuted :
  exists sol, yall1_solve (fun x => x) (fun x => x) [1] None None None None false (1 / 10) 1 1 (1 / 100) 10 10 = Done sol /\
  ys_x sol = [0] /\ ~ yall_solves 1 (fun x => x) [1] [1] false (L1L2 (1 / 10)) (ys_x sol).
Proof. exact zero_delta_wrong. Qed.
Print Assumptions C43_zero_solution_both_refuted.

(** the hypotheses are met: an operator with orthonormal rows on vectors of length 2, and a
    solution of its basis pursuit problem with a certificate *)
Example C43_nonvacuous :
  let A := fun x : vec => [3 / 5 * x@0 + 4 / 5 * x@1] in let T := fun y : vec => [3 / 5 * y@0; 4 / 5 * y@0] in
  adjoint_ops 2 1 A T /\ orthonormal_rows 1 A T /\ [1] <> rzero 1 /\ problem_ok BP /\
  yall_kkt 2 1 A T [1] [1; 1] false BP [0; 5 / 4] [5 / 4].
Proof.
  cbv zeta. split; [|split; [|split; [|split]]].
  - split; [|split].
    + split; [reflexivity|]. split.
      * intros [|a [|a' [|? ?]]] [|c [|c' [|? ?]]]; cbn; intros; try discriminate. unfold radd, zipw. f_equal. ring.
      * intros c [|a [|a' [|? ?]]]; cbn; intros; try discriminate. f_equal. ring.
    + split; [reflexivity|]. split.
      * intros [|a [|? ?]] [|c [|? ?]]; cbn; intros; try discriminate. unfold radd, zipw. f_equal; [ring|]. f_equal. ring.
      * intros c [|a [|? ?]]; cbn; intros; try discriminate. f_equal; [ring|]. f_equal. ring.
    + intros [|a [|a' [|? ?]]] [|c [|? ?]]; cbn; intros; try discriminate. unfold rdot. cbn. ring.
  - intros [|a [|? ?]]; cbn; intros; try discriminate. f_equal. field.
  - cbn. intros E. injection E. lra.
  - exact Logic.I.
  - split; [reflexivity|]. split; [reflexivity|]. split; [|split].
    + split; [reflexivity|]. intros [|[|i]] Hi; cbn; [| |lia]; rewrite Rabs_pos_eq; lra.
    + intros [|a [|a' [|? ?]]] [Lv Cv]; try discriminate. specialize (Cv 1%nat ltac:(lia)). cbn in Cv. unfold rdot. cbn. pose proof (Rle_abs a'). lra.
    + cbn. f_equal. field.
Qed.
