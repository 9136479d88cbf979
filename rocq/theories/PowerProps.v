(** C85: power iterations and the norm estimate converge. *)
From Coq Require Import List Arith Bool Lia Reals Lra.
From Verif Require Import Scalar Vec RVec RMat Loop SolverSpec SlsModel SlsSpec LopSpec LopOpSpec LopModel LopModel3 LopProofs PowerSpec PowerProofs PowerProofs2 PowerProofs3.
Import ListNotations.
Local Open Scope R_scope.

(** the eigenvalue estimate and the returned vector after [ps_it sol] iterations *)
Theorem C85_power_converges n A lam mu v b max_iters tol fuel sol :
  dominant n A lam mu v -> length b = n -> rdot b v <> 0 ->
  power_iterations A b max_iters tol fuel = Done sol -> (0 < ps_it sol)%nat ->
  Rabs (ps_s sol - lam) <= (Rabs lam + mu) * ((mu / lam) ^ (2 * (ps_it sol - 1)) * tan2 v b) /\
  exists sg, (sg = 1 \/ sg = -1) /\ nrm2 (rsub (ps_v sol) (rscale sg v)) <= 2 * ((mu / lam) ^ (2 * ps_it sol) * tan2 v b).
Proof. exact (fun HD Lb Hb => @power_conv n A lam mu v HD b max_iters tol Lb Hb fuel sol). Qed.
Print Assumptions C85_power_converges.
(** no division by zero, even for singular operators *)
Theorem C85_power_defined n A lam mu v b max_iters tol fuel :
  dominant n A lam mu v -> length b = n -> rdot b v <> 0 -> (max_iters <= fuel)%nat ->
  exists sol, power_iterations A b max_iters tol fuel = Done sol.
Proof. exact (fun HD Lb Hb => @power_runs n A lam mu v HD b max_iters tol Lb Hb fuel). Qed.
Print Assumptions C85_power_defined.
(** with a positive tolerance the run ends after a number of iterations that does not
    depend on the limit; the number follows from the gap and the start *)
Theorem C85_power_tolerance_met n A lam mu v b tol :
  dominant n A lam mu v -> length b = n -> rdot b v <> 0 -> 0 < tol ->
  exists k0, forall max_iters fuel, (k0 <= fuel)%nat ->
    exists sol, power_iterations A b max_iters tol fuel = Done sol /\ (ps_it sol <= k0)%nat.
Proof. exact (@power_ends n A lam mu v b tol). Qed.
Print Assumptions C85_power_tolerance_met.
Theorem C85_power_iterations_needed n A lam mu v b max_iters tol k fuel :
  dominant n A lam mu v -> length b = n -> rdot b v <> 0 -> 0 < tol ->
  (2 + tol) * ((Rabs lam + mu) * (((mu / lam) ^ 2) ^ k * tan2 v b)) <= tol * Rabs lam -> (S (S k) <= fuel)%nat ->
  exists sol, power_iterations A b max_iters tol fuel = Done sol /\ (ps_it sol <= S (S k))%nat.
Proof. exact (fun HD Lb Hb => @power_ends_by n A lam mu v HD b max_iters tol Lb Hb k fuel). Qed.
Print Assumptions C85_power_iterations_needed.
(** a start orthogonal to the eigenvector never finds the largest eigenvalue *)
Theorem C85_orthogonal_start_refuted : exists A v b, dominant 2 A 2 1 v /\ length b = 2%nat /\ b <> rzero 2 /\
  forall max_iters tol fuel sol, (0 < max_iters)%nat -> tol < 2 ->
    power_iterations A b max_iters tol fuel = Done sol -> ps_s sol = 1.
Proof.
  exists (mv D21), [1; 0], [0; 1]. split; [exact D21_dominant|]. split; [reflexivity|]. split; [cbn; intros X; injection X; lra|].
  intros max_iters tol fuel sol Hm Ht H. exact (proj1 (power_orthogonal Hm Ht H)).
Qed.
Print Assumptions C85_orthogonal_start_refuted.
(** a run that meets the default tolerance 1e-6 can report half of the eigenvalue *)
Theorem C85_tolerance_accuracy_refuted : exists A v b sol, dominant 2 A 2 1 v /\ length b = 2%nat /\ rdot b v <> 0 /\
  power_iterations A b 100 (/ 10 ^ 6) 100 = Done sol /\ (ps_it sol < 100)%nat /\ ps_s sol <= 1 + / 10 ^ 6.
Proof.
  destruct power_stops_early as (sol & H1 & H2 & H3). exists (mv D21), [1; 0], [1 / 10000; 1], sol. split; [exact D21_dominant|].
  split; [reflexivity|]. split; [cbn; lra|]. split; auto. split; [rewrite H2; repeat constructor|auto].
Qed.
Print Assumptions C85_tolerance_accuracy_refuted.

(** the norm estimate: after k iterations, where k is the limit unless the tolerance was met *)
Theorem C85_normest_converges (A : operator Rs) sg tau v b max_iters tol e :
  leading A sg tau v -> length b = on A -> rdot b v <> 0 -> (1 <= max_iters)%nat -> tol + sg ^ 2 / 10 ^ 20 < 1 ->
  normest (K:=Rs) Rabs A b max_iters tol = Done e -> exists k, (1 <= k <= max_iters)%nat /\ 0 <= e /\
  Rabs (e ^ 2 - sg ^ 2) <= (sg ^ 2 + tau ^ 2) * ((tau / sg) ^ (4 * (k - 1)) * tan2 v b) /\
  (k = max_iters \/ (2 <= k)%nat /\ exists e', 0 <= e' /\ Rabs (e ^ 2 - e' ^ 2) <= tol * e' ^ 2 /\
    Rabs (e' ^ 2 - sg ^ 2) <= (sg ^ 2 + tau ^ 2) * ((tau / sg) ^ (4 * (k - 2)) * tan2 v b)).
Proof. exact (fun HL Lb Hb => @normest_conv A sg tau v HL b max_iters tol Lb Hb e). Qed.
Print Assumptions C85_normest_converges.
Theorem C85_normest_defined (A : operator Rs) sg tau v b max_iters tol :
  leading A sg tau v -> length b = on A -> rdot b v <> 0 -> exists e, normest (K:=Rs) Rabs A b max_iters tol = Done e.
Proof. exact (fun HL Lb Hb => @normest_done A sg tau v HL b max_iters tol Lb Hb). Qed.
Print Assumptions C85_normest_defined.
(** concrete cases *)
Example C85_dominant_ex : dominant 2 (mv D21) 2 1 [1; 0] /\ rdot [3; 4] [1; 0] <> 0 /\ tan2 [1; 0] [3; 4] = 16 / 9.
Proof. split; [exact D21_dominant|]. unfold tan2, nrm2. cbn. split; [lra|field]. Qed.
Example C85_leading_ex : leading (op_diagonal (K:=Rs) [2; 1]) 2 1 [1; 0].
Proof.
  split; [exact (proj2 (proj2 (@diagonal_adjoint Rs [2; 1])))|]. split; [reflexivity|]. split; [cbn; ring|]. split; [cbn; repeat (f_equal; try ring)|]. split; [lra|].
  intros [|a [|b [|]]]; try discriminate. intros _ E. cbn in *. assert (a = 0) by lra. subst a. lra.
Qed.
