(** Properties C28-C30: conjugate gradients.  [Done s] is a normal return with
    final state s; [Fail] an iteration that divided by zero. *)
From Coq Require Import List Arith Bool Lia Reals Lra.
From Verif Require Import Vec RVec RMat Loop SolverSpec CGModel CGSpec LoopLemmas CGProofs SolverLemmas.
Import ListNotations.
Local Open Scope R_scope.

(** ** C28: truthful residual, limits *)
Theorem C28_exit n A b x0 max_iters rtol fuel s :
  shape n n A -> length b = n -> length x0 = n ->
  cg_solve_from A b x0 max_iters rtol fuel = Done s ->
  let limit := match max_iters with None => n | Some k => k end in
  cg_r s = rsub b (mv A (cg_x s)) /\
  cg_rn2 s = nrm2 (rsub b (mv A (cg_x s))) /\
  (cg_it s <= limit)%nat /\
  (cg_it s = limit \/ nrm2 (rsub b (mv A (cg_x s))) <= rtol * rtol * nrm2 b).
Proof. intros HA. pose proof (@cg_exit n A b x0 max_iters rtol HA) as H. unfold cg_limit in H. rewrite (proj1 HA) in H. exact (fun Hb Hx => H Hb Hx fuel s). Qed.
Print Assumptions C28_exit.
Theorem C28_solve_exit n A b max_iters rtol fuel s :
  shape n n A -> length b = n ->
  cg_solve A b max_iters rtol fuel = Done s ->
  let limit := match max_iters with None => n | Some k => k end in
  cg_r s = rsub b (mv A (cg_x s)) /\
  cg_rn2 s = nrm2 (rsub b (mv A (cg_x s))) /\
  (cg_it s <= limit)%nat /\
  (cg_it s = limit \/ nrm2 (rsub b (mv A (cg_x s))) <= rtol * rtol * nrm2 b).
Proof. intros HA Hb. unfold cg_solve. apply C28_exit; auto. rewrite rzero_len. apply HA. Qed.
Print Assumptions C28_solve_exit.
Theorem C28_every_iterate n A b x0 max_iters rtol k s :
  shape n n A -> length b = n -> length x0 = n -> cg_after A b x0 max_iters rtol k s ->
  length (cg_x s) = n /\ cg_r s = rsub b (mv A (cg_x s)) /\ cg_rn2 s = nrm2 (rsub b (mv A (cg_x s))) /\ cg_it s = k.
Proof. intros HA Hb Hx. exact (@cg_every n A b x0 max_iters rtol HA Hb Hx k s). Qed.
Print Assumptions C28_every_iterate.
(** as many steps as the limit are enough *)
Theorem C28_ends n A b x0 max_iters rtol fuel :
  shape n n A -> length b = n -> length x0 = n ->
  (match max_iters with None => n | Some k => k end <= fuel)%nat ->
  cg_solve_from A b x0 max_iters rtol fuel <> Fuel.
Proof. intros HA Hb Hx. pose proof (@cg_fuel n A b x0 max_iters rtol HA Hb Hx fuel) as H. unfold cg_limit in H. rewrite (proj1 HA) in H. exact H. Qed.
Print Assumptions C28_ends.
(** a symmetric but indefinite system can break down (division by zero, the
    returned state is not finite) *)
Theorem C28_indefinite_refuted : exists A b, shape 2 2 A /\ symmetric_op 2 (mv A) /\ length b = 2%nat /\
  forall fuel, cg_solve A b None 0 (S fuel) = Fail.
Proof.
  exists [[1; 0]; [0; -1]], [1; 1]. split; [split; [reflexivity|intros r [<-|[<-|[]]]; reflexivity]|].
  split; [exact (proj1 cg_breakdown)|]. split; [reflexivity|exact (proj2 cg_breakdown)].
Qed.
Print Assumptions C28_indefinite_refuted.

(** ** C29: orthogonality, conjugacy, optimality, termination *)
Theorem C29_orthogonal n A b x0 max_iters rtol i j si sj :
  shape n n A -> symmetric_op n (mv A) -> length b = n -> length x0 = n ->
  (i < j)%nat -> cg_after A b x0 max_iters rtol i si -> cg_after A b x0 max_iters rtol j sj ->
  rdot (cg_r si) (cg_r sj) = 0 /\ rdot (cg_p si) (mv A (cg_p sj)) = 0.
Proof. intros HA SA Hb Hx. exact (@cg_orth n A b x0 max_iters rtol HA Hb Hx SA i j si sj). Qed.
Print Assumptions C29_orthogonal.
Theorem C29_energy_decreases n A b x0 max_iters rtol k s s' :
  shape n n A -> symmetric_op n (mv A) -> positive_op n (mv A) -> length b = n -> length x0 = n ->
  cg_after A b x0 max_iters rtol k s -> cg_after A b x0 max_iters rtol (S k) s' ->
  energy (mv A) b (cg_x s') < energy (mv A) b (cg_x s).
Proof.
  intros HA SA PA Hb Hx H H'. destruct (reaches_S_inv H') as [s1 [H1 [C B]]].
  rewrite (reaches_fun H H1). exact (@cg_decreases n A b x0 max_iters rtol HA Hb Hx SA PA k s1 s' H1 C B).
Qed.
Print Assumptions C29_energy_decreases.
(** the k-th iterate minimises the energy over x0 + span(r0, A r0, ..., A^(k-1) r0) *)
Theorem C29_krylov_optimal n A b x0 max_iters rtol k s d :
  shape n n A -> symmetric_op n (mv A) -> positive_op n (mv A) -> length b = n -> length x0 = n ->
  cg_after A b x0 max_iters rtol k s ->
  in_span n (krylov (mv A) (rsub b (mv A x0)) k) d ->
  energy (mv A) b (cg_x s) <= energy (mv A) b (radd x0 d).
Proof.
  intros HA SA PA Hb Hx H. exact (@cg_krylov n A b x0 max_iters rtol HA Hb Hx SA k s (pos_psd (mv_linear HA) PA) H d).
Qed.
Print Assumptions C29_krylov_optimal.
(** no division by zero, at most n iterations, and with the default limit (or
    any limit of at least n) the tolerance is met; with rtol = 0 the system is
    solved exactly *)
Theorem C29_solves_in_n_steps n A b x0 max_iters rtol fuel :
  shape n n A -> symmetric_op n (mv A) -> positive_op n (mv A) -> length b = n -> length x0 = n ->
  (n <= fuel)%nat ->
  exists s, cg_solve_from A b x0 max_iters rtol fuel = Done s /\ (cg_it s <= n)%nat /\
    ((n <= match max_iters with None => n | Some k => k end)%nat ->
      nrm2 (rsub b (mv A (cg_x s))) <= rtol * rtol * nrm2 b).
Proof.
  intros HA SA PA Hb Hx. pose proof (@cg_terminates n A b x0 max_iters rtol HA Hb Hx SA PA fuel) as H. unfold cg_limit in H. rewrite (proj1 HA) in H. exact H.
Qed.
Print Assumptions C29_solves_in_n_steps.
Example C29_hyps : shape 2 2 A22 /\ symmetric_op 2 (mv A22) /\ positive_op 2 (mv A22).
Proof. exact A22_spd. Qed.

(** ** C30: preconditioned conjugate gradients *)
Theorem C30_exit n A b x0 max_iters tol atol M fuel s :
  linear_op n n A -> (forall x, length x = n -> length (pcg_M M x) = n) -> length b = n -> length x0 = n ->
  pcg_solve_from A b x0 max_iters tol atol M fuel = Done s ->
  pcg_r s = rsub b (A (pcg_x s)) /\ (pcg_it s <= Nat.max 1 max_iters)%nat /\
  ((max_iters <= pcg_it s)%nat \/ nrm2 (rsub b (A (pcg_x s))) <= Rmax (tol * tol * nrm2 b) (atol * atol)).
Proof. intros LA LM Hb Hx. exact (@pcg_exit n A M b x0 max_iters tol atol LA LM Hb Hx fuel s). Qed.
Print Assumptions C30_exit.
Theorem C30_ends n A b x0 max_iters tol atol M fuel :
  linear_op n n A -> (forall x, length x = n -> length (pcg_M M x) = n) -> length b = n -> length x0 = n ->
  (max_iters <= fuel)%nat -> pcg_solve_from A b x0 max_iters tol atol M fuel <> Fuel.
Proof. intros LA LM Hb Hx. exact (@pcg_fuel n A M b x0 max_iters tol atol LA LM Hb Hx fuel). Qed.
Print Assumptions C30_ends.
Theorem C30_orthogonal n A b x0 max_iters tol atol M i j si sj :
  linear_op n n A -> symmetric_op n A -> (forall x, length x = n -> length (pcg_M M x) = n) -> symmetric_op n (pcg_M M) ->
  length b = n -> length x0 = n -> (i < j)%nat ->
  pcg_after A b x0 max_iters tol atol M i si -> pcg_after A b x0 max_iters tol atol M j sj ->
  rdot (pcg_M M (pcg_r si)) (pcg_r sj) = 0 /\ rdot (pcg_p si) (A (pcg_p sj)) = 0.
Proof. intros LA SA LM SM Hb Hx. exact (@pcg_orth n A M b x0 max_iters tol atol LA LM Hb Hx SA SM i j si sj). Qed.
Print Assumptions C30_orthogonal.
Theorem C30_krylov_optimal n A b x0 max_iters tol atol M k s d :
  linear_op n n A -> symmetric_op n A -> positive_op n A ->
  (forall x, length x = n -> length (pcg_M M x) = n) -> symmetric_op n (pcg_M M) ->
  length b = n -> length x0 = n -> pcg_after A b x0 max_iters tol atol M k s ->
  in_span n (krylov (fun v => pcg_M M (A v)) (pcg_M M (rsub b (A x0))) k) d ->
  energy A b (pcg_x s) <= energy A b (radd x0 d).
Proof.
  intros LA SA PA LM SM Hb Hx H. exact (@pcg_krylov n A M b x0 max_iters tol atol LA LM Hb Hx SA SM k s (pos_psd LA PA) H d).
Qed.
Print Assumptions C30_krylov_optimal.
(** the counter starts at 1, so a limit of n + 1 allows n updates, which are
    always enough in exact arithmetic *)
Theorem C30_solves_in_n_steps n A b x0 max_iters tol atol M fuel :
  linear_op n n A -> symmetric_op n A -> positive_op n A ->
  (forall x, length x = n -> length (pcg_M M x) = n) -> symmetric_op n (pcg_M M) -> positive_op n (pcg_M M) ->
  length b = n -> length x0 = n -> (n <= fuel)%nat ->
  exists s, pcg_solve_from A b x0 max_iters tol atol M fuel = Done s /\ (pcg_it s <= S n)%nat /\
    ((n < max_iters)%nat -> nrm2 (rsub b (A (pcg_x s))) <= Rmax (tol * tol * nrm2 b) (atol * atol)).
Proof.
  intros LA SA PA LM SM PM Hb Hx. exact (@pcg_terminates n A M b x0 max_iters tol atol LA LM Hb Hx SA SM PA PM fuel).
Qed.
Print Assumptions C30_solves_in_n_steps.
Example C30_hyps : linear_op 2 2 (mv A22) /\ symmetric_op 2 (mv A22) /\ positive_op 2 (mv A22) /\
  symmetric_op 2 (pcg_M None) /\ positive_op 2 (pcg_M None).
Proof.
  destruct A22_spd as [H1 [H2 H3]]. split; [now apply mv_linear|]. split; [auto|]. split; [auto|].
  split; [apply id_sym|apply id_pos].
Qed.
