(** C84: recovery of sparse signals by CoSaMP and subspace pursuit under restricted
    isometry.  [radd (combine_atoms m D x) e] is the measurement of x with noise e. *)
From Coq Require Import List Arith Bool Lia Reals Lra.
From Verif Require Import Vec RVec RMat Loop SlsModel CGModel OptModel SelModel DictModel SelSpec SolverSpec SolverLemmas PursuitModel PursuitSpec PursuitSpec2 PursuitProofs8 PursuitRefute2.
Import ListNotations.
Local Open Scope R_scope.

(** The full statement, without the premise that at least 2K further atoms correlate
    with the residual of every iteration, is false: [C84_cosamp_recovery_refuted]. *)
Theorem C84_cosamp_matrix_recovers_partial : forall m D K delta x e lstsq max_iters rtol fuel s,
  let y := radd (combine_atoms m D x) e in
  valid_dict m D -> length x = d_n D -> length e = m -> sparse K x -> (3 * K <= d_n D)%nat ->
  0 <= delta < 1 -> cosamp_rate delta < 1 -> rip m D (4 * K) delta ->
  least_squares_solver lstsq ->
  (forall k s, reaches (ps_cond (rdot y y * rtol ^ 2) max_iters) (cosamp_body lstsq D y K) (cosamp_init lstsq D y K) k s ->
    ps_cond (rdot y y * rtol ^ 2) max_iters s = true -> correlates D (2 * K) s) ->
  cosamp_matrix lstsq D y K max_iters rtol fuel = Done s ->
  within (d_n D) s x (cosamp_rate delta ^ (p_it s - 1) * (2 * nrm x + first_error delta x e) +
                      cosamp_gain delta / (1 - cosamp_rate delta) * nrm e) /\
  (e = rzero m -> forall a, (forall i, nth i x 0 <> 0 -> a <= Rabs (nth i x 0)) -> (2 <= p_it s)%nat ->
    cosamp_rate delta ^ (p_it s - 2) * (2 * nrm x + first_error delta x e) < a -> solution_x (d_n D) s = x).
Proof. intros m D K delta x e lstsq mi rtol fuel s y V Lx Le Sx HK Hd Hr HR HL Hc H. exact (@cosamp_matrix_rec m D K delta x e V Lx Le Sx Hd lstsq HL mi rtol fuel s HR HK Hr Hc H). Qed.
Print Assumptions C84_cosamp_matrix_recovers_partial.

(** the variant for operators works on y divided by its norm and also stops when the
    support repeats after min(3K, 20) iterations *)
Theorem C84_cosamp_operator_recovers_partial : forall m D K delta x e lstsq max_iters rtol fuel s,
  let y := radd (combine_atoms m D x) e in
  valid_dict m D -> length x = d_n D -> length e = m -> sparse K x -> (3 * K <= d_n D)%nat ->
  0 <= delta < 1 -> cosamp_rate delta < 1 -> rip m D (4 * K) delta ->
  least_squares_solver lstsq ->
  (forall yn k s, normalize y = Some yn ->
    reaches (ps_cond_support (rtol ^ 2) max_iters (min_iters K)) (cosamp_body lstsq D yn K) (cosamp_init lstsq D yn K) k s ->
    ps_cond_support (rtol ^ 2) max_iters (min_iters K) s = true -> correlates D (2 * K) s) ->
  cosamp_operator lstsq D y K max_iters rtol fuel = Done s ->
  within (d_n D) s x (cosamp_rate delta ^ (p_it s - 1) * (2 * nrm x + first_error delta x e) +
                      cosamp_gain delta / (1 - cosamp_rate delta) * nrm e) /\
  (e = rzero m -> forall a, (forall i, nth i x 0 <> 0 -> a <= Rabs (nth i x 0)) -> (2 <= p_it s)%nat ->
    cosamp_rate delta ^ (p_it s - 2) * (2 * nrm x + first_error delta x e) < a -> solution_x (d_n D) s = x).
Proof. intros m D K delta x e lstsq mi rtol fuel s y V Lx Le Sx HK Hd Hr HR HL Hc H. exact (@cosamp_operator_rec m D K delta x e V Lx Le Sx Hd lstsq HL mi rtol fuel s HR HK Hr Hc H). Qed.
Print Assumptions C84_cosamp_operator_recovers_partial.

(** The full statement, without the premise that at least K further atoms correlate
    with the residual of every iteration, is false: [C84_sp_recovery_refuted]. *)
Theorem C84_sp_matrix_recovers_partial : forall m D K delta x e lstsq max_iters rtol fuel s,
  let y := radd (combine_atoms m D x) e in
  valid_dict m D -> length x = d_n D -> length e = m -> sparse K x -> (K <= d_n D)%nat ->
  0 <= delta < 1 -> sp_rate delta < 1 -> rip m D (3 * K) delta ->
  least_squares_solver lstsq ->
  (forall k s, reaches (ps_cond (rdot y y * rtol ^ 2) max_iters) (sp_body lstsq D y K) (sp_init lstsq D y K) k s ->
    ps_cond (rdot y y * rtol ^ 2) max_iters s = true -> correlates D K s) ->
  sp_matrix lstsq D y K max_iters rtol fuel = Done s ->
  within (d_n D) s x (sp_rate delta ^ (p_it s - 1) * first_error delta x e + sp_gain delta / (1 - sp_rate delta) * nrm e) /\
  (e = rzero m -> forall a, (forall i, nth i x 0 <> 0 -> a <= Rabs (nth i x 0)) -> (2 <= p_it s)%nat ->
    sp_rate delta ^ (p_it s - 2) * first_error delta x e < a -> solution_x (d_n D) s = x).
Proof. intros m D K delta x e lstsq mi rtol fuel s y V Lx Le Sx HK Hd Hr HR HL Hc H. exact (@sp_matrix_rec m D K delta x e V Lx Le Sx Hd lstsq HL mi rtol fuel s HR HK Hr Hc H). Qed.
Print Assumptions C84_sp_matrix_recovers_partial.

Theorem C84_sp_operator_recovers_partial : forall m D K delta x e lstsq max_iters rtol fuel s,
  let y := radd (combine_atoms m D x) e in
  valid_dict m D -> length x = d_n D -> length e = m -> sparse K x -> (K <= d_n D)%nat ->
  0 <= delta < 1 -> sp_rate delta < 1 -> rip m D (3 * K) delta ->
  least_squares_solver lstsq ->
  (forall yn k s, normalize y = Some yn ->
    reaches (ps_cond_support (rtol ^ 2) max_iters (min_iters K)) (sp_body lstsq D yn K) (sp_init lstsq D yn K) k s ->
    ps_cond_support (rtol ^ 2) max_iters (min_iters K) s = true -> correlates D K s) ->
  sp_operator lstsq D y K max_iters rtol fuel = Done s ->
  within (d_n D) s x (sp_rate delta ^ (p_it s - 1) * first_error delta x e + sp_gain delta / (1 - sp_rate delta) * nrm e) /\
  (e = rzero m -> forall a, (forall i, nth i x 0 <> 0 -> a <= Rabs (nth i x 0)) -> (2 <= p_it s)%nat ->
    sp_rate delta ^ (p_it s - 2) * first_error delta x e < a -> solution_x (d_n D) s = x).
Proof. intros m D K delta x e lstsq mi rtol fuel s y V Lx Le Sx HK Hd Hr HR HL Hc H. exact (@sp_operator_rec m D K delta x e V Lx Le Sx Hd lstsq HL mi rtol fuel s HR HK Hr Hc H). Qed.
Print Assumptions C84_sp_operator_recovers_partial.

(** Exact measurements of a 2-sparse signal through an orthonormal dictionary of six
    atoms: CoSaMP never returns the signal, whatever the limits. *)
Theorem C84_cosamp_recovery_refuted : exists m D x,
  valid_dict m D /\ length x = d_n D /\ sparse 2 x /\ (3 * 2 <= d_n D)%nat /\ (forall S, rip m D S 0) /\ combine_atoms m D x <> rzero m /\
  forall lstsq, min_norm_solver lstsq -> forall max_iters rtol fuel s,
    cosamp_matrix lstsq D (combine_atoms m D x) 2 max_iters rtol fuel = Done s ->
    solution_x (d_n D) s <> x /\ p_r s <> rzero m.
Proof.
  exists 6%nat, I6d, [0;0;0;0;1;2]. rewrite I6_comb, I6_n. split; [exact I6_valid|]. split; [reflexivity|].
  split; [exists [4;5]%nat; split; [cbn; lia|]; intros i Hi; destruct i as [|[|[|[|[|[|[|i]]]]]]]; cbn in *; try reflexivity; exfalso; apply Hi; auto|].
  split; [lia|]. split; [exact I6_rip|]. split; [cbn; intros X; injection X; lra|]. exact c6_run.
Qed.
Print Assumptions C84_cosamp_recovery_refuted.

(** Exact measurements of a 2-sparse signal through four atoms with restricted isometry
    constant 0.11: subspace pursuit never returns the signal, whatever the limits. *)
Theorem C84_sp_recovery_refuted : exists m D x,
  valid_dict m D /\ length x = d_n D /\ sparse 2 x /\ (2 * 2 <= d_n D)%nat /\ (forall S, rip m D S (11 / 100)) /\ combine_atoms m D x <> rzero m /\
  forall lstsq, min_norm_solver lstsq -> forall max_iters rtol fuel s,
    sp_matrix lstsq D (combine_atoms m D x) 2 max_iters rtol fuel = Done s ->
    solution_x (d_n D) s <> x /\ p_r s <> rzero m.
Proof.
  exists 4%nat, S4d, [0;0;1/20;1]. rewrite S4_comb, S4_n. split; [exact S4_valid|]. split; [reflexivity|].
  split; [exists [2;3]%nat; split; [cbn; lia|]; intros i Hi; destruct i as [|[|[|[|[|i]]]]]; cbn in *; try reflexivity; exfalso; apply Hi; auto|].
  split; [lia|]. split; [exact S4_rip|]. split; [cbn; intros X; injection X; lra|]. exact s4_run.
Qed.
Print Assumptions C84_sp_recovery_refuted.

Lemma rate_zero : cosamp_rate 0 < 1 /\ sp_rate 0 < 1.
Proof. unfold cosamp_rate, sp_rate. replace (2 * sqrt 2 * 0 / (1 - 0)) with 0 by field. replace (2 * sqrt 2 * 0 / (1 - 0) ^ 2) with 0 by field. lra. Qed.
(** non-vacuity: a noisy measurement of (0, 0, 2) meets every premise for K = 1 *)
Example C84_cosamp_premises : forall lstsq max_iters rtol, least_squares_solver lstsq ->
  let y := radd (combine_atoms 3 I3d [0;0;2]) [1/10;1/20;0] in
  valid_dict 3 I3d /\ sparse 1 [0;0;2] /\ (3 * 1 <= d_n I3d)%nat /\ cosamp_rate 0 < 1 /\ rip 3 I3d (4 * 1) 0 /\
  forall k s, reaches (ps_cond (rdot y y * rtol ^ 2) max_iters) (cosamp_body lstsq I3d y 1) (cosamp_init lstsq I3d y 1) k s ->
    ps_cond (rdot y y * rtol ^ 2) max_iters s = true -> correlates I3d (2 * 1) s.
Proof.
  intros lstsq mi rtol H y. unfold y. rewrite I3_y, I3_n. split; [exact I3_valid|].
  split; [exists [2]%nat; split; [cbn; lia|]; intros i Hi; destruct i as [|[|[|[|i]]]]; cbn in *; try reflexivity; exfalso; apply Hi; auto|].
  split; [lia|]. split; [apply rate_zero|]. split; [apply I3_rip|]. intros k s R _. exact (c3_run H R).
Qed.
Example C84_sp_premises : forall lstsq max_iters rtol, least_squares_solver lstsq ->
  let y := radd (combine_atoms 3 I3d [0;0;2]) [1/10;1/20;0] in
  valid_dict 3 I3d /\ sparse 1 [0;0;2] /\ (1 <= d_n I3d)%nat /\ sp_rate 0 < 1 /\ rip 3 I3d (3 * 1) 0 /\
  forall k s, reaches (ps_cond (rdot y y * rtol ^ 2) max_iters) (sp_body lstsq I3d y 1) (sp_init lstsq I3d y 1) k s ->
    ps_cond (rdot y y * rtol ^ 2) max_iters s = true -> correlates I3d 1 s.
Proof.
  intros lstsq mi rtol H y. unfold y. rewrite I3_y, I3_n. split; [exact I3_valid|].
  split; [exists [2]%nat; split; [cbn; lia|]; intros i Hi; destruct i as [|[|[|[|i]]]]; cbn in *; try reflexivity; exfalso; apply Hi; auto|].
  split; [lia|]. split; [apply rate_zero|]. split; [apply I3_rip|]. intros k s R _. exact (s3_run H R).
Qed.
(** the constants admit a range of restricted isometry constants *)
Example C84_rates : cosamp_rate (1 / 4) < 1 /\ sp_rate (1 / 5) < 1.
Proof.
  assert (sqrt 2 < 3 / 2) by (rewrite <- (sqrt_square (3 / 2)) by lra; apply sqrt_lt_1; lra). pose proof (sqrt_pos 2).
  unfold cosamp_rate, sp_rate. replace (2 * sqrt 2 * (1 / 4) / (1 - 1 / 4)) with (2 / 3 * sqrt 2) by field. 
  replace (2 * sqrt 2 * (1 / 5) / (1 - 1 / 5) ^ 2) with (5 / 8 * sqrt 2) by field. lra.
Qed.
