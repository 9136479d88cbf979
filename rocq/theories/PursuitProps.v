(** Properties C31-C35, C63, C64: greedy pursuit solvers. *)
From Coq Require Import List Arith Reals Permutation.
From Verif Require Import Vec RVec RMat Loop OptModel SolverSpec SlsModel SortedL1Model SelModel SelSpec DictModel PursuitModel PursuitSpec
  PursuitProofs PursuitProofs2 PursuitProofs3 PursuitProofs4 PursuitProofs5 PursuitLemmas PursuitLemmas2 PursuitLemmas3 PursuitRefute PursuitStep LsqrMinNorm.
Import ListNotations.
Local Open Scope R_scope.

(** ** What the two ways of passing a dictionary mean *)
Theorem C31_matrix_dictionary m n Phi : shape m n Phi -> (0 < m)%nat ->
  valid_dict m (matrix_dict Phi) /\ d_n (matrix_dict Phi) = n /\
  forall x, length x = n -> combine_atoms m (matrix_dict Phi) x = mv Phi x.
Proof. exact (fun S Hm => conj (proj1 (matrix_dict_valid S Hm)) (conj (proj2 (matrix_dict_valid S Hm)) (fun x Lx => @matrix_dict_combine m n Phi x S Hm Lx))). Qed.
Print Assumptions C31_matrix_dictionary.
Theorem C31_operator_dictionary n m A : adjoint_ops n m (so_times A) (so_trans A) ->
  valid_dict m (operator_dict n A) /\ d_n (operator_dict n A) = n /\
  forall x, length x = n -> combine_atoms m (operator_dict n A) x = so_times A x.
Proof. exact (fun H => conj (@operator_dict_valid n m A H) (conj eq_refl (fun x Lx => @operator_dict_combine n m A x H Lx))). Qed.
Print Assumptions C31_operator_dictionary.

(** ** C31: matching pursuit *)
Theorem C31_every_iterate m D y max_iters rtol k s : valid_dict m D -> length y = m -> (0 < d_n D)%nat ->
  reaches (mp_cond y max_iters rtol) (mp_body D y) (mp_init D y) k s ->
  (length (mp_x s) = d_n D /\ length (mp_r s) = m /\ mp_r s = rsub y (combine_atoms m D (mp_x s)) /\ mp_rn s = rdot y y) /\
  mp_it s = k /\ (k <= max_iters)%nat.
Proof. exact (fun V Ly Hn H => @mp_reach m D y max_iters rtol V Ly Hn k s H). Qed.
Print Assumptions C31_every_iterate.
(** one iteration adds the best matching atom and removes exactly its energy *)
Theorem C31_energy m D y max_iters rtol k s s' : unit_dict m D -> length y = m -> (0 < d_n D)%nat ->
  reaches (mp_cond y max_iters rtol) (mp_body D y) (mp_init D y) k s -> mp_body D y s = Some s' ->
  exists i, (i < d_n D)%nat /\
    (forall j, (j < d_n D)%nat -> Rabs (rdot (d_atom D j) (mp_r s)) <= Rabs (rdot (d_atom D i) (mp_r s))) /\
    mp_x s' = add_at (mp_x s) i (rdot (d_atom D i) (mp_r s)) /\
    nrm2 (mp_r s') = nrm2 (mp_r s) - rdot (d_atom D i) (mp_r s) * rdot (d_atom D i) (mp_r s).
Proof. exact (fun U Ly Hn H => @mp_energy m D y (proj1 U) Ly Hn s s' (proj2 U) (proj1 (@mp_reach m D y max_iters rtol (proj1 U) Ly Hn k s H))). Qed.
Print Assumptions C31_energy.
(** linear decay whenever some atom always captures a fraction c of the energy *)
Theorem C31_decay m D y max_iters rtol k s c : unit_dict m D -> length y = m -> (0 < d_n D)%nat ->
  (forall r, length r = m -> exists i, (i < d_n D)%nat /\ c * nrm2 r <= rdot (d_atom D i) r * rdot (d_atom D i) r) -> c <= 1 ->
  reaches (mp_cond y max_iters rtol) (mp_body D y) (mp_init D y) k s -> nrm2 (mp_r s) <= (1 - c) ^ k * nrm2 y.
Proof. exact (fun U Ly Hn Hc C1 H => @mp_decay m D y max_iters rtol (proj1 U) Ly Hn k s c (proj2 U) Hc C1 H). Qed.
Print Assumptions C31_decay.
Theorem C31_terminates m D y max_iters rtol fuel : valid_dict m D -> length y = m -> (0 < d_n D)%nat -> (max_iters <= fuel)%nat ->
  exists s, mp D y max_iters rtol fuel = Done s.
Proof. exact (fun V Ly Hn => @mp_total m D y max_iters rtol V Ly Hn fuel). Qed.
Print Assumptions C31_terminates.
Example C31_setting : unit_dict 2 I2d /\ length [1; 2] = 2%nat /\ (0 < d_n I2d)%nat.
Proof. split; [apply I2_unit|]. split; [reflexivity|]. rewrite I2_n. auto. Qed.

(** ** C32: the stopping rule of matching pursuit *)
(** The reported energy stays at |y|^2, so for every nonzero signal and every tolerance
    below 1 the loop ignores the tolerance and performs max_iters iterations. *)
Theorem C32_tolerance_ignored m D y max_iters rtol s fuel : valid_dict m D -> length y = m -> (0 < d_n D)%nat ->
  0 < nrm2 y -> -1 < rtol < 1 -> mp D y max_iters rtol fuel = Done s ->
  mp_it s = max_iters /\ mp_rn s = nrm2 y.
Proof. exact (fun V Ly Hn => @mp_never_stops m D y max_iters rtol V Ly Hn s fuel). Qed.
Print Assumptions C32_tolerance_ignored.
Theorem C32_stops_and_reports_refuted : exists Phi y s, unit_dict 2 (matrix_dict Phi) /\
  mp (matrix_dict Phi) y 2 (1 / 2) 2 = Done s /\
  mp_r s = rzero 2 /\ mp_rn s = 1 /\ mp_it s = 2%nat.
Proof. exact (ex_intro _ I2 (ex_intro _ [1; 0] (match mp_refuted with ex_intro _ s H => ex_intro _ s (conj I2_unit H) end))). Qed.
Print Assumptions C32_stops_and_reports_refuted.

(** ** C33: orthogonal matching pursuit *)
Theorem C33_every_iterate m D y k s : unit_dict m D -> (0 < d_n D)%nat -> length y = m -> omp_steps D y k = Some s ->
  omp_correct m D y s /\ omp_factor D s /\ om_rn s = nrm2 (om_r s) /\ length (om_I s) = S k /\
  forall z, length z = length (om_I s) -> nrm2 (om_r s) <= nrm2 (rsub y (combine_on m D (om_I s) z)).
Proof. exact (fun U Hn Ly => @omp_steps_all m D y U Hn Ly k s). Qed.
Print Assumptions C33_every_iterate.
Theorem C33_result m D y K s : unit_dict m D -> (0 < d_n D)%nat -> length y = m -> omp_matrix D y K = Some s ->
  omp_correct m D y s /\ omp_factor D s /\ om_rn s = nrm2 (om_r s) /\ length (om_I s) = K /\
  forall z, length z = length (om_I s) -> nrm2 (om_r s) <= nrm2 (rsub y (combine_on m D (om_I s) z)).
Proof. exact (fun U Hn Ly => @omp_matrix_all m D y U Hn Ly K s). Qed.
Print Assumptions C33_result.
(** each further step selects a new, best correlated atom and removes at least its energy *)
Theorem C33_energy m D y k s s' : unit_dict m D -> (0 < d_n D)%nat -> length y = m ->
  omp_steps D y k = Some s -> omp_steps D y (S k) = Some s' ->
  exists i, ~ In i (om_I s) /\ om_I s' = om_I s ++ [i] /\
    (forall j, (j < d_n D)%nat -> Rabs (rdot (d_atom D j) (om_r s)) <= Rabs (rdot (d_atom D i) (om_r s))) /\
    nrm2 (om_r s') <= nrm2 (om_r s) - rdot (d_atom D i) (om_r s) * rdot (d_atom D i) (om_r s).
Proof. exact (fun U Hn Ly => @omp_steps_energy m D y U Hn Ly k s s'). Qed.
Print Assumptions C33_energy.
(** the factorisation breaks down only when the residual is orthogonal to every atom *)
Theorem C33_breakdown m D y k s : unit_dict m D -> (0 < d_n D)%nat -> length y = m ->
  omp_steps D y k = Some s -> omp_steps D y (S k) = None ->
  forall i, (i < d_n D)%nat -> rdot (d_atom D i) (om_r s) = 0.
Proof. exact (fun U Hn Ly => @omp_steps_stuck m D y U Hn Ly k s). Qed.
Print Assumptions C33_breakdown.
Theorem C33_operator m D y K rtol fuel s : unit_dict m D -> (0 < d_n D)%nat -> length y = m ->
  omp_operator D y K rtol fuel = Done s ->
  omp_correct m D y s /\ omp_factor D s /\ (1 <= om_it s <= Nat.max 1 K)%nat /\
  ((2 <= om_it s)%nat -> om_rn s = nrm2 (om_r s)) /\
  (forall z, length z = length (om_I s) -> nrm2 (om_r s) <= nrm2 (rsub y (combine_on m D (om_I s) z))) /\
  (om_it s = Nat.max 1 K \/ om_rn s <= rtol ^ 2 * nrm2 y).
Proof. exact (fun U Hn Ly => @omp_operator_all m D y K rtol U Hn Ly fuel s). Qed.
Print Assumptions C33_operator.
Theorem C33_operator_ends m D y K rtol fuel : unit_dict m D -> (0 < d_n D)%nat -> length y = m -> (K <= fuel)%nat ->
  omp_operator D y K rtol fuel <> Fuel.
Proof. exact (fun U Hn Ly => @omp_operator_fuel m D y K rtol U Hn Ly fuel). Qed.
Print Assumptions C33_operator_ends.
Theorem C33_operator_breakdown m D y K rtol fuel : unit_dict m D -> (0 < d_n D)%nat -> length y = m -> (K <= fuel)%nat ->
  omp_operator D y K rtol fuel = Fail ->
  y = rzero m \/ exists T x, NoDup T /\ (forall i, In i T -> (i < d_n D)%nat) /\ (length T < K)%nat /\ length x = length T /\
    forall i, (i < d_n D)%nat -> rdot (d_atom D i) (rsub y (combine_on m D T x)) = 0.
Proof. exact (fun U Hn Ly => @omp_operator_fails m D y K rtol U Hn Ly fuel). Qed.
Print Assumptions C33_operator_breakdown.
(** one requested atom: the matrix variant has no result at all *)
Theorem C33_single_atom_refuted : forall D y, omp_matrix D y 1 = None.
Proof. exact (fun D y => eq_refl). Qed.
Print Assumptions C33_single_atom_refuted.
(** a signal that is 1-sparse in an orthonormal basis, with K = 2: an atom is selected twice and the pivot vanishes *)
Theorem C33_exact_signal_refuted : exists Phi y, unit_dict 2 (matrix_dict Phi) /\ length y = 2%nat /\ omp_matrix (matrix_dict Phi) y 2 = None.
Proof. exact (ex_intro _ I2 (ex_intro _ [1; 0] (conj I2_unit (conj eq_refl omp_breakdown)))). Qed.
Print Assumptions C33_exact_signal_refuted.
(** the operator variant with one atom reports |y|^2 instead of |r|^2 *)
Theorem C33_operator_energy_refuted : exists Phi y s, unit_dict 2 (matrix_dict Phi) /\
  omp_operator (matrix_dict Phi) y 1 0 1 = Done s /\ om_r s = rzero 2 /\ om_rn s = 1.
Proof. exact (ex_intro _ I2 (ex_intro _ [1; 0] (match omp_operator_first with ex_intro _ s H => ex_intro _ s (conj I2_unit H) end))). Qed.
Print Assumptions C33_operator_energy_refuted.

(** ** C63: OMP recovers sparse signals from incoherent dictionaries *)
Theorem C63_matrix m D mu K T xs : unit_dict m D -> coherence_at_most D mu -> 0 <= mu -> (2 * INR K - 1) * mu < 1 ->
  length xs = d_n D -> support T xs -> length T = K -> (2 <= K)%nat ->
  exists s, omp_matrix D (combine_atoms m D xs) K = Some s /\ Permutation (om_I s) T /\
    scatter (d_n D) (om_I s) (om_x s) = xs /\ om_r s = rzero m.
Proof. exact (fun U H1 H2 H3 Lx HT LT K2 => @omp_matrix_recovers m D mu K T xs U H1 H2 H3 Lx HT LT (Nat.lt_le_incl _ _ K2) K2). Qed.
Print Assumptions C63_matrix.
Theorem C63_operator m D mu K T xs fuel : unit_dict m D -> coherence_at_most D mu -> 0 <= mu -> (2 * INR K - 1) * mu < 1 ->
  length xs = d_n D -> support T xs -> length T = K -> (1 <= K)%nat -> (K <= fuel)%nat ->
  exists s, omp_operator D (combine_atoms m D xs) K 0 fuel = Done s /\ Permutation (om_I s) T /\
    scatter (d_n D) (om_I s) (om_x s) = xs /\ om_r s = rzero m.
Proof. exact (fun U H1 H2 H3 Lx HT LT K1 => @omp_operator_recovers m D mu K T xs U H1 H2 H3 Lx HT LT K1 fuel). Qed.
Print Assumptions C63_operator.
Example C63_setting : unit_dict 3 CoD /\ coherence_at_most CoD (7 / 25) /\ (2 * INR 2 - 1) * (7 / 25) < 1 /\
  length [1; 2; 0] = d_n CoD /\ support [0; 1]%nat [1; 2; 0].
Proof. exact (conj CoD_unit (conj CoD_coh (conj CoD_cond (conj eq_refl CoD_support)))). Qed.

(** ** an exact least squares solver exists, so the premises below can be met *)
Example C34_solver_exists : exists lstsq, min_norm_solver lstsq.
Proof. exact (ex_intro _ exact_lstsq exact_lstsq_ok). Qed.

(** ** C34: CoSaMP *)
(** Proved: K valid indices, one coefficient each, r = y - Phi_I x_I and its energy,
    iteration count, reason for stopping.  Missing from the claim: sorted indices and
    coefficients that belong to them, both refuted below. *)
Theorem C34_matrix_partial m D y K max_iters rtol fuel lstsq s : valid_dict m D -> length y = m -> (K <= d_n D)%nat -> least_squares_solver lstsq ->
  cosamp_matrix lstsq D y K max_iters rtol fuel = Done s ->
  consistent m D y K s /\ (1 <= p_it s <= Nat.max 1 max_iters)%nat /\ (p_rn s <= rtol ^ 2 * nrm2 y \/ (max_iters <= p_it s)%nat).
Proof. exact (fun V Ly HK HL => @cosamp_matrix_run m D y K V Ly HK max_iters rtol fuel lstsq HL s). Qed.
Print Assumptions C34_matrix_partial.
Theorem C34_operator_partial m D y K max_iters rtol fuel lstsq s : valid_dict m D -> length y = m -> (K <= d_n D)%nat -> least_squares_solver lstsq ->
  cosamp_operator lstsq D y K max_iters rtol fuel = Done s ->
  consistent m D y K s /\ (1 <= p_it s <= Nat.max 1 max_iters)%nat /\
  (p_rn s <= rtol ^ 2 * nrm2 y \/ (max_iters <= p_it s)%nat \/ (Nat.min (3 * K) 20 <= p_it s)%nat /\ p_I s = p_Iprev s).
Proof. exact (fun V Ly HK HL => @cosamp_operator_run m D y K V Ly HK max_iters rtol fuel lstsq HL s). Qed.
Print Assumptions C34_operator_partial.
Theorem C34_matrix_terminates m D y K max_iters rtol fuel lstsq : valid_dict m D -> length y = m -> (K <= d_n D)%nat -> least_squares_solver lstsq ->
  (max_iters <= fuel)%nat -> exists s, cosamp_matrix lstsq D y K max_iters rtol fuel = Done s.
Proof. exact (fun V Ly HK HL => @cosamp_matrix_total m D y K V Ly HK max_iters rtol fuel lstsq HL). Qed.
Print Assumptions C34_matrix_terminates.
Theorem C34_operator_terminates m D y K max_iters rtol fuel lstsq : valid_dict m D -> length y = m -> (K <= d_n D)%nat -> least_squares_solver lstsq ->
  y <> rzero m -> (max_iters <= fuel)%nat -> exists s, cosamp_operator lstsq D y K max_iters rtol fuel = Done s.
Proof. exact (fun V Ly HK HL => @cosamp_operator_total m D y K V Ly HK max_iters rtol fuel lstsq HL). Qed.
Print Assumptions C34_operator_terminates.
(** an index can repeat only when at most 2K atoms outside the support still correlate with the residual *)
Theorem C34_distinct m D y K lstsq s s' : valid_dict m D -> length y = m -> least_squares_solver lstsq -> (2 * K <= d_n D)%nat ->
  consistent m D y K s -> NoDup (p_I s) -> cosamp_body lstsq D y K s = Some s' ->
  NoDup (p_I s') \/ exists T, (length T <= 2 * K)%nat /\ forall j, (j < d_n D)%nat -> ~ In j (p_I s) -> ~ In j T -> rdot (d_atom D j) (p_r s) = 0.
Proof. exact (fun V Ly HL => @cosamp_nodup m D y K V Ly lstsq HL s s'). Qed.
Print Assumptions C34_distinct.
(** one iteration, y = (1, 2) in the standard basis: indices [0, 1] come with coefficients [2, 1], the residual is (-1, 1) *)
Theorem C34_aligned_refuted : forall lstsq, least_squares_solver lstsq -> exists Phi y s, unit_dict 2 (matrix_dict Phi) /\
  cosamp_matrix lstsq (matrix_dict Phi) y 2 1 0 1 = Done s /\
  p_I s = [0; 1]%nat /\ p_x s = [2; 1] /\ y = [1; 2] /\ p_r s = [-1; 1].
Proof.
  exact (fun lstsq H => ex_intro _ I2 (ex_intro _ [1; 2] (match cosamp_misaligned H with ex_intro _ s (conj a (conj b (conj c d))) =>
    ex_intro _ s (conj I2_unit (conj a (conj b (conj c (conj eq_refl d))))) end))).
Qed.
Print Assumptions C34_aligned_refuted.
(** two iterations on the same problem: the same atom twice, and part of the signal is lost *)
Theorem C34_sorted_refuted : forall lstsq, min_norm_solver lstsq -> exists Phi y s, unit_dict 2 (matrix_dict Phi) /\
  cosamp_matrix lstsq (matrix_dict Phi) y 2 2 0 2 = Done s /\ p_I s = [1; 1]%nat /\ p_r s = [1; 0].
Proof.
  exact (fun lstsq H => ex_intro _ I2 (ex_intro _ [1; 2] (match cosamp_repeats H with ex_intro _ s a => ex_intro _ s (conj I2_unit a) end))).
Qed.
Print Assumptions C34_sorted_refuted.

(** ** C35: IHT, HTP and subspace pursuit *)
Theorem C35_iht m D y K step max_iters rtol fuel s : valid_dict m D -> length y = m -> (K <= d_n D)%nat ->
  iht D y K step max_iters rtol fuel = Done s ->
  consistent m D y K s /\ NoDup (p_I s) /\ (1 <= p_it s <= Nat.max 1 max_iters)%nat /\
  (p_rn s <= rtol ^ 2 * nrm2 y \/ (max_iters <= p_it s)%nat).
Proof. exact (fun V Ly HK => @iht_run m D y K V Ly HK max_iters rtol fuel step s). Qed.
Print Assumptions C35_iht.
Theorem C35_htp m D y K step max_iters rtol fuel lstsq s : valid_dict m D -> length y = m -> (K <= d_n D)%nat -> least_squares_solver lstsq ->
  htp lstsq D y K step max_iters rtol fuel = Done s ->
  consistent m D y K s /\ NoDup (p_I s) /\
  ((1 < p_it s)%nat -> forall z, length z = K -> nrm2 (p_r s) <= nrm2 (rsub y (combine_on m D (p_I s) z))) /\
  (1 <= p_it s <= Nat.max 1 max_iters)%nat /\
  (p_rn s <= rtol ^ 2 * nrm2 y \/ (max_iters <= p_it s)%nat \/ (Nat.min (3 * K) 20 <= p_it s)%nat /\ p_I s = p_Iprev s).
Proof. exact (fun V Ly HK HL => @htp_run m D y K V Ly HK max_iters rtol fuel lstsq HL step s). Qed.
Print Assumptions C35_htp.
Theorem C35_sp_matrix m D y K max_iters rtol fuel lstsq s : valid_dict m D -> length y = m -> (K <= d_n D)%nat -> least_squares_solver lstsq ->
  sp_matrix lstsq D y K max_iters rtol fuel = Done s ->
  consistent m D y K s /\ (forall z, length z = K -> nrm2 (p_r s) <= nrm2 (rsub y (combine_on m D (p_I s) z))) /\
  (1 <= p_it s <= Nat.max 1 max_iters)%nat /\ (p_rn s <= rtol ^ 2 * nrm2 y \/ (max_iters <= p_it s)%nat).
Proof. exact (fun V Ly HK HL => @sp_matrix_run m D y K V Ly HK max_iters rtol fuel lstsq HL s). Qed.
Print Assumptions C35_sp_matrix.
Theorem C35_sp_operator m D y K max_iters rtol fuel lstsq s : valid_dict m D -> length y = m -> (K <= d_n D)%nat -> least_squares_solver lstsq ->
  sp_operator lstsq D y K max_iters rtol fuel = Done s ->
  consistent m D y K s /\ (1 <= p_it s <= Nat.max 1 max_iters)%nat /\
  (p_rn s <= rtol ^ 2 * nrm2 y \/ (max_iters <= p_it s)%nat \/ (Nat.min (3 * K) 20 <= p_it s)%nat /\ p_I s = p_Iprev s).
Proof. exact (fun V Ly HK HL => @sp_operator_run m D y K V Ly HK max_iters rtol fuel lstsq HL s). Qed.
Print Assumptions C35_sp_operator.
(** every run ends; the normalised step is excluded because it may divide by zero *)
Theorem C35_terminates m D y K mu max_iters rtol fuel lstsq : valid_dict m D -> length y = m -> (K <= d_n D)%nat -> least_squares_solver lstsq ->
  (max_iters <= fuel)%nat ->
  (exists s, iht D y K (Some mu) max_iters rtol fuel = Done s) /\
  (exists s, htp lstsq D y K (Some mu) max_iters rtol fuel = Done s) /\
  (exists s, sp_matrix lstsq D y K max_iters rtol fuel = Done s) /\
  (y <> rzero m -> exists s, sp_operator lstsq D y K max_iters rtol fuel = Done s).
Proof.
  exact (fun V Ly HK HL HF => conj (@iht_total m D y K V Ly HK max_iters rtol fuel mu HF)
    (conj (@htp_total m D y K V Ly HK max_iters rtol fuel lstsq HL mu HF)
    (conj (@sp_matrix_total m D y K V Ly HK max_iters rtol fuel lstsq HL HF)
      (fun Hy => @sp_operator_total m D y K V Ly HK max_iters rtol fuel lstsq HL Hy HF)))).
Qed.
Print Assumptions C35_terminates.
Theorem C35_sp_distinct m D y K lstsq s s' : valid_dict m D -> length y = m -> least_squares_solver lstsq -> (K <= d_n D)%nat ->
  consistent m D y K s -> NoDup (p_I s) -> sp_body lstsq D y K s = Some s' ->
  NoDup (p_I s') \/ exists T, (length T <= K)%nat /\ forall j, (j < d_n D)%nat -> ~ In j (p_I s) -> ~ In j T -> rdot (d_atom D j) (p_r s) = 0.
Proof. exact (fun V Ly HL => @sp_nodup m D y K V Ly lstsq HL s s'). Qed.
Print Assumptions C35_sp_distinct.
(** subspace pursuit may select one atom twice, and a further iteration may raise the residual energy (from 1 to 5) *)
Theorem C35_sp_distinct_refuted : forall lstsq, min_norm_solver lstsq -> exists Phi y, unit_dict 3 (matrix_dict Phi) /\
  (exists s, sp_matrix lstsq (matrix_dict Phi) y 2 1 0 2 = Done s /\ nrm2 (p_r s) = 1) /\
  (exists s, sp_matrix lstsq (matrix_dict Phi) y 2 2 0 2 = Done s /\ p_I s = [1; 1]%nat /\ nrm2 (p_r s) = 5).
Proof. exact (fun lstsq H => ex_intro _ _ (ex_intro _ [2; 3; 1] (conj P32_unit (sp_repeats H)))). Qed.
Print Assumptions C35_sp_distinct_refuted.
Example C35_setting : valid_dict 2 RIPd /\ (1 <= d_n RIPd)%nat.
Proof. exact (conj RIPd_valid (le_S _ _ (le_n 1))). Qed.

(** ** C64: convergence of IHT and HTP *)
(** a fixed step mu with mu |Phi|^2 <= 1 never increases the residual *)
Theorem C64_iht_monotone m D y K mu B M max_iters s0 k s s' : valid_dict m D -> length y = m -> (K <= d_n D)%nat ->
  (forall z, length z = d_n D -> nrm2 (combine_atoms m D z) <= B * nrm2 z) -> 0 < mu -> mu * B <= 1 ->
  iht_init D y K (Some mu) = Some s0 -> reaches (ps_cond M max_iters) (iht_body D y K (Some mu)) s0 k s ->
  iht_body D y K (Some mu) s = Some s' ->
  nrm2 (p_r s') <= nrm2 (p_r s) - (/ mu - B) * nrm2 (rsub (solution_x (d_n D) s') (solution_x (d_n D) s)) /\ nrm2 (p_r s') <= nrm2 (p_r s).
Proof. exact (fun V Ly HK HB Hm => @iht_monotone m D y K mu B V Ly HK HB Hm M max_iters s0 k s s'). Qed.
Print Assumptions C64_iht_monotone.
Theorem C64_htp_monotone m D y K mu B M max_iters mi s0 k s s' lstsq : valid_dict m D -> length y = m -> (K <= d_n D)%nat ->
  (forall z, length z = d_n D -> nrm2 (combine_atoms m D z) <= B * nrm2 z) -> 0 < mu -> least_squares_solver lstsq -> mu * B <= 1 ->
  iht_init D y K (Some mu) = Some s0 -> reaches (ps_cond_support M max_iters mi) (htp_body lstsq D y K (Some mu)) s0 k s ->
  htp_body lstsq D y K (Some mu) s = Some s' -> nrm2 (p_r s') <= nrm2 (p_r s).
Proof. exact (fun V Ly HK HB Hm => @htp_monotone m D y K mu B V Ly HK HB Hm lstsq M max_iters mi s0 k s s'). Qed.
Print Assumptions C64_htp_monotone.
(** y = Phi xs + e with xs K-sparse, restricted isometry constant of order 3K below 1/2, unit step *)
Theorem C64_iht_recovery m D K delta xs e max_iters rtol fuel s : valid_dict m D -> (K <= d_n D)%nat -> length xs = d_n D -> length e = m ->
  sparse K xs -> rip m D (3 * K) delta -> 0 <= delta < 1 / 2 ->
  iht D (radd (combine_atoms m D xs) e) K (Some 1) max_iters rtol fuel = Done s ->
  nrm (rsub (solution_x (d_n D) s) xs) <= (2 * delta) ^ (p_it s) * nrm xs + 2 * sqrt (1 + delta) / (1 - 2 * delta) * nrm e.
Proof. exact (fun V HK Lx Le Sx HR => @iht_recovers m D K delta xs e V HK Lx Le Sx HR max_iters rtol fuel s). Qed.
Print Assumptions C64_iht_recovery.
Theorem C64_htp_recovery m D K delta xs max_iters rtol fuel lstsq s : valid_dict m D -> (K <= d_n D)%nat -> length xs = d_n D ->
  sparse K xs -> rip m D (3 * K) delta -> least_squares_solver lstsq -> 0 <= delta < 1 ->
  htp lstsq D (combine_atoms m D xs) K (Some 1) max_iters rtol fuel = Done s ->
  nrm2 (rsub (solution_x (d_n D) s) xs) <= (2 * (delta * delta) / (1 - delta * delta)) ^ (p_it s - 1) * (4 * (delta * delta) * nrm2 xs).
Proof. exact (fun V HK Lx Sx HR HL Hd => @htp_recovers m D K delta xs V HK Lx Sx HR lstsq HL Hd max_iters rtol fuel s). Qed.
Print Assumptions C64_htp_recovery.
(** the normalised variants take the exact line search step along the correlations on the current support *)
Theorem C64_normalised_step m D y K s s' lstsq : valid_dict m D -> length y = m ->
  iht_body D y K None s = Some s' \/ htp_body lstsq D y K None s = Some s' ->
  length (p_r s) = m -> (forall i, In i (p_I s) -> (i < d_n D)%nat) ->
  let w := combine_on m D (p_I s) (map (fun i => rdot (d_atom D i) (p_r s)) (p_I s)) in
  exists mu, 0 < mu /\
    (iht_body D y K None s = Some s' -> iht_body D y K (Some mu) s = Some s') /\
    (htp_body lstsq D y K None s = Some s' -> htp_body lstsq D y K (Some mu) s = Some s') /\
    forall t, nrm2 (rsub (p_r s) (rscale mu w)) <= nrm2 (rsub (p_r s) (rscale t w)).
Proof.
  intros V Ly HB Lr HI w. unfold w. rewrite <- (map_map (d_atom D) (fun a => rdot a _)), <- (gather_trans V) by auto.
  exact (@step_some m D V y K s s' lstsq Ly HB Lr HI).
Qed.
Print Assumptions C64_normalised_step.
Theorem C64_normalised_start m D y K s : valid_dict m D -> length y = m -> (K <= d_n D)%nat ->
  iht_init D y K None = Some s ->
  let w := combine_on m D (seq 0 K) (map (fun i => rdot (d_atom D i) y) (seq 0 K)) in
  exists mu, 0 < mu /\ iht_init D y K (Some mu) = Some s /\
    forall t, nrm2 (rsub y (rscale mu w)) <= nrm2 (rsub y (rscale t w)).
Proof.
  intros V Ly HK H w. unfold w. rewrite <- (map_map (d_atom D) (fun a => rdot a _)), <- (gather_trans V); [exact (@step_init m D V y K s Ly HK H)|auto|].
  intros i Hi. apply in_seq in Hi. apply Nat.lt_le_trans with K; [apply Hi|exact HK].
Qed.
Print Assumptions C64_normalised_start.
Example C64_setting : valid_dict 2 RIPd /\ length [0; 2] = d_n RIPd /\ sparse 1 [0; 2] /\ rip 2 RIPd (3 * 1) (21 / 100) /\
  forall z, length z = d_n RIPd -> nrm2 (combine_atoms 2 RIPd z) <= 121 / 100 * nrm2 z.
Proof. exact (conj RIPd_valid (conj eq_refl (conj one_sparse (conj (@RIPd_rip (3 * 1)) RIPd_frame)))). Qed.
(** the default step 0.98 / sigma(Phi) does not guarantee descent: for Phi = [3] every iteration multiplies the residual energy by 1.94^2 *)
Theorem C64_default_step_refuted : exists D y s0, valid_dict 1 D /\ (forall z, length z = 1%nat -> nrm2 (combine_atoms 1 D z) = 3 * 3 * nrm2 z) /\
  iht_init D y 1 (iht_step false None 3) = Some s0 /\
  forall k s s', reaches (ps_cond 0 1000) (iht_body D y 1 (iht_step false None 3)) s0 k s ->
    iht_body D y 1 (iht_step false None 3) s = Some s' -> (p_it s < 1000)%nat ->
    0 < nrm2 (p_r s) /\ nrm2 (p_r s') = (194 / 100) ^ 2 * nrm2 (p_r s).
Proof.
  exact (ex_intro _ three (ex_intro _ [3] (match three_diverges with ex_intro _ s0 (conj a b) =>
    ex_intro _ s0 (conj three_valid (conj three_bound (conj a b))) end))).
Qed.
Print Assumptions C64_default_step_refuted.
