(** Property C98: LSQR, power iterations and the norm estimate on complex data. *)
From Coq Require Import List Arith Bool Lia Reals Lra.
From Verif Require Import Scalar Vec RVec Loop SolverSpec LopModel LopModel3 LopSpec LopOpSpec FourierModel FourierProofs OptModel SlsModel SlsSpec SlsProofs SlsLemmas LsqrModel LsqrSpec CondSpec CxSpec CxModel CxProofs CxSpglModel CxLsModel CxLsSpec CxPursuitProofs CxLsProofs CxLsProofs2 CxLsProofs3 CxLsProofs4 CxLsProofs5.
Import ListNotations.
Local Open Scope R_scope.

(** ** LSQR *)
(** after every iteration the maintained norms are those of the iterate itself, and the counters are exact *)
Theorem C98_lsqr_iterates n m A b x0 damp atol btol conlim max_iters k s :
  is_adjoint m n (co_times A) (co_trans A) -> length b = m -> length x0 = n ->
  clsqr_after A b x0 damp atol btol conlim max_iters k s ->
  cq_r_norm s = sqrt (cdamped_objective A b x0 damp (cq_x s)) /\
  cq_atr_norm s = cnorm (cdamped_descent A b x0 damp (cq_x s)) /\
  ((0 < k)%nat -> cq_x_norm s = cnorm (vsub (cq_x s) x0)) /\
  cq_it s = S k /\ cq_n_times s = S k /\ cq_n_trans s = S k.
Proof. exact (fun HA Hb Hx => @crun_facts n m A b x0 damp atol btol conlim max_iters HA Hb Hx k s). Qed.
Theorem C98_lsqr_result n m A b x0 damp atol btol conlim max_iters fuel s :
  is_adjoint m n (co_times A) (co_trans A) -> length b = m -> length x0 = n ->
  clsqr A b x0 damp atol btol conlim max_iters fuel = Done s ->
  cq_r_norm s = sqrt (cdamped_objective A b x0 damp (cq_x s)) /\
  cq_atr_norm s = cnorm (cdamped_descent A b x0 damp (cq_x s)) /\
  ((1 < cq_it s)%nat -> cq_x_norm s = cnorm (vsub (cq_x s) x0)) /\
  cq_n_times s = cq_it s /\ cq_n_trans s = cq_it s /\
  (cq_it s <= Nat.max 1 max_iters)%nat /\ (cq_it s <= Nat.min m n + 1)%nat.
Proof. exact (fun HA Hb Hx => @crun_final n m A b x0 damp atol btol conlim max_iters HA Hb Hx fuel s). Qed.
(** the condition estimate is returned as a complex number, with imaginary part zero *)
Theorem C98_lsqr_condition A b x0 damp atol btol conlim max_iters fuel s :
  clsqr A b x0 damp atol btol conlim max_iters fuel = Done s -> snd (cq_A_cond s) = 0.
Proof. exact (fun H => proj1 (@crun_cond_real A b x0 damp atol btol conlim max_iters fuel s H)). Qed.
(** the bidiagonalisation vectors are orthonormal in the complex inner product *)
Theorem C98_lsqr_orthonormal n m A b x0 damp atol btol conlim max_iters i j si sj :
  is_adjoint m n (co_times A) (co_trans A) -> length b = m -> length x0 = n -> (i < j)%nat ->
  clsqr_after A b x0 damp atol btol conlim max_iters i si -> clsqr_after A b x0 damp atol btol conlim max_iters j sj ->
  cnsq (cq_u si) = 1 /\ cnsq (cq_v si) = 1 /\ inner (cq_u si) (cq_u sj) = ((0, 0) : Cx) /\ inner (cq_v si) (cq_v sj) = ((0, 0) : Cx).
Proof. exact (fun HA Hb Hx => @crun_orthonormal n m A b x0 damp atol btol conlim max_iters HA Hb Hx i j si sj). Qed.
(** the k-th iterate minimises the damped objective over x0 plus the complex Krylov space of dimension k *)
Theorem C98_lsqr_krylov_optimal n m A b x0 damp atol btol conlim max_iters k s d :
  is_adjoint m n (co_times A) (co_trans A) -> length b = m -> length x0 = n ->
  clsqr_after A b x0 damp atol btol conlim max_iters k s ->
  cin_span n (ckrylov (fun z => co_trans A (co_times A z)) (co_trans A (vsub b (co_times A x0))) k) d ->
  cdamped_objective A b x0 damp (cq_x s) <= cdamped_objective A b x0 damp (vadd x0 d).
Proof. exact (fun HA Hb Hx => @crun_krylov n m A b x0 damp atol btol conlim max_iters HA Hb Hx k s d). Qed.
(** no division by zero is reached, and the loop ends within min(m, n) iterations whatever the tolerances *)
Theorem C98_lsqr_ends n m A b x0 damp atol btol conlim max_iters fuel :
  is_adjoint m n (co_times A) (co_trans A) -> length b = m -> length x0 = n ->
  (Nat.min max_iters (Nat.min m n) <= fuel)%nat ->
  exists s, clsqr A b x0 damp atol btol conlim max_iters fuel = Done s.
Proof. exact (fun HA Hb Hx => @CxLsProofs3.crun_total n m A b x0 damp atol btol conlim max_iters HA Hb Hx fuel). Qed.
Theorem C98_lsqr_nonincreasing n m A b x0 damp atol btol conlim max_iters k s s' :
  is_adjoint m n (co_times A) (co_trans A) -> length b = m -> length x0 = n ->
  clsqr_after A b x0 damp atol btol conlim max_iters k s -> clsqr_after A b x0 damp atol btol conlim max_iters (S k) s' ->
  cdamped_objective A b x0 damp (cq_x s') <= cdamped_objective A b x0 damp (cq_x s).
Proof. exact (fun HA Hb Hx => @crun_nonincreasing n m A b x0 damp atol btol conlim max_iters HA Hb Hx k s s'). Qed.
(** what holds when the loop stops *)
Theorem C98_lsqr_stopping n m A b x0 damp atol btol conlim max_iters fuel s :
  is_adjoint m n (co_times A) (co_trans A) -> length b = m -> length x0 = n ->
  clsqr A b x0 damp atol btol conlim max_iters fuel = Done s ->
  (max_iters <= cq_it s)%nat \/ cdamped_objective A b x0 damp (cq_x s) <= 0 \/ cnorm (cdamped_descent A b x0 damp (cq_x s)) <= 0 \/
  (conlim <> 0 /\ 1 <= 1 / conlim * fst (cq_A_cond s)) \/
  cnorm (cdamped_descent A b x0 damp (cq_x s)) <= atol * cnorm (cdamped_descent A b x0 damp x0) \/
  sqrt (cdamped_objective A b x0 damp (cq_x s)) <= btol * sqrt (cdamped_objective A b x0 damp x0) + atol * cq_A_norm s * cq_x_norm s.
Proof. exact (fun HA Hb Hx => @crun_stop n m A b x0 damp atol btol conlim max_iters HA Hb Hx fuel s). Qed.
(** with zero tolerances and enough iterations the result solves the (damped) least squares problem *)
Theorem C98_lsqr_solves n m A b x0 damp max_iters fuel s z :
  is_adjoint m n (co_times A) (co_trans A) -> length b = m -> length x0 = n ->
  (Nat.min m n + 1 < max_iters)%nat -> length z = n ->
  clsqr A b x0 damp 0 0 0 max_iters fuel = Done s ->
  cdamped_objective A b x0 damp (cq_x s) <= cdamped_objective A b x0 damp z.
Proof. exact (fun HA Hb Hx Hm => @crun_solves n m A b x0 max_iters HA Hb Hm damp fuel s z Hx). Qed.
(** started from zero it is the solution of least norm *)
Theorem C98_lsqr_minimum_norm n m A b max_iters fuel s z :
  is_adjoint m n (co_times A) (co_trans A) -> length b = m -> (Nat.min m n + 1 < max_iters)%nat ->
  clsqr A b (@vzero Cs n) 0 0 0 0 max_iters fuel = Done s -> length z = n ->
  cnsq (vsub b (co_times A (cq_x s))) <= cnsq (vsub b (co_times A z)) /\
  (cnsq (vsub b (co_times A z)) = cnsq (vsub b (co_times A (cq_x s))) -> cnsq (cq_x s) <= cnsq z).
Proof. exact (@crun_min_norm n m A b max_iters fuel s z). Qed.
(** the rate; mu and L bound the squared nonzero singular values *)
Theorem C98_lsqr_rate n m A b x0 z damp atol btol conlim mx mu L k s : is_adjoint m n (co_times A) (co_trans A) ->
  length b = m -> length x0 = n -> length z = n ->
  (forall y, length y = n -> cdamped_objective A b x0 damp z <= cdamped_objective A b x0 damp y) ->
  0 < mu <= L -> (forall y, length y = m -> mu * cnsq (co_trans A y) <= cnsq (co_times A (co_trans A y)) <= L * cnsq (co_trans A y)) ->
  clsqr_after A b x0 damp atol btol conlim mx k s ->
  cdamped_objective A b x0 damp (cq_x s) - cdamped_objective A b x0 damp z <=
  (2 * cond_rate (mu + damp * damp) (L + damp * damp) ^ k) ^ 2 * (cdamped_objective A b x0 damp x0 - cdamped_objective A b x0 damp z).
Proof. exact (@crun_rate n m A b x0 z damp atol btol conlim mx mu L k s). Qed.
Theorem C98_lsqr_geometric n m A : is_adjoint m n (co_times A) (co_trans A) ->
  exists rho, 0 <= rho < 1 /\ forall b x0 z atol btol conlim mx k s,
    length b = m -> length x0 = n -> length z = n ->
    (forall y, length y = n -> cdamped_objective A b x0 0 z <= cdamped_objective A b x0 0 y) ->
    clsqr_after A b x0 0 atol btol conlim mx k s ->
    cdamped_objective A b x0 0 (cq_x s) - cdamped_objective A b x0 0 z <= (2 * rho ^ k) ^ 2 * (cdamped_objective A b x0 0 x0 - cdamped_objective A b x0 0 z).
Proof. exact (@crun_geometric n m A). Qed.
(** a complex operator is accepted exactly when the data or the starting point is complex; in particular real
    measurements of a complex operator from the default start are rejected *)
Theorem C98_lsqr_accepts ta tb t0 : lsqr_accepts ta tb t0 <-> (ta = ComplexArr -> tb = ComplexArr \/ t0 = ComplexArr).
Proof. destruct ta, tb, t0; unfold lsqr_accepts; cbn; split; intros H; auto; try reflexivity; try discriminate; try (destruct (H eq_refl); discriminate). Qed.
Theorem C98_lsqr_real_data_refuted : ~ lsqr_accepts ComplexArr RealArr RealArr.
Proof. discriminate. Qed.

(** ** power iterations *)
(** for a Hermitian operator: the estimate is real, it is the Rayleigh quotient of a unit vector and hence at most
    the largest eigenvalue, and the returned vector has unit length *)
Theorem C98_power_rayleigh n H b max_iters tol fuel sol : @is_adjoint Cs n n H H -> length b = n ->
  cpower_iterations H b max_iters tol fuel = Done sol ->
  snd (cpw_s sol) = 0 /\ cnorm (cpw_v sol) = 1 /\ length (cpw_v sol) = n /\ (cpw_it sol <= max_iters)%nat /\
  ((0 < cpw_it sol)%nat -> exists u, length u = n /\ cnsq u = 1 /\ cpw_s sol = inner u (H u) /\ cpw_v sol = vscale (ofR (/ cnorm (H u)) : Cs) (H u)).
Proof.
  intros HH Hb E. destruct (@cpower_real n H b HH Hb _ _ _ _ E) as [E1 E2]. apply (@fl_power_done n H b HH Hb) in E.
  destruct (@lift_linear n H HH) as [L1 _]. assert (Lf : length (flat b) = (2 * n)%nat) by (rewrite flat_len; now rewrite Hb).
  destruct (@power_final (2 * n) (lift H) (flat b) max_iters tol L1 Lf fuel _ E) as (Q1 & Q2 & Q3 & Q4). cbn [fl_psol ps_v ps_s ps_it] in *.
  rewrite flat_nrm in Q1. split; [exact E1|]. split; [exact Q1|]. split; [exact E2|]. split; [exact Q3|]. intros K. destruct (Q4 K) as (u & Lu & Nu & Eu & Ev).
  pose proof (unflat_len Lu) as Lw. rewrite <- (flat_unflat Lu) in Nu, Eu, Ev. exists (unflat u). rewrite flat_nrm2 in Nu. rewrite lift_flat in Eu, Ev. rewrite flat_dot in Eu.
  rewrite flat_nrm, <- flat_scale in Ev. apply flat_inj in Ev. split; [exact Lw|]. split; [exact Nu|]. split; [|exact Ev].
  pose proof (@herm_real n H (unflat u) HH Lw) as Z. unfold im in Z. destruct (cpw_s sol) as [p q], (inner (unflat u) (H (unflat u)) : Cx) as [p' q']. cbn [fst snd] in *. now subst.
Qed.
(** convergence for every start outside the null space *)
Theorem C98_power_converges n H b : hermitian_psd n H -> length b = n -> H b <> @vzero Cs n ->
  exists lam mu v, 0 <= mu < lam /\ cseen n H b lam /\ length v = n /\ cnsq v = 1 /\ H v = vscale (ofR lam : Cs) v /\ 0 < fst (inner b v : Cx) /\
  (forall max_iters tol fuel sol, cpower_iterations H b max_iters tol fuel = Done sol -> (0 < cpw_it sol)%nat ->
    Rabs (fst (cpw_s sol) - lam) <= (lam + mu) * ((mu / lam) ^ (2 * (cpw_it sol - 1)) * ctan2 v b) /\
    exists sg, (sg = 1 \/ sg = -1) /\ cnsq (vsub (cpw_v sol) (vscale (ofR sg : Cs) v)) <= 2 * ((mu / lam) ^ (2 * cpw_it sol) * ctan2 v b)) /\
  (forall max_iters tol fuel, (max_iters <= fuel)%nat -> exists sol, cpower_iterations H b max_iters tol fuel = Done sol) /\
  (forall tol, 0 < tol -> exists k0, forall max_iters fuel, (k0 <= fuel)%nat ->
    exists sol, cpower_iterations H b max_iters tol fuel = Done sol /\ (cpw_it sol <= k0)%nat).
Proof. exact (@cpower_any n H b). Qed.
(** the limit is the largest eigenvalue as soon as the start is not orthogonal to one vector that attains it *)
Theorem C98_seen_is_largest n H b lam L u : hermitian_psd n H -> length b = n -> cseen n H b lam ->
  (forall x, length x = n -> fst (inner x (H x) : Cx) <= L * cnsq x) -> length u = n -> fst (inner u (H u) : Cx) = L * cnsq u ->
  inner b u <> ((0, 0) : Cx) -> lam = L.
Proof. exact (@cseen_top n H b lam L u). Qed.
(** a complex operator needs a complex start *)
Theorem C98_power_accepts ta tb : power_accepts ta tb <-> (ta = ComplexArr -> tb = ComplexArr).
Proof. destruct ta, tb; unfold power_accepts; cbn; split; intros H; auto; try discriminate. now specialize (H eq_refl). Qed.

(** ** the norm estimate *)
Theorem C98_normest_converges (A : operator Cs) b : adj A -> length b = on A -> times A b <> @vzero Cs (om A) ->
  exists sg tau v, 0 <= tau < sg /\ cseen (on A) (fun x => trans A (times A x)) b (sg ^ 2) /\ length v = on A /\ cnsq v = 1 /\ trans A (times A v) = vscale (ofR (sg ^ 2) : Cs) v /\ 0 < fst (inner b v : Cx) /\
  (forall max_iters tol, exists e, normest (K:=Cs) Cabs A b max_iters tol = Done e) /\
  (forall max_iters tol e, (1 <= max_iters)%nat -> tol + sg ^ 2 / 10 ^ 20 < 1 -> normest (K:=Cs) Cabs A b max_iters tol = Done e ->
    exists k, (1 <= k <= max_iters)%nat /\ 0 <= e /\
    Rabs (e ^ 2 - sg ^ 2) <= (sg ^ 2 + tau ^ 2) * ((tau / sg) ^ (4 * (k - 1)) * ctan2 v b) /\
    (k = max_iters \/ (2 <= k)%nat /\ exists e', 0 <= e' /\ Rabs (e ^ 2 - e' ^ 2) <= tol * e' ^ 2 /\
      Rabs (e' ^ 2 - sg ^ 2) <= (sg ^ 2 + tau ^ 2) * ((tau / sg) ^ (4 * (k - 2)) * ctan2 v b))).
Proof. exact (@cnormest_any A b). Qed.
Theorem C98_normest_is_norm (A : operator Cs) b sg N u : adj A -> length b = on A -> 0 <= sg -> 0 <= N ->
  cseen (on A) (fun x => trans A (times A x)) b (sg ^ 2) ->
  (forall x, length x = on A -> cnorm (times A x) <= N * cnorm x) -> length u = on A -> cnorm (times A u) = N * cnorm u ->
  inner b u <> ((0, 0) : Cx) -> sg = N.
Proof. exact (@cnormest_norm A b sg N u). Qed.
Theorem C98_norm_attained (A : operator Cs) : adj A -> (0 < on A)%nat -> exists N u, 0 <= N /\ length u = on A /\ cnorm u = 1 /\ cnorm (times A u) = N /\
  forall x, length x = on A -> cnorm (times A x) <= N * cnorm x.
Proof. exact (@cnorm_attained A). Qed.

(** non-vacuity: the union of spikes and sinusoids for LSQR and the norm estimate, and a Hermitian matrix that is not real *)
Definition c98_H (x : cvec) : cvec :=
  match x with [a; b] => [Cadd (Cmul (2, 0) a) (Cmul (0, 1) b); Cadd (Cmul (0, -1) a) (Cmul (2, 0) b)] | _ => @vzero Cs 2 end.
Example C98_nonvacuous : (forall n, (0 < n)%nat -> is_adjoint n (2 * n) (co_times (of_operator (op_dirac_fourier_basis n))) (co_trans (of_operator (op_dirac_fourier_basis n)))) /\
  (forall n, (0 < n)%nat -> adj (op_dirac_fourier_basis n)) /\ hermitian_psd 2 c98_H /\ c98_H [(1, 0); (0, 0)] <> @vzero Cs 2.
Proof.
  assert (D : forall n, (0 < n)%nat -> adj (op_dirac_fourier_basis n)) by (intros n Hn; destruct (dirac_fourier_adjoint Hn) as (_ & _ & H); exact H).
  split; [exact D|]. split; [exact D|]. split.
  - split.
    + split; [|split]; [intros x _; destruct x as [|a [|b [|]]]; reflexivity|intros x _; destruct x as [|a [|b [|]]]; reflexivity|].
      intros x y Lx Ly. destruct x as [|a [|b [|]]]; try discriminate. destruct y as [|c [|d [|]]]; try discriminate. change Cx in a, b, c, d. destruct a, b, c, d.
      cbn. unfold Cadd, Cmul, Cconj. cbn. apply (f_equal2 pair); ring.
    + intros x Lx. destruct x as [|a [|b [|]]]; try discriminate. change Cx in a, b. destruct a as [p q], b as [r s]. cbn. unfold Cadd, Cmul, Cconj. cbn.
      match goal with |- 0 <= ?t => replace t with (p * p + q * q + r * r + s * s + ((p - s) * (p - s) + (q + r) * (q + r))) by ring end.
      assert (Q : forall t, 0 <= t * t) by (intros; apply Rle_0_sqr). pose proof (Q p). pose proof (Q q). pose proof (Q r). pose proof (Q s). pose proof (Q (p - s)). pose proof (Q (q + r)). lra.
  - cbn. unfold Cadd, Cmul. cbn. intros X. injection X. intros. lra.
Qed.
Print Assumptions C98_lsqr_iterates.
Print Assumptions C98_lsqr_result.
Print Assumptions C98_lsqr_condition.
Print Assumptions C98_lsqr_orthonormal.
Print Assumptions C98_lsqr_krylov_optimal.
Print Assumptions C98_lsqr_ends.
Print Assumptions C98_lsqr_nonincreasing.
Print Assumptions C98_lsqr_stopping.
Print Assumptions C98_lsqr_solves.
Print Assumptions C98_lsqr_minimum_norm.
Print Assumptions C98_lsqr_rate.
Print Assumptions C98_lsqr_geometric.
Print Assumptions C98_lsqr_accepts.
Print Assumptions C98_lsqr_real_data_refuted.
Print Assumptions C98_power_rayleigh.
Print Assumptions C98_power_converges.
Print Assumptions C98_seen_is_largest.
Print Assumptions C98_power_accepts.
Print Assumptions C98_normest_converges.
Print Assumptions C98_normest_is_norm.
Print Assumptions C98_norm_attained.
