(** C89: power iterations and the norm estimate converge for every positive semidefinite
    operator, with no condition on its spectrum. *)
From Coq Require Import List Arith Bool Lia Reals Lra.
From Verif Require Import Scalar Vec RVec RMat Loop SolverSpec SolverLemmas SlsModel SlsSpec LopSpec LopOpSpec LopModel3 LopProofs PowerSpec PowerSpec2 PowerProofs4 LopModel.
Import ListNotations.
Local Open Scope R_scope.

(** for every start outside the null space the run is defined, its estimate converges
    geometrically to the largest eigenvalue whose eigenvectors the start can see, its
    vector converges to an eigenvector (up to sign), and every positive tolerance is met
    after a number of iterations that does not depend on the limit *)
Theorem C89_power_converges n H b : linear_op n n H -> symmetric_op n H -> psd_op n H -> length b = n -> H b <> rzero n ->
  exists lam mu v, 0 <= mu < lam /\ seen n H b lam /\ length v = n /\ nrm2 v = 1 /\ H v = rscale lam v /\ 0 < rdot b v /\
  (forall max_iters tol fuel sol, power_iterations H b max_iters tol fuel = Done sol -> (0 < ps_it sol)%nat ->
    Rabs (ps_s sol - lam) <= (lam + mu) * ((mu / lam) ^ (2 * (ps_it sol - 1)) * tan2 v b) /\
    exists sg, (sg = 1 \/ sg = -1) /\ nrm2 (rsub (ps_v sol) (rscale sg v)) <= 2 * ((mu / lam) ^ (2 * ps_it sol) * tan2 v b)) /\
  (forall max_iters tol fuel, (max_iters <= fuel)%nat -> exists sol, power_iterations H b max_iters tol fuel = Done sol) /\
  (forall tol, 0 < tol -> exists k0, forall max_iters fuel, (k0 <= fuel)%nat ->
    exists sol, power_iterations H b max_iters tol fuel = Done sol /\ (ps_it sol <= k0)%nat).
Proof. exact (@power_any n H b). Qed.
Print Assumptions C89_power_converges.
(** the value is the largest eigenvalue, even a repeated one, as soon as the start is not
    orthogonal to one vector that attains it *)
Theorem C89_seen_is_largest n H b lam L u : linear_op n n H -> symmetric_op n H -> psd_op n H -> length b = n -> seen n H b lam ->
  (forall x, length x = n -> rdot x (H x) <= L * nrm2 x) -> length u = n -> rdot u (H u) = L * nrm2 u -> rdot b u <> 0 -> lam = L.
Proof. exact (@seen_top n H b lam L u). Qed.
Print Assumptions C89_seen_is_largest.
(** the norm estimate for every operator with an adjoint *)
Theorem C89_normest_converges (A : operator Rs) b : adj A -> length b = on A -> times A b <> rzero (om A) ->
  exists sg tau v, 0 <= tau < sg /\ seen (on A) (fun x => trans A (times A x)) b (sg ^ 2) /\ length v = on A /\ nrm2 v = 1 /\ trans A (times A v) = rscale (sg ^ 2) v /\ 0 < rdot b v /\
  (forall max_iters tol, exists e, normest (K:=Rs) Rabs A b max_iters tol = Done e) /\
  (forall max_iters tol e, (1 <= max_iters)%nat -> tol + sg ^ 2 / 10 ^ 20 < 1 -> normest (K:=Rs) Rabs A b max_iters tol = Done e ->
    exists k, (1 <= k <= max_iters)%nat /\ 0 <= e /\
    Rabs (e ^ 2 - sg ^ 2) <= (sg ^ 2 + tau ^ 2) * ((tau / sg) ^ (4 * (k - 1)) * tan2 v b) /\
    (k = max_iters \/ (2 <= k)%nat /\ exists e', 0 <= e' /\ Rabs (e ^ 2 - e' ^ 2) <= tol * e' ^ 2 /\
      Rabs (e' ^ 2 - sg ^ 2) <= (sg ^ 2 + tau ^ 2) * ((tau / sg) ^ (4 * (k - 2)) * tan2 v b))).
Proof. exact (@normest_any A b). Qed.
Print Assumptions C89_normest_converges.
(** the limit is the operator norm when the start is not orthogonal to one vector on which
    the operator attains it *)
Theorem C89_normest_is_norm (A : operator Rs) b sg N u : adj A -> length b = on A -> 0 <= sg -> 0 <= N ->
  seen (on A) (fun x => trans A (times A x)) b (sg ^ 2) ->
  (forall x, length x = on A -> nrm (times A x) <= N * nrm x) -> length u = on A -> nrm (times A u) = N * nrm u -> rdot b u <> 0 -> sg = N.
Proof.
  intros HA Lb Hs HN S HL Lu Eu Bu. assert (E : sg ^ 2 = N ^ 2).
  { apply (@seen_top _ _ _ _ _ u (gram_linear HA) (gram_symmetric HA) (gram_psd HA) Lb S); auto.
    - intros x Lx. rewrite rdot_sym, (gram_dot HA) by auto. rewrite <- nrm_sq. unfold nrm2. rewrite <- nrm_sq. pose proof (HL x Lx). pose proof (nrm_pos (times A x)). pose proof (nrm_pos x).
      replace (N ^ 2 * (nrm x * nrm x)) with (N * nrm x * (N * nrm x)) by ring. apply Rmult_le_compat; auto.
    - rewrite rdot_sym, (gram_dot HA) by auto. rewrite <- nrm_sq. unfold nrm2. rewrite <- nrm_sq, Eu. ring. }
  apply Rsqr_inj; auto. unfold Rsqr. cbn in E. lra.
Qed.
Print Assumptions C89_normest_is_norm.
(** every operator with an adjoint attains its norm *)
Theorem C89_norm_attained (A : operator Rs) : adj A -> (0 < on A)%nat -> exists N u, 0 <= N /\ length u = on A /\ nrm u = 1 /\ nrm (times A u) = N /\
  forall x, length x = on A -> nrm (times A x) <= N * nrm x.
Proof. exact (@norm_attained A). Qed.
Print Assumptions C89_norm_attained.

(** a concrete case outside C85: twice the identity has no gap at all *)
Definition two (x : vec) : vec := rscale 2 x.
Example C89_no_gap_ex : linear_op 2 2 two /\ symmetric_op 2 two /\ psd_op 2 two /\ two [3; 4] <> rzero 2 /\ seen 2 two [3; 4] 2 /\ forall mu v, ~ dominant 2 two 2 mu v.
Proof.
  unfold two. split; [|split; [|split; [|split; [|split]]]].
  - split; [intros; vl|]. split; intros; veq.
  - intros x y _ _. now rewrite rdot_scale_l, rdot_scale_r.
  - intros x _. rewrite rdot_scale_r. pose proof (rdot_pos x). lra.
  - cbn. intros X. injection X. lra.
  - split; [exists [1; 0]; split; auto; split; [auto|cbn; lra]|]. intros l u Hl Lu Eu. destruct u as [|a [|b [|]]]; try discriminate. cbn in *. injection Eu as E1 E2.
    assert ((l - 2) * a = 0) by lra. assert ((l - 2) * b = 0) by lra. apply Rmult_integral in H, H0. assert (a = 0) by (destruct H; lra). assert (b = 0) by (destruct H0; lra). subst. ring.
  - intros mu v (_ & _ & Lv & Nv & _ & Hmu & W). destruct v as [|a [|b [|]]]; try discriminate. rewrite Rabs_right in Hmu by lra. specialize (W [- b; a] eq_refl). unfold nrm2 in *. cbn in *.
    assert (Z : - b * a + (a * b + 0) = 0) by ring. specialize (W Z). assert (mu * (mu * 1) < 4) by nra. nra.
Qed.
Example C89_normest_ex : exists A : operator Rs, adj A /\ times A [3; 4] <> rzero (om A) /\ length [3; 4] = on A.
Proof. exists (op_diagonal (K:=Rs) [2; 2]). split; [exact (proj2 (proj2 (@diagonal_adjoint Rs [2; 2])))|]. split; [cbn; intros X; injection X; lra|reflexivity]. Qed.
