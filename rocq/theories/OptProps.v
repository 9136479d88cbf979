(** Property theorems about projections, indicators, proximal operators, smooth
    functions and thresholding (C18-C27, C56).  The vocabulary is in OptSpec.v. *)
From Coq Require Import List Arith Bool Lia Reals Lra Psatz.
From Verif Require Import Scalar Vec Loop RVec RMat XReal OptSpec OptModel OptProofs OptProofs2 OptProofs3 OptProofs4
  OptProofs5 SortedL1Model SortedL1Proofs OptLemmas.
Import ListNotations.
Local Open Scope R_scope.

(** ** C18: projectors return the nearest point of their set *)
Theorem C18_zero n : projects_onto n (fun y => y = rzero n) proj_zero.
Proof. exact (vi_projects (@vi_zero n)). Qed.
Print Assumptions C18_zero.
Theorem C18_identity n : projects_onto n everywhere proj_identity.
Proof. exact (vi_projects (@vi_identity n)). Qed.
Print Assumptions C18_identity.
Theorem C18_singleton n c : length c = n -> projects_onto n (fun y => y = c) (proj_singleton c).
Proof. exact (fun H => vi_projects (vi_singleton c H)). Qed.
Print Assumptions C18_singleton.
Theorem C18_affine m n A Rf b solveUT solveU :
  shape m n A -> shape m m Rf -> length b = m ->
  (forall w, length w = m -> mtv m Rf (mv Rf w) = mv A (mtv n A w)) ->
  (forall r, length r = m -> length (solveUT r) = m /\ mtv m Rf (solveUT r) = r) ->
  (forall v, length v = m -> length (solveU v) = m /\ mv Rf (solveU v) = v) ->
  projects_onto n (fun y => mv A y = b) (proj_affine n A b solveUT solveU).
Proof. exact (fun H1 H2 H3 H4 H5 H6 => vi_projects (@vi_affine m n A Rf b solveUT solveU H1 H3 H4 H5 H6)). Qed.
Print Assumptions C18_affine.
(** A = [3 4]: A A' = 25 = R'R with R = [5] *)
Example C18_affine_ex :
  let A := [[3; 4]] in let Rf := [[5]] in let solve := fun r : vec => [r@0 / 5] in
  shape 1 2 A /\ shape 1 1 Rf /\
  (forall w, length w = 1%nat -> mtv 1 Rf (mv Rf w) = mv A (mtv 2 A w)) /\
  (forall r, length r = 1%nat -> length (solve r) = 1%nat /\ mtv 1 Rf (solve r) = r) /\
  (forall v, length v = 1%nat -> length (solve v) = 1%nat /\ mv Rf (solve v) = v).
Proof. exact affine_example. Qed.
Theorem C18_box n l u P : box_ok n l u -> proj_box l u = Some P -> projects_onto n (box_set l u) P.
Proof. exact (fun H1 H2 => vi_projects (@vi_box n l u P H1 H2)). Qed.
Print Assumptions C18_box.
Theorem C18_box_rejects l u : proj_box l u = None <-> l = None /\ u = None.
Proof. exact (box_rejects l u). Qed.
Print Assumptions C18_box_rejects.
Example C18_box_ex : box_ok 2 (Some [0; -1]) (Some [3; -1]) /\ exists P, proj_box (Some [0; -1]) (Some [3; -1]) = Some P.
Proof.
  split; [|eexists; reflexivity]. split; [intros v [= <-]; reflexivity|]. split; [intros v [= <-]; reflexivity|].
  intros v w [= <-] [= <-] [|[|i]] Hi; simpl in *; try lra; lia.
Qed.
Theorem C18_conic n : (0 < n)%nat -> projects_onto n cone_set proj_conic.
Proof. exact (fun H => vi_projects (vi_conic H)). Qed.
Print Assumptions C18_conic.
Theorem C18_l2_ball n q P : proj_l2_ball q = Some P -> projects_onto n (fun y => nrm y <= q) P.
Proof. exact (fun H => vi_projects (@vi_l2_ball n q P H)). Qed.
Print Assumptions C18_l2_ball.
Theorem C18_l2_ball_accepts q : (exists P, proj_l2_ball q = Some P) <-> 0 < q.
Proof. exact (l2_accepts q). Qed.
Print Assumptions C18_l2_ball_accepts.
Theorem C18_project_to_ball n q : 0 < q -> projects_onto n (fun y => nrm y <= q) (fun x => project_to_ball x q).
Proof. exact (fun H => vi_projects (@vi_to_ball n q H)). Qed.
Print Assumptions C18_project_to_ball.
Theorem C18_project_to_box n r : 0 < r ->
  projects_onto n (fun y => forall i, (i < n)%nat -> Rabs (y@i) <= r) (fun x => project_to_box x r).
Proof. exact (fun H => vi_projects (@vi_to_box n r H)). Qed.
Print Assumptions C18_project_to_box.
Theorem C18_real_upper_limit n u :
  projects_onto n (fun y => forall i, (i < n)%nat -> y@i <= u) (fun x => project_to_real_upper_limit x u).
Proof. exact (vi_projects (@vi_upper n u)). Qed.
Print Assumptions C18_real_upper_limit.

(** ** C19: l1 ball *)
Theorem C19_l1_ball n q : 0 <= q -> projects_onto n (fun y => nrm1 y <= q) (proj_l1_ball q).
Proof. exact (fun H => vi_projects (@vi_l1_ball n q H)). Qed.
Print Assumptions C19_l1_ball.
Theorem C19_l1_ball_at n q b : 0 <= q -> length b = n ->
  projects_onto n (fun y => nrm1 (rsub y b) <= q) (proj_l1_ball_at q b).
Proof. exact (fun H1 H2 => vi_projects (@vi_l1_ball_at n q b H1 H2)). Qed.
Print Assumptions C19_l1_ball_at.
Theorem C19_spgl1 n q : 0 <= q -> projects_onto n (fun y => nrm1 y <= q) (fun x => spgl1_project_to_l1_ball x q).
Proof. exact (fun H => vi_projects (@vi_spgl1 n q H)). Qed.
Print Assumptions C19_spgl1.
Theorem C19_spgl1_at n q b : 0 <= q -> length b = n ->
  projects_onto n (fun y => nrm1 (rsub y b) <= q) (fun x => spgl1_project_to_l1_ball_at x b q).
Proof. exact (fun H1 H2 => vi_projects (@vi_spgl1_at n q b H1 H2)). Qed.
Print Assumptions C19_spgl1_at.
(** complex vectors: nearest and unique nearest point of the complex l1 ball *)
Theorem C19_spgl1_complex x q : 0 <= q ->
  let p := spgl1_project_to_l1_ball_c x q in
  length p = length x /\ cnrm1 p <= q /\ (cnrm1 x <= q -> p = x) /\
  forall z, length z = length x -> cnrm1 z <= q ->
    cdist2 x p <= cdist2 x z /\ (cdist2 x z <= cdist2 x p -> z = p).
Proof. exact (@cball_spec x q). Qed.
Print Assumptions C19_spgl1_complex.

(** ** C20: l2 ball with a centre *)
Theorem C20_l2_ball_at_refuted : exists q b P x z,
  proj_l2_ball_at q b = Some P /\ length b = 1%nat /\ length x = 1%nat /\ length z = 1%nat /\
  nrm (rsub z b) <= q /\ dist x z < dist x (P x).
Proof. exact l2_at_not_nearest. Qed.
Print Assumptions C20_l2_ball_at_refuted.
(** for a radius under 5e-8 the returned point is outside the ball *)
Theorem C20_l2_ball_at_outside_refuted : exists q b P x,
  proj_l2_ball_at q b = Some P /\ length b = 1%nat /\ length x = 1%nat /\ q < nrm (rsub (P x) b).
Proof. exact l2_at_outside. Qed.
Print Assumptions C20_l2_ball_at_outside_refuted.
(** what does hold: points of the ball are unchanged; the result is within 1e-7 of
    the nearest point; it is in the ball when q >= 5e-8 *)
Theorem C20_l2_ball_at_partial n q b P : length b = n -> proj_l2_ball_at q b = Some P ->
  exists N, projects_onto n (fun y => nrm (rsub y b) <= q) N /\
  forall x, length x = n ->
    length (P x) = n /\ (nrm (rsub x b) <= q -> P x = x) /\
    dist (P x) (N x) <= 1 / 10000000 /\
    (1 / 20000000 <= q -> nrm (rsub (P x) b) <= q).
Proof. exact (@l2_at_partial n q b P). Qed.
Print Assumptions C20_l2_ball_at_partial.

(** ** C21: soft thresholding is the proximal operator of the l1 norm *)
Theorem C21_prox_l1 n q t x : 0 < q -> 0 < t -> length x = n ->
  exists z, prox_op (prox_l1 q) x t = map Fin z /\
    unique_minimiser n everywhere (prox_obj (fun z => q * nrm1 z) t x) z /\
    prox_vec_val (prox_l1 q) x t = (map Fin z, Fin (q * nrm1 z)).
Proof. exact (@prox_l1_full n q t x). Qed.
Print Assumptions C21_prox_l1.
Theorem C21_prox_l1_pos n q t x : 0 <= q -> 0 <= t -> length x = n ->
  exists z, prox_op (prox_l1_pos q) x t = map Fin z /\
    unique_minimiser n nonneg (prox_obj (fun z => q * nrm1 z) t x) z /\
    prox_vec_val (prox_l1_pos q) x t = (map Fin z, Fin (q * nrm1 z)).
Proof. exact (@prox_l1_pos_full n q t x). Qed.
Print Assumptions C21_prox_l1_pos.
Theorem C21_prox_l2 n q t x : 0 < q -> 0 < t -> length x = n ->
  exists z, prox_op (prox_l2 q) x t = map Fin z /\
    unique_minimiser n everywhere (prox_obj (fun z => q * nrm z) t x) z /\
    prox_vec_val (prox_l2 q) x t = (map Fin z, Fin (q * nrm z)).
Proof. exact (@prox_l2_full n q t x). Qed.
Print Assumptions C21_prox_l2.
Theorem C21_shrink n kappa x : 0 <= kappa -> length x = n ->
  unique_minimiser n everywhere (prox_obj nrm1 kappa x) (shrink x kappa).
Proof. exact (fun H1 H2 => strong_min (@strong_shrink n kappa x H1 H2)). Qed.
Print Assumptions C21_shrink.
Theorem C21_soft_threshold n tau x : 0 <= tau -> length x = n ->
  unique_minimiser n everywhere (prox_obj nrm1 tau x) (soft_threshold x tau).
Proof. exact (fun H1 H2 => strong_min (@strong_shrink n tau x H1 H2)). Qed.
Print Assumptions C21_soft_threshold.
Theorem C21_soft_threshold_complex x tau z : 0 <= tau -> length z = length x ->
  let p := soft_threshold_c x tau in
  tau * cnrm1 p + / 2 * cdist2 x p + / 2 * cdist2 z p <= tau * cnrm1 z + / 2 * cdist2 x z.
Proof. exact (@csoft_min x tau z). Qed.
Print Assumptions C21_soft_threshold_complex.

(** ** C22: non-expansiveness *)
Theorem C22_zero n : nonexpansive n proj_zero.
Proof. exact (vi_nonexpansive (@vi_zero n)). Qed.
Print Assumptions C22_zero.
Theorem C22_identity n : nonexpansive n proj_identity.
Proof. exact (vi_nonexpansive (@vi_identity n)). Qed.
Print Assumptions C22_identity.
Theorem C22_singleton n c : length c = n -> nonexpansive n (proj_singleton c).
Proof. exact (fun H => vi_nonexpansive (vi_singleton c H)). Qed.
Print Assumptions C22_singleton.
Theorem C22_affine m n A Rf b solveUT solveU :
  shape m n A -> shape m m Rf -> length b = m ->
  (forall w, length w = m -> mtv m Rf (mv Rf w) = mv A (mtv n A w)) ->
  (forall r, length r = m -> length (solveUT r) = m /\ mtv m Rf (solveUT r) = r) ->
  (forall v, length v = m -> length (solveU v) = m /\ mv Rf (solveU v) = v) ->
  nonexpansive n (proj_affine n A b solveUT solveU).
Proof. exact (fun H1 H2 H3 H4 H5 H6 => vi_nonexpansive (@vi_affine m n A Rf b solveUT solveU H1 H3 H4 H5 H6)). Qed.
Print Assumptions C22_affine.
Theorem C22_box n l u P : box_ok n l u -> proj_box l u = Some P -> nonexpansive n P.
Proof. exact (fun H1 H2 => vi_nonexpansive (@vi_box n l u P H1 H2)). Qed.
Print Assumptions C22_box.
Theorem C22_conic n : (0 < n)%nat -> nonexpansive n proj_conic.
Proof. exact (fun H => vi_nonexpansive (vi_conic H)). Qed.
Print Assumptions C22_conic.
Theorem C22_l2_ball n q P : proj_l2_ball q = Some P -> nonexpansive n P.
Proof. exact (fun H => vi_nonexpansive (@vi_l2_ball n q P H)). Qed.
Print Assumptions C22_l2_ball.
Theorem C22_project_to_ball n q : 0 < q -> nonexpansive n (fun x => project_to_ball x q).
Proof. exact (fun H => vi_nonexpansive (@vi_to_ball n q H)). Qed.
Print Assumptions C22_project_to_ball.
Theorem C22_project_to_box n r : 0 < r -> nonexpansive n (fun x => project_to_box x r).
Proof. exact (fun H => vi_nonexpansive (@vi_to_box n r H)). Qed.
Print Assumptions C22_project_to_box.
Theorem C22_real_upper_limit n u : nonexpansive n (fun x => project_to_real_upper_limit x u).
Proof. exact (vi_nonexpansive (@vi_upper n u)). Qed.
Print Assumptions C22_real_upper_limit.
Theorem C22_l1_ball n q : 0 <= q -> nonexpansive n (proj_l1_ball q).
Proof. exact (fun H => vi_nonexpansive (@vi_l1_ball n q H)). Qed.
Print Assumptions C22_l1_ball.
Theorem C22_l1_ball_at n q b : 0 <= q -> length b = n -> nonexpansive n (proj_l1_ball_at q b).
Proof. exact (fun H1 H2 => vi_nonexpansive (@vi_l1_ball_at n q b H1 H2)). Qed.
Print Assumptions C22_l1_ball_at.
Theorem C22_spgl1 n q : 0 <= q -> nonexpansive n (fun x => spgl1_project_to_l1_ball x q).
Proof. exact (fun H => vi_nonexpansive (@vi_spgl1 n q H)). Qed.
Print Assumptions C22_spgl1.
Theorem C22_spgl1_at n q b : 0 <= q -> length b = n -> nonexpansive n (fun x => spgl1_project_to_l1_ball_at x b q).
Proof. exact (fun H1 H2 => vi_nonexpansive (@vi_spgl1_at n q b H1 H2)). Qed.
Print Assumptions C22_spgl1_at.
Theorem C22_shrink n kappa : 0 <= kappa -> nonexpansive n (fun x => shrink x kappa).
Proof. exact (fun H => @strong_nonexpansive n everywhere nrm1 _ (fun x => shrink x kappa) (fun x Hx => @strong_shrink n kappa x H Hx)). Qed.
Print Assumptions C22_shrink.
Theorem C22_soft_threshold n tau : 0 <= tau -> nonexpansive n (fun x => soft_threshold x tau).
Proof. exact (fun H => @strong_nonexpansive n everywhere nrm1 _ (fun x => soft_threshold x tau) (fun x Hx => @strong_shrink n tau x H Hx)). Qed.
Print Assumptions C22_soft_threshold.
Theorem C22_prox_l1 n q t : 0 < q -> 0 < t ->
  exists P, (forall x, prox_op (prox_l1 q) x t = map Fin (P x)) /\ nonexpansive n P.
Proof. exact (@prox_l1_nonexp n q t). Qed.
Print Assumptions C22_prox_l1.
Theorem C22_prox_l1_pos n q t : 0 <= q -> 0 <= t ->
  exists P, (forall x, prox_op (prox_l1_pos q) x t = map Fin (P x)) /\ nonexpansive n P.
Proof. exact (@prox_l1_pos_nonexp n q t). Qed.
Print Assumptions C22_prox_l1_pos.
Theorem C22_prox_l2 n q t : 0 < q -> 0 < t ->
  exists P, (forall x, prox_op (prox_l2 q) x t = map Fin (P x)) /\ nonexpansive n P.
Proof. exact (@prox_l2_nonexp n q t). Qed.
Print Assumptions C22_prox_l2.
(** the l2 ball with a centre jumps at the boundary *)
Theorem C22_l2_ball_at_refuted : exists q b P, proj_l2_ball_at q b = Some P /\ length b = 1%nat /\ ~ nonexpansive 1 P.
Proof. exact l2_at_expansive. Qed.
Print Assumptions C22_l2_ball_at_refuted.

(** ** C23: prox_l1 is defined everywhere *)
Theorem C23_prox_l1_refuted : exists q x t, 0 <= t * q /\ finite (prox_op (prox_l1 q) x t) = None.
Proof. exact prox_l1_undefined. Qed.
Print Assumptions C23_prox_l1_refuted.
(** exactly when: finite for t q > 0; for t q = 0 finite (and equal to x) iff no entry of x is zero *)
Theorem C23_prox_l1_partial q x t : 0 <= t * q ->
  (0 < t * q -> exists z, finite (prox_op (prox_l1 q) x t) = Some z) /\
  (t * q = 0 -> (forall a, In a x -> a <> 0) -> finite (prox_op (prox_l1 q) x t) = Some x) /\
  (t * q = 0 -> In 0 x -> finite (prox_op (prox_l1 q) x t) = None).
Proof. exact (@prox_l1_where q x t). Qed.
Print Assumptions C23_prox_l1_partial.
(** cr.sparse.opt.prox_l1 (opt/proximal.py) returns nothing at all *)
Theorem C23_proximal_prox_l1_refuted : forall x t, proximal_prox_l1 x t = None.
Proof. exact (fun x t => eq_refl). Qed.
Print Assumptions C23_proximal_prox_l1_refuted.

(** ** C24: sorted l1 norm *)
(** in exact arithmetic the averaging loop does not reach a nonincreasing vector on
    this input, whatever the number of passes *)
Theorem C24_prox_owl1_terminates_refuted : exists lam x t,
  length lam = length x /\ descending lam /\ nonneg lam /\ 0 < t /\ forall fuel, prox_owl1 fuel lam x t = Fuel.
Proof. exact owl1_diverges. Qed.
Print Assumptions C24_prox_owl1_terminates_refuted.
(** when the loop stops, the result is the minimiser and keeps the order of |x| *)
Theorem C24_prox_owl1_partial fuel lam x t z : 0 <= t -> length lam = length x -> descending lam -> nonneg lam ->
  prox_owl1 fuel lam x t = Done z -> unique_minimiser (length x) everywhere (prox_obj (owl1_func lam) t x) z.
Proof. exact (fun H1 H2 H3 H4 H5 => strong_min (proj1 (@prox_owl1_min fuel lam x t z H1 H2 H3 H4 H5))). Qed.
Print Assumptions C24_prox_owl1_partial.
Theorem C24_prox_owl1_order_partial fuel lam x t z : 0 <= t -> length lam = length x -> descending lam -> nonneg lam ->
  prox_owl1 fuel lam x t = Done z ->
  forall i j, (i < length x)%nat -> (j < length x)%nat -> Rabs (x@i) < Rabs (x@j) -> Rabs (z@i) <= Rabs (z@j).
Proof. exact (fun H1 H2 H3 H4 H5 => proj2 (@prox_owl1_min fuel lam x t z H1 H2 H3 H4 H5)). Qed.
Print Assumptions C24_prox_owl1_order_partial.
Example C24_prox_owl1_ex : prox_owl1 1 [2; 1] [-3; 3] 1 = Done [-3 / 2; 3 / 2].
Proof. exact owl1_example. Qed.
(** the function itself is a norm value: convex, and weights pair with sorted magnitudes *)
Theorem C24_owl1_convex n lam : length lam = n -> descending lam -> nonneg lam -> convex n (owl1_func lam).
Proof. exact (@owl1_convex n lam). Qed.
Print Assumptions C24_owl1_convex.

(** ** C25: Moreau envelope *)
Theorem C25_value_refuted : exists f prox mu x, convex 1 f /\ 0 < mu /\ length x = 1%nat /\
  (forall x, length x = 1%nat -> unique_minimiser 1 everywhere (prox_obj f mu x) (prox x mu)) /\
  ~ envelope_value 1 f mu x (sfunc (moreau_envelope f prox mu) x).
Proof. exact moreau_value_wrong. Qed.
Print Assumptions C25_value_refuted.
Theorem C25_gradient_of_value_refuted : exists f prox mu x, convex 1 f /\ 0 < mu /\ length x = 1%nat /\
  (forall x, length x = 1%nat -> unique_minimiser 1 everywhere (prox_obj f mu x) (prox x mu)) /\
  ~ is_gradient 1 (sfunc (moreau_envelope f prox mu)) x (sgrad (moreau_envelope f prox mu) x).
Proof. exact moreau_gradient_wrong. Qed.
Print Assumptions C25_gradient_of_value_refuted.
(** for mu = 1 the value is right *)
Theorem C25_value_partial n f prox x : length x = n ->
  (forall x, length x = n -> unique_minimiser n everywhere (prox_obj f 1 x) (prox x 1)) ->
  envelope_value n f 1 x (sfunc (moreau_envelope f prox 1) x).
Proof. exact (@moreau_value_1 n f prox x). Qed.
Print Assumptions C25_value_partial.
(** for every mu the reported gradient is the gradient of the true envelope *)
Theorem C25_gradient_partial n f prox mu : 0 < mu -> convex n f ->
  (forall x, length x = n -> unique_minimiser n everywhere (prox_obj f mu x) (prox x mu)) ->
  exists E, (forall x, length x = n -> envelope_value n f mu x (E x)) /\
    forall x, length x = n -> is_gradient n E x (sgrad (moreau_envelope f prox mu) x).
Proof. exact (@moreau_gradient n f prox mu). Qed.
Print Assumptions C25_gradient_partial.
Theorem C25_grad_val f prox mu x :
  sgrad_val (moreau_envelope f prox mu) x = (sgrad (moreau_envelope f prox mu) x, sfunc (moreau_envelope f prox mu) x).
Proof. exact eq_refl. Qed.
Print Assumptions C25_grad_val.
Example C25_ex : convex 1 nrm1 /\
  forall x, length x = 1%nat -> unique_minimiser 1 everywhere (prox_obj nrm1 2 x) (soft_threshold x 2).
Proof. exact moreau_example. Qed.

(** ** C26: indicators and projectors describe the same set *)
Theorem C26_zero n x : length x = n ->
  ind_zero (proj_zero x) = true /\ (proj_zero x = x <-> ind_zero x = true).
Proof. exact (proj_ind _ (C18_zero n) (@ind_zero_spec n) x). Qed.
Print Assumptions C26_zero.
Theorem C26_singleton n c x : length c = n -> length x = n ->
  ind_singleton c (proj_singleton c x) = true /\ (proj_singleton c x = x <-> ind_singleton c x = true).
Proof. exact (fun H => proj_ind _ (@C18_singleton n c H) (fun x Hx => @ind_singleton_spec n c x Hx H) x). Qed.
Print Assumptions C26_singleton.
Theorem C26_box n l u P ind x : box_ok n l u -> proj_box l u = Some P -> ind_box l u = Some ind -> length x = n ->
  ind (P x) = true /\ (P x = x <-> ind x = true).
Proof. exact (fun H1 H2 H3 => proj_ind _ (@C18_box n l u P H1 H2) (fun x Hx => @ind_box_spec n l u ind x H1 H3 Hx) x). Qed.
Print Assumptions C26_box.
Theorem C26_conic n x : (0 < n)%nat -> length x = n ->
  ind_conic (proj_conic x) = true /\ (proj_conic x = x <-> ind_conic x = true).
Proof. exact (fun H => proj_ind _ (C18_conic n H) (fun x _ => ind_conic_spec x) x). Qed.
Print Assumptions C26_conic.
Theorem C26_l2_ball n q P ind x : proj_l2_ball q = Some P -> ind_l2_ball q = Some ind -> length x = n ->
  ind (P x) = true /\ (P x = x <-> ind x = true).
Proof. exact (fun H1 H2 => proj_ind _ (@C18_l2_ball n q P H1) (fun x _ => @ind_l2_spec q ind x H2) x). Qed.
Print Assumptions C26_l2_ball.
Theorem C26_l1_ball n q x : 0 <= q -> length x = n ->
  ind_l1_ball q (proj_l1_ball q x) = true /\ (proj_l1_ball q x = x <-> ind_l1_ball q x = true).
Proof. exact (fun H => proj_ind _ (@C19_l1_ball n q H) (fun x _ => ind_l1_spec q x) x). Qed.
Print Assumptions C26_l1_ball.
Theorem C26_l1_ball_at n q b x : 0 <= q -> length b = n -> length x = n ->
  ind_l1_ball_at q b (proj_l1_ball_at q b x) = true /\ (proj_l1_ball_at q b x = x <-> ind_l1_ball_at q b x = true).
Proof. exact (fun H1 H2 => proj_ind _ (@C19_l1_ball_at n q b H1 H2) (fun x _ => ind_l1_at_spec q b x) x). Qed.
Print Assumptions C26_l1_ball_at.
(** the ball with a centre, for radii of at least 5e-8 *)
Theorem C26_l2_ball_at_partial n q b P ind x : 1 / 20000000 <= q -> length b = n ->
  proj_l2_ball_at q b = Some P -> ind_l2_ball_at q b = Some ind -> length x = n ->
  ind (P x) = true /\ (P x = x <-> ind x = true).
Proof. exact (@l2_at_ind n q b P ind x). Qed.
Print Assumptions C26_l2_ball_at_partial.
(** the affine indicator has a relative tolerance, the projector has none *)
Theorem C26_affine_partial m n A Rf b solveUT solveU x :
  shape m n A -> shape m m Rf -> length b = m ->
  (forall w, length w = m -> mtv m Rf (mv Rf w) = mv A (mtv n A w)) ->
  (forall r, length r = m -> length (solveUT r) = m /\ mtv m Rf (solveUT r) = r) ->
  (forall v, length v = m -> length (solveU v) = m /\ mv Rf (solveU v) = v) -> length x = n ->
  let P := proj_affine n A b solveUT solveU in
  ind_affine A b (P x) = true /\ (P x = x -> ind_affine A b x = true).
Proof. exact (@affine_ind m n A Rf b solveUT solveU x). Qed.
Print Assumptions C26_affine_partial.
Theorem C26_affine_refuted : exists A Rf b solveUT solveU x,
  shape 1 1 A /\ shape 1 1 Rf /\ length b = 1%nat /\
  (forall w, length w = 1%nat -> mtv 1 Rf (mv Rf w) = mv A (mtv 1 A w)) /\
  (forall r, length r = 1%nat -> length (solveUT r) = 1%nat /\ mtv 1 Rf (solveUT r) = r) /\
  (forall v, length v = 1%nat -> length (solveU v) = 1%nat /\ mv Rf (solveU v) = v) /\
  ind_affine A b x = true /\ proj_affine 1 A b solveUT solveU x <> x.
Proof. exact affine_ind_tolerance. Qed.
Print Assumptions C26_affine_refuted.

(** ** C27: gradients *)
Theorem C27_constant n c x : length x = n -> is_gradient n (sfunc (smooth_constant c)) x (sgrad (smooth_constant c) x).
Proof. exact (@grad_constant n c x). Qed.
Print Assumptions C27_constant.
Theorem C27_linear n C D x : length C = n -> length x = n ->
  is_gradient n (sfunc (smooth_linear C D)) x (sgrad (smooth_linear C D) x).
Proof. exact (@grad_linear n C D x). Qed.
Print Assumptions C27_linear.
Theorem C27_quad_matrix_partial n P q r x :
  (forall M, P = Some M -> shape n n M /\ symmetric n M) -> (forall v, q = Some v -> length v = n) -> length x = n ->
  is_gradient n (sfunc (smooth_quad_matrix P q r)) x (sgrad (smooth_quad_matrix P q r) x).
Proof. exact (@grad_quad_matrix n P q r x). Qed.
Print Assumptions C27_quad_matrix_partial.
Example C27_quad_matrix_ex : shape 2 2 [[1; 3]; [3; -2]] /\ symmetric 2 [[1; 3]; [3; -2]].
Proof.
  split; [split; [reflexivity|]; intros r [<-|[<-|[]]]; reflexivity|].
  intros [|[|i]] [|[|j]] Hi Hj; try lia; reflexivity.
Qed.
(** a non-symmetric P is accepted but the gradient is then wrong *)
Theorem C27_quad_matrix_refuted : exists P x, shape 2 2 P /\ length x = 2%nat /\
  ~ is_gradient 2 (sfunc (smooth_quad_matrix (Some P) None None)) x (sgrad (smooth_quad_matrix (Some P) None None) x).
Proof. exact quad_matrix_wrong. Qed.
Print Assumptions C27_quad_matrix_refuted.
Theorem C27_quad_error m n A b x : shape m n A -> length b = m -> length x = n ->
  is_gradient n (sfunc (smooth_quad_error n A b)) x (sgrad (smooth_quad_error n A b) x).
Proof. exact (@grad_quad_error m n A b x). Qed.
Print Assumptions C27_quad_error.
Theorem C27_huber n tau x : 0 < tau -> length x = n ->
  is_gradient n (sfunc (smooth_huber tau)) x (sgrad (smooth_huber tau) x).
Proof. exact (@grad_huber n tau x). Qed.
Print Assumptions C27_huber.
(** on the interior of the domain; [E] is the value wherever it is finite *)
Theorem C27_entropy n x : length x = n -> positive x ->
  exists g E, (forall y v, entropy_func y = Some v -> E y = v) /\
    entropy_grad x = Some g /\ is_gradient n E x g /\ entropy_vg_grad_val x = Some (g, E x).
Proof. exact (@entropy_full n x). Qed.
Print Assumptions C27_entropy.
Theorem C27_entropy_domain x : (exists v, entropy_func x = Some v) <-> nonneg x.
Proof. exact (entropy_dom x). Qed.
Print Assumptions C27_entropy_domain.
Theorem C27_translate n f b : length b = n ->
  (forall x, length x = n -> is_gradient n (sfunc f) x (sgrad f x)) ->
  forall x, length x = n -> is_gradient n (sfunc (smooth_func_translate f b)) x (sgrad (smooth_func_translate f b) x).
Proof. exact (@grad_translate n f b). Qed.
Print Assumptions C27_translate.
(** grad_val returns the gradient and the value *)
Theorem C27_grad_val f x :
  (exists c, f = smooth_constant c) \/ (exists C D, f = smooth_linear C D) \/ (exists P q r, f = smooth_quad_matrix P q r) \/
  (exists n A b, f = smooth_quad_error n A b) \/ (exists tau, f = smooth_huber tau) ->
  sgrad_val f x = (sgrad f x, sfunc f x).
Proof. exact (@grad_val_agrees f x). Qed.
Print Assumptions C27_grad_val.

(** ** C56: thresholding *)
Theorem C56_hard_keeps x tau i :
  (hard_threshold x tau)@i = if Rlt_dec (sqrt (2 * tau)) (Rabs (x@i)) then x@i else 0.
Proof. exact (hard_nth x tau i). Qed.
Print Assumptions C56_hard_keeps.
Theorem C56_hard_minimiser tau x z : 0 <= tau -> length z = length x ->
  prox_obj l0 tau x (hard_threshold x tau) <= prox_obj l0 tau x z.
Proof. exact (@hard_min tau x z). Qed.
Print Assumptions C56_hard_minimiser.
Theorem C56_half_minimiser tau x z : 0 < tau -> length z = length x ->
  half_obj tau x (half_threshold x tau) <= half_obj tau x z.
Proof. exact (@half_min tau x z). Qed.
Print Assumptions C56_half_minimiser.
Theorem C56_hard_conversions :
  (forall g, 0 <= g -> sqrt (2 * gamma_to_tau_hard_threshold g) = g) /\
  (forall tau, 0 <= tau -> gamma_to_tau_hard_threshold (sqrt (2 * tau)) = tau).
Proof. exact (conj gamma_tau_hard tau_gamma_hard). Qed.
Print Assumptions C56_hard_conversions.
Theorem C56_half_conversions :
  (forall g, 0 < g -> half_gamma (gamma_to_tau_half_threshold g) = g) /\
  (forall tau, 0 < tau -> gamma_to_tau_half_threshold (half_gamma tau) = tau).
Proof. exact (conj gamma_tau_half tau_gamma_half). Qed.
Print Assumptions C56_half_conversions.
(** percentile versions, for any nonnegative percentile function *)
Theorem C56_hard_percentile perc x i : 0 <= perc (map Rabs x) ->
  (hard_threshold_percentile perc x)@i = if Rlt_dec (perc (map Rabs x)) (Rabs (x@i)) then x@i else 0.
Proof. exact (@hard_percentile perc x i). Qed.
Print Assumptions C56_hard_percentile.
Theorem C56_half_percentile perc x i : 0 < perc (map Rabs x) -> (i < length x)%nat ->
  ((half_threshold_percentile perc x)@i <> 0 <-> perc (map Rabs x) <= Rabs (x@i)).
Proof. exact (@half_percentile perc x i). Qed.
Print Assumptions C56_half_percentile.
Theorem C56_soft_percentile perc x i : 0 <= perc (map Rabs x) -> (i < length x)%nat ->
  ((soft_threshold_percentile perc x)@i <> 0 <-> perc (map Rabs x) < Rabs (x@i)).
Proof. exact (@soft_percentile perc x i). Qed.
Print Assumptions C56_soft_percentile.
