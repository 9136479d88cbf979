(** C104: projections, the proximal operator of the l2 norm and the thresholding
    functions on complex vectors. *)
From Coq Require Import List Arith Bool Lia Reals Lra Psatz.
From Verif Require Import Scalar Vec RVec RMat Loop LoopLemmas XReal LopModel LopSpec OptSpec OptModel OptProofs OptProofs4 OptProofs5 OptLemmas CxSpec CxModel CxProofs CxBpSpec CxBpProofs2 CxFomModel CxFomSpec CxFomProofs CxFomProofs2 CxProjModel CxProjSpec CxProjProofs CxProjProofs2.
Import ListNotations.
Set Implicit Arguments.
Unset Strict Implicit.
Local Open Scope R_scope.

(** project_to_ball and proj_l2_ball return the nearest point of the l2 ball of C^n
    and do not increase distances *)
Theorem C104_ball n q : 0 < q ->
  let C := fun y => cnorm y <= q in
  (cprojects_onto n C (fun x => cproject_to_ball x q) /\ cnonexpansive n (fun x => cproject_to_ball x q)) /\
  exists P, cproj_l2_ball q = Some P /\ cprojects_onto n C P /\ cnonexpansive n P.
Proof.
  intros Hq C. split; [exact (cvi_spec (@cvi_ball n q Hq))|]. destruct (proj2 (cl2_accepts q) Hq) as [P HP]. exists P.
  split; [exact HP|]. exact (cvi_spec (@cvi_l2_ball n q P HP)).
Qed.
Print Assumptions C104_ball.
Theorem C104_l2_ball_accepts q : (exists P, cproj_l2_ball q = Some P) <-> 0 < q.
Proof. exact (cl2_accepts q). Qed.
Print Assumptions C104_l2_ball_accepts.
(** project_to_box: the entries with modulus at most r *)
Theorem C104_box n r : 0 < r ->
  let C := fun y => forall z, In z y -> cabs z <= r in
  cprojects_onto n C (fun x => cproject_to_box x r) /\ cnonexpansive n (fun x => cproject_to_box x r).
Proof. intros Hr C. exact (cvi_spec (@cvi_box n r Hr)). Qed.
Print Assumptions C104_box.
(** project_to_real_upper_limit: the real vectors with entries at most u *)
Theorem C104_real_upper_limit n u :
  let C := fun y => forall z, In z y -> snd z = 0 /\ fst z <= u in
  let P := fun x => as_complex (cproject_to_real_upper_limit x u) in
  cprojects_onto n C P /\ cnonexpansive n P.
Proof. intros C P. exact (cvi_spec (@cvi_upper n u)). Qed.
Print Assumptions C104_real_upper_limit.
(** proj_l2_ball with a centre.  Missing for the full claim: the result is the
    nearest point only up to 1e-7, as for real data (C20). *)
Theorem C104_l2_ball_at_partial n q b P : length b = n -> cproj_l2_ball_at q b = Some P ->
  exists N, cprojects_onto n (fun y => cdist y b <= q) N /\
  forall x, length x = n ->
    length (P x) = n /\ (cdist x b <= q -> P x = x) /\
    cdist (P x) (N x) <= 1 / 10000000 /\
    (1 / 20000000 <= q -> cdist (P x) b <= q).
Proof. exact (@cl2_at_partial n q b P). Qed.
Print Assumptions C104_l2_ball_at_partial.

(** proj_affine with a real matrix A, R^T R = A A^T and solvers for R^T and R,
    projects complex points onto the solutions of A x = b.  Missing for the full
    claim: complex matrices, for which it is false (below). *)
Theorem C104_affine_partial m n A Rf b solveUT solveU :
  wf_mat m n A -> creal_entries A -> length b = m ->
  (forall w, length w = m -> vecmat m (matvec Rf w) Rf = matvec A (vecmat n w A)) ->
  (forall r, length r = m -> length (solveUT r) = m /\ vecmat m (solveUT r) Rf = r) ->
  (forall v, length v = m -> length (solveU v) = m /\ matvec Rf (solveU v) = v) ->
  let P := cproj_affine n A b solveUT solveU in
  cprojects_onto n (fun y => matvec A y = b) P /\ cnonexpansive n P.
Proof.
  intros W H Lb HQR HUT HU P. exact (cvi_spec (@cvi_affine m n A Rf b solveUT solveU (real_adjoint W H) Lb HQR HUT HU)).
Qed.
Print Assumptions C104_affine_partial.
Lemma sqrt22 : sqrt 2 * sqrt 2 = 2.
Proof. apply sqrt_sqrt. lra. Qed.
Lemma sqrt2_nz : sqrt 2 <> 0.
Proof. pose proof sqrt22. intros E. rewrite E in H. lra. Qed.
Ltac cx := unfold matvec, vecmat, vscale, vadd, vsub, vzero; cbn; unfold Cadd, Csub, Cmul, Cconj; cbn; repeat apply (f_equal2 cons); try reflexivity; apply (f_equal2 pair).
(** for the complex matrix A = (1 i), with A^T = Q R, Q an isometry and exact
    solvers for R^T and R, no point is moved closer to the solutions of A x = b:
    A P(x) = A x for every x *)
Theorem C104_affine_refuted : exists (A Q Rf : list cvec) solveUT solveU,
  wf_mat 1 2 A /\
  (forall w, length w = 1%nat -> vecmat 2 w A = matvec Q (matvec Rf w) /\ cnsq (matvec Q w) = cnsq w) /\
  (forall r, length r = 1%nat -> length (solveUT r) = 1%nat /\ vecmat 1 (solveUT r) Rf = r) /\
  (forall v, length v = 1%nat -> length (solveU v) = 1%nat /\ matvec Rf (solveU v) = v) /\
  (exists y : cvec, length y = 2%nat /\ matvec A y = [(1, 0)]) /\
  forall b x : cvec, length b = 1%nat -> length x = 2%nat -> matvec A (cproj_affine 2 A b solveUT solveU x) = matvec A x.
Proof.
  pose proof sqrt22 as S. pose proof sqrt2_nz as Z.
  exists ([[(1, 0); (0, 1)]] : list cvec), ([[(/ sqrt 2, 0)]; [(0, / sqrt 2)]] : list cvec), ([[(sqrt 2, 0)]] : list cvec),
    (vscale (ofR (/ sqrt 2) : Cs)), (vscale (ofR (/ sqrt 2) : Cs)).
  split; [split; [reflexivity|intros r [<-|[]]; reflexivity]|]. split; [|split; [|split; [|split]]].
  - intros [|[u v] [|]] L; try discriminate L. split.
    + cx; field; exact Z.
    + unfold cnsq, matvec. cbn. unfold Cnsq, Cadd, Cmul. cbn. 
      assert (E : / sqrt 2 * / sqrt 2 = / 2) by (rewrite <- Rinv_mult; f_equal; exact S). nra.
  - intros [|[u v] [|]] L; try discriminate L. split; [reflexivity|]. cx; field; exact Z.
  - intros [|[u v] [|]] L; try discriminate L. split; [reflexivity|]. cx; field; exact Z.
  - exists [(1, 0); (0, 0)]. split; [reflexivity|]. cx; ring.
  - intros [|[u v] [|? ?]] [|[a a2] [|[d e] [|? ?]]] L1 L2; try discriminate L1; try discriminate L2.
    unfold cproj_affine. cbv zeta. cx; ring.
Qed.
Print Assumptions C104_affine_refuted.
(** what proj_box does on complex points with real bounds l <= u: the real parts are limited to the bounds, points
    with the real part strictly between them are left alone and the others lose their imaginary part. Missing:
    the imaginary parts of the points left alone (next theorem) *)
Theorem C104_box_partial (l u : vec) (x : cvec) i : length l = length x -> length u = length x -> (i < length x)%nat ->
  let a := nth i l 0 in let b := nth i u 0 in let z := nth i x (0, 0) in let w := nth i (cproj_box l u x) (0, 0) in
  length (cproj_box l u x) = length x /\ (a <= b ->
  fst w = Rmin (Rmax (fst z) a) b /\ (a < fst z < b -> w = z) /\ (fst z < a -> w = (a, 0)) /\ (b < fst z -> w = (b, 0))).
Proof.
  revert l u i. induction x as [|z x IH]; intros [|a l] [|b u] i L1 L2 Hi; try discriminate; [cbn in Hi; lia|].
  assert (Q : cproj_box (a :: l) (b :: u) (z :: x) = clexmin (clexmax z (ofR a : Cs)) (ofR b : Cs) :: cproj_box l u x) by reflexivity.
  rewrite Q. pose proof (eq_add_S _ _ L1) as M1. pose proof (eq_add_S _ _ L2) as M2. destruct i as [|i].
  - cbn [nth]. split.
    + assert (LL : length (cproj_box l u x) = length x); [|exact (f_equal S LL)]. clear - M1 M2. revert l u M1 M2. induction x as [|z x IH]; intros [|a l] [|b u] M1 M2; try discriminate; [reflexivity|].
      exact (f_equal S (IH l u (eq_add_S _ _ M1) (eq_add_S _ _ M2))).
    + intros H. destruct z as [p q]. exact (@lex_clip a b p q H).
  - assert (Hi' : (i < length x)%nat) by (exact (proj2 (Nat.succ_lt_mono _ _) Hi)). destruct (IH l u i M1 M2 Hi') as [E1 E2]. split; [exact (f_equal S E1)|exact E2].
Qed.
Print Assumptions C104_box_partial.
(** proj_box with real bounds leaves the imaginary parts of the points it should
    project on the box *)
Theorem C104_box_bounds_refuted : exists x : cvec, cproj_box [0] [1] x = x /\
  ~ (forall z, In z x -> snd z = 0 /\ 0 <= fst z <= 1) /\
  ~ (forall z, In z x -> 0 <= fst z <= 1 /\ 0 <= snd z <= 1) /\ ~ (forall z, In z x -> cabs z <= 1).
Proof.
  exists [(/ 2, 5)]. split; [|split; [|split]].
  - unfold cproj_box. cbn. unfold clexmax, clexgt. cbn. destruct (Rltb_spec (/ 2) 0); [lra|]. cbn.
    unfold Reqb. destruct (Req_EM_T 0 (/ 2)); [lra|]. cbn. unfold clexmin, clexgt. cbn. destruct (Rltb_spec 1 (/ 2)); [lra|]. cbn.
    unfold Reqb. destruct (Req_EM_T (/ 2) 1); [lra|]. reflexivity.
  - intros H. destruct (H _ (or_introl eq_refl)) as [E _]. cbn in E. lra.
  - intros H. destruct (H _ (or_introl eq_refl)) as [_ E]. cbn in E. lra.
  - intros H. specialize (H _ (or_introl eq_refl)). pose proof (cabs_sq (/ 2, 5)) as S. pose proof (cabs_pos0 (/ 2, 5)). cbn in S. nra.
Qed.
Print Assumptions C104_box_bounds_refuted.

(** prox_l2 returns the value q |x| and the unique minimiser of
    t q |z| + 1/2 |z - x|^2 *)
Theorem C104_prox_l2 n q : 0 < q -> ccapable n (fun _ => True) (fun z => q * cnorm z) (cprox_l2 q).
Proof. exact (@capable_cl2 n q). Qed.
Print Assumptions C104_prox_l2.

(** hard_threshold keeps the entries with modulus above sqrt(2 tau) and minimises
    tau (number of nonzeros) + 1/2 |z - x|^2 *)
Theorem C104_hard tau x : 0 <= tau ->
  (forall i, nth i (chard_threshold x tau) (0, 0) = if Rlt_dec (sqrt (2 * tau)) (cabs (nth i x (0, 0))) then nth i x (0, 0) else (0, 0)) /\
  forall z, length z = length x ->
    tau * cnonzeros (chard_threshold x tau) + / 2 * cnsq (vsub (chard_threshold x tau) x) <= tau * cnonzeros z + / 2 * cnsq (vsub z x).
Proof. intros Ht. split; [exact (chard_entry x tau)|exact (@chard_min tau Ht x)]. Qed.
Print Assumptions C104_hard.
(** half_threshold minimises tau sum sqrt|z_i| + |z - x|^2 and keeps the entries with
    modulus at least its threshold *)
Theorem C104_half tau x : 0 < tau ->
  (forall i, (i < length x)%nat -> (nth i (chalf_threshold x tau) (0, 0) <> (0, 0) <-> half_gamma tau <= cabs (nth i x (0, 0)))) /\
  forall z, length z = length x ->
    tau * croots (chalf_threshold x tau) + cnsq (vsub (chalf_threshold x tau) x) <= tau * croots z + cnsq (vsub z x).
Proof. intros Ht. split; [intros i Hi; exact (@chalf_support tau x i Ht Hi)|exact (@chalf_min tau Ht x)]. Qed.
Print Assumptions C104_half.
(** the percentile variants threshold at the percentile of the moduli *)
Theorem C104_percentile perc x i : let g := perc (map cabs x) in (i < length x)%nat ->
  (0 <= g -> nth i (chard_threshold_percentile perc x) (0, 0) = if Rlt_dec g (cabs (nth i x (0, 0))) then nth i x (0, 0) else (0, 0)) /\
  (0 <= g -> (nth i (csoft_threshold_percentile perc x) (0, 0) <> (0, 0) <-> g < cabs (nth i x (0, 0)))) /\
  (0 < g -> (nth i (chalf_threshold_percentile perc x) (0, 0) <> (0, 0) <-> g <= cabs (nth i x (0, 0)))).
Proof.
  intros g Hi. split; [|split]; intros Hg.
  - unfold chard_threshold_percentile. cbv zeta. fold g. rewrite chard_entry. change (/ 2 * (g * g)) with (gamma_to_tau_hard_threshold g). now rewrite gamma_tau_hard.
  - unfold csoft_threshold_percentile, soft_threshold_c. cbv zeta. fold g.
    assert (E : nth i (map (cshrink1 g) x) (0, 0) = cshrink1 g (nth i x (0, 0))) by (rewrite (nth_indep _ (0, 0) (cshrink1 g (0, 0))) by (now rewrite map_length); apply map_nth).
    match goal with |- (?u <> _ <-> _) => replace u with (cshrink1 g (nth i x (0, 0))) by (symmetry; exact E) end. set (z := nth i x (0, 0)). unfold cshrink1. cbv zeta. pose proof (cabs_sq z) as S. pose proof (cabs_pos0 z) as P.
    unfold Reqb. destruct (Req_EM_T (cabs z) 0) as [Z|Z].
    + rewrite Z, Rmax_right by lra. split; [intros K; exfalso; apply K; cbn; apply (f_equal2 pair); ring|lra].
    + cbn [fst snd]. destruct (Rle_lt_dec (cabs z) g) as [C|C].
      * rewrite Rmax_right by lra. split; [intros K; exfalso; apply K; cbn; apply (f_equal2 pair); ring|lra].
      * rewrite Rmax_left by lra. split; [intros _; exact C|]. intros _ K. injection K as K1 K2.
        assert (fst z = 0) by (apply Rmult_integral in K1 as [K1|K1]; [lra|]; unfold Rdiv in K1; apply Rmult_integral in K1 as [K1|K1]; [exact K1|exfalso; now apply (Rinv_neq_0_compat _ Z)]).
        assert (snd z = 0) by (apply Rmult_integral in K2 as [K2|K2]; [lra|]; unfold Rdiv in K2; apply Rmult_integral in K2 as [K2|K2]; [exact K2|exfalso; now apply (Rinv_neq_0_compat _ Z)]).
        nra.
  - unfold chalf_threshold_percentile. cbv zeta. fold g. change (Rpower (4 / Rpower 54 (1 / 3) * g) (3 / 2)) with (gamma_to_tau_half_threshold g).
    rewrite chalf_support by (auto; unfold gamma_to_tau_half_threshold, Rpower; apply exp_pos). now rewrite gamma_tau_half.
Qed.
Print Assumptions C104_percentile.

(** shrink moves the real parts towards 0 by kappa and keeps the imaginary parts;
    entries with |real part| < kappa become 0.  Missing for the full claim: the
    reduction of the modulus by kappa, which is false (below). *)
Theorem C104_shrink_partial kappa x i : 0 <= kappa -> (i < length x)%nat -> let z := nth i x (0, 0) in
  (kappa < fst z -> nth i (cshrink x kappa) (0, 0) = (fst z - kappa, snd z)) /\
  (fst z < - kappa -> nth i (cshrink x kappa) (0, 0) = (fst z + kappa, snd z)) /\
  (- kappa < fst z < kappa -> nth i (cshrink x kappa) (0, 0) = (0, 0)).
Proof.
  intros Hk Hi z. pose (f := (fun z : Cs => Cadd (cmax0 (Csub z (ofR kappa : Cs))) (cmin0 (Cadd z (ofR kappa : Cs)))) : Cs -> Cs).
  assert (E : nth i (map f x) (0, 0) = f z) by (unfold z; rewrite (nth_indep _ (0, 0) (f (0, 0))) by (now rewrite map_length); apply map_nth).
  assert (E2 : nth i (cshrink x kappa) (0, 0) = f z) by exact E. rewrite E2. clear E E2. destruct z as [a b]. unfold f, cmax0, cmin0, lex_pos, Reqb. cbn.
  split; [|split]; intros H; repeat match goal with |- context [Rltb ?u ?v] => destruct (Rltb_spec u v) end; try lra; cbn;
    repeat match goal with |- context [Req_EM_T ?u ?v] => destruct (Req_EM_T u v) end; try lra; cbn; unfold Cadd; cbn; apply (f_equal2 pair); ring.
Qed.
Print Assumptions C104_shrink_partial.
Lemma shrink_5i : cshrink [(0, 5)] 1 = [(0, 0)].
Proof.
  unfold cshrink. cbn. unfold cmax0, cmin0, lex_pos, Reqb. cbn. destruct (Rltb_spec 0 (0 - 1)); [lra|]. destruct (Rltb_spec 0 (0 + 1)); [|lra]. cbn.
  destruct (Req_EM_T (0 - 1) 0); [lra|]. cbn. unfold Cadd. cbn. apply (f_equal2 cons); [|reflexivity]. apply (f_equal2 pair); ring.
Qed.
Lemma cl1_im v : 0 <= v -> cl1 [(0, v)] = v.
Proof. intros H. unfold cl1. cbn. unfold Cnsq. cbn. replace (0 * 0 + v * v) with (v * v) by ring. rewrite sqrt_square by exact H. ring. Qed.
(** on complex input shrink does not reduce the modulus by kappa: 5i has modulus 5
    and is set to 0, and 0 is not the minimiser of |z|_1 + 1/2 |z - x|^2;
    the modulus of 4 + 3i is not reduced to 4 *)
Theorem C104_shrink_refuted :
  (exists x z : cvec, length z = length x /\ cabs (nth 0 x (0, 0)) = 5 /\ cshrink x 1 = [(0, 0)] /\
     cl1 z + / 2 * cnsq (vsub z x) < cl1 (cshrink x 1) + / 2 * cnsq (vsub (cshrink x 1) x)) /\
  exists x : cvec, cabs (nth 0 x (0, 0)) = 5 /\ cabs (nth 0 (cshrink x 1) (0, 0)) <> 4.
Proof.
  split.
  - exists [(0, 5)], [(0, 4)]. split; [reflexivity|]. split; [unfold cabs; cbn; replace (0 * 0 + 5 * 5) with (5 * 5) by ring; apply sqrt_square; lra|].
    split; [exact shrink_5i|]. rewrite shrink_5i. rewrite (@cl1_im 4), (@cl1_im 0) by lra. unfold cnsq. cbn. unfold Cnsq. cbn. lra.
  - exists [(4, 3)]. split; [unfold cabs; cbn; replace (4 * 4 + 3 * 3) with (5 * 5) by ring; apply sqrt_square; lra|].
    destruct (@C104_shrink_partial 1 [(4, 3)] 0 ltac:(lra) ltac:(cbn; lia)) as [E _]. rewrite E by (cbn; lra). intros K.
    pose proof (cabs_sq (4 - 1, 3)) as S. cbn in *. rewrite K in S. lra.
Qed.
Print Assumptions C104_shrink_refuted.

(** on real data given as complex data all these functions return what they return
    on the real data *)
Theorem C104_real_data x r tau :
  cproject_to_ball (as_complex x) r = as_complex (project_to_ball x r) /\
  cproject_to_box (as_complex x) r = as_complex (project_to_box x r) /\
  cproject_to_real_upper_limit (as_complex x) r = project_to_real_upper_limit x r /\
  cshrink (as_complex x) r = as_complex (shrink x r) /\
  chard_threshold (as_complex x) tau = as_complex (hard_threshold x tau) /\
  chalf_threshold (as_complex x) tau = as_complex (half_threshold x tau).
Proof.
  change (as_complex x) with (emb x). split; [|split; [|split; [|split; [|split]]]].
  - unfold cproject_to_ball, project_to_ball. cbv zeta. rewrite emb_nrm. destruct (Rltb r (nrm x)); [|reflexivity]. apply emb_scale.
  - unfold cproject_to_box, project_to_box, emb, as_complex. rewrite !map_map. apply map_ext. intros a. rewrite cabs_real. unfold Cmul. cbn. apply (f_equal2 pair); ring.
  - unfold cproject_to_real_upper_limit, project_to_real_upper_limit, emb, as_complex. rewrite !map_map. reflexivity.
  - unfold cshrink, shrink, emb, as_complex. rewrite !map_map. apply map_ext. intros a.
    change (Cadd (cmax0 (a - r, 0 - 0)) (cmin0 (a + r, 0 + 0)) = (Rmax 0 (a - r) + Rmin 0 (a + r), 0)).
    rewrite Rminus_0_r, Rplus_0_r, cmax0_real, cmin0_real. unfold Cadd. cbn. apply (f_equal2 pair); ring.
  - unfold chard_threshold, hard_threshold, emb, as_complex. cbv zeta. rewrite !map_map. apply map_ext. intros a. rewrite cabs_real. unfold Cmul. cbn. apply (f_equal2 pair); ring.
  - unfold chalf_threshold, half_threshold, emb, as_complex. cbv zeta. rewrite !map_map. apply map_ext. intros a. rewrite cabs_real.
    destruct (Rleb (half_gamma tau) (Rabs a)); [|reflexivity]. unfold Cmul. cbn. apply (f_equal2 pair); ring.
Qed.
Print Assumptions C104_real_data.

(** a complex point outside the ball, the box and the real half line is moved to them *)
Example C104_nonvacuous : cnorm (cproject_to_ball [(3, 4)] 1) <= 1 /\ ~ cnorm [(3, 4)] <= 1 /\
  cproject_to_real_upper_limit [(3, 4); (0, 1)] 2 = [2; 0] /\
  exists P, cproj_l2_ball_at 1 [(0, 1)] = Some P.
Proof.
  split; [|split; [|split]].
  - destruct (@C104_ball 1 1 ltac:(lra)) as [[H _] _]. destruct (H [(3, 4)] eq_refl) as [_ [K _]]. exact K.
  - unfold cnorm, cnsq. cbn. unfold Cnsq. cbn. replace (3 * 3 + 4 * 4 + 0) with (5 * 5) by ring. rewrite sqrt_square; lra.
  - unfold cproject_to_real_upper_limit. cbn. rewrite Rmin_right, Rmin_left by lra. reflexivity.
  - unfold cproj_l2_ball_at. destruct (Rleb_spec 1 0); [lra|]. eexists. reflexivity.
Qed.
(** the premises of C104_affine_partial are met by A = (3 4), R = 5 *)
Example C104_affine_ex : let A := [[(3, 0); (4, 0)]] : list cvec in let Rf := [[(5, 0)]] : list cvec in
  let s := vscale (ofR (/ 5) : Cs) in
  wf_mat 1 2 A /\ creal_entries A /\
  (forall w, length w = 1%nat -> vecmat 1 (matvec Rf w) Rf = matvec A (vecmat 2 w A)) /\
  (forall r, length r = 1%nat -> length (s r) = 1%nat /\ vecmat 1 (s r) Rf = r) /\
  (forall v, length v = 1%nat -> length (s v) = 1%nat /\ matvec Rf (s v) = v).
Proof.
  cbv zeta. split; [split; [reflexivity|intros r [<-|[]]; reflexivity]|]. split.
  - intros r z [<-|[]] [<-|[<-|[]]]; reflexivity.
  - split; [|split]; intros [|[u v] [|]] L; try discriminate L; try (split; [reflexivity|]); cx; field.
Qed.
