(** Further properties of the first order method on complex data (property C103):
    the l1 ball, real data, element types. *)
From Coq Require Import List Arith Bool Lia Reals Lra Psatz.
From Verif Require Import Scalar Vec RVec RMat Loop LoopLemmas XReal SolverSpec SolverLemmas LopModel LopSpec OptSpec OptModel OptProofs SpgSpec FomSpec FomModel FomProofs FomProofs2 FomProps CxSpec CxModel CxProofs CxProofs2 CxSpglModel CxBpSpec CxFomModel CxFomSpec CxFomProofs CxFomProofs2 CxFomProps.
Import ListNotations.
Set Implicit Arguments.
Unset Strict Implicit.
Local Open Scope R_scope.

(** C103, without the exact Lipschitz constant: as long as every step satisfies the
    quadratic upper bound with its own L, the objective is within
    theta^2 L / 2 |x0 - u|^2 of the minimum. *)
Theorem C103_certificate n m f h (times trans : cvec -> cvec) b opt (dom : cvec -> Prop) hv x0 s0 s1 k s u :
  is_adjoint m n times trans -> length b = m -> csmooth_ok m f -> cfirst_order_convex m (cs_func f) (cs_grad f) ->
  cconvex_set n dom -> cconvex_on n dom hv -> ccapable n dom hv h -> cfom_options_ok opt -> length x0 = n -> dom x0 ->
  length u = n -> dom u -> (forall v, length v = n -> dom v -> ccomposite (cs_func f) times b hv u <= ccomposite (cs_func f) times b hv v) ->
  cfom_init f h times b opt x0 = Some s0 -> cfom_body f h times trans b opt s0 = Some s1 ->
  reaches (cfom_cond opt) (cfom_body f h times trans b opt) s1 k s ->
  (forall a c, (a = s0 \/ exists j, (j < k)%nat /\ reaches (cfom_cond opt) (cfom_body f h times trans b opt) s1 j a) -> cfom_body f h times trans b opt a = Some c ->
     cfm_fx c <= cfm_fy c + fst (inner (cfm_gy c) (vsub (cfm_x c) (cfm_y c)) : Cx) + fo_alpha opt * cfm_L a / 2 * cnsq (vsub (cfm_x c) (cfm_y c))) ->
  exists t, cfm_theta s = Some t /\
    ccomposite (cs_func f) times b hv (cfm_x s) - ccomposite (cs_func f) times b hv u <= t ^ 2 * cfm_L s / 2 * cnsq (vsub x0 u).
Proof.
  intros Ha Lb Hf Hfc Hd Hh Hc Ho Lx Dx Lu Du Mu E0 E1 H G.
  assert (E0' : fom_init (lsm f) (lpx h) (lift times) (flat b) opt (flat x0) = Some (fl_fom s0)) by (rewrite fl_finit, E0; reflexivity).
  assert (E1' : fom_body (lsm f) (lpx h) (lift times) (lift trans) (flat b) opt (fl_fom s0) = Some (fl_fom s1)) by (rewrite fl_fbody, E1; reflexivity).
  pose proof (@C45_certificate (2 * n) (2 * m) (lsm f) (lpx h) (lift times) (lift trans) (flat b) opt (ldom dom) (lift_f hv) (flat x0) (fl_fom s0) (fl_fom s1) k (fl_fom s) (flat u)
    (lift_adjoint Ha) ltac:(rewrite flat_len; lia) (l_smooth Hf) (l_foc Hfc (proj2 Hf)) (l_cset Hd) (l_con Hh) (l_capable Hc) Ho
    ltac:(rewrite flat_len; lia) ltac:(unfold ldom; now rewrite unflat_flat) ltac:(rewrite flat_len; lia) ltac:(unfold ldom; now rewrite unflat_flat) (l_min Mu) E0' E1' (fl_freaches H)) as K.
  assert (Back : forall j r, reaches (fom_cond opt) (fom_body (lsm f) (lpx h) (lift times) (lift trans) (flat b) opt) (fl_fom s1) j r ->
    exists a, r = fl_fom a /\ reaches (cfom_cond opt) (cfom_body f h times trans b opt) s1 j a).
  { induction 1 as [|j r r' Hr [a [-> IH]] Cd Bd]; [exists s1; split; [reflexivity|constructor]|]. rewrite fl_fbody in Bd. rewrite fl_fcond in Cd.
    destruct (cfom_body f h times trans b opt a) as [c|] eqn:Ec; [|discriminate]. injection Bd as <-. exists c. split; [reflexivity|]. econstructor; eauto. }
  destruct K as (t & Et & Q).
  - intros a c Hac Hb. assert (X : exists a', a = fl_fom a' /\ (a' = s0 \/ exists j, (j < k)%nat /\ reaches (cfom_cond opt) (cfom_body f h times trans b opt) s1 j a')).
    { destruct Hac as [->|[j [Hj Hr]]]; [exists s0; auto|]. destruct (Back _ _ Hr) as [a' [-> Hr']]. exists a'. split; [reflexivity|]. right. exists j. auto. }
    destruct X as [a' [-> Ha']]. rewrite fl_fbody in Hb. destruct (cfom_body f h times trans b opt a') as [c'|] eqn:Ec; [|discriminate]. injection Hb as <-.
    specialize (G a' c' Ha' Ec). cbn [fl_fom fm_fx fm_fy fm_gy fm_x fm_y fm_L]. rewrite <- flat_sub, flat_dot, flat_nrm2. exact G.
  - exists t. split; [exact Et|]. cbn [fl_fom fm_x fm_L] in Q. rewrite !l_comp, <- flat_sub, flat_nrm2 in Q. exact Q.
Qed.
Print Assumptions C103_certificate.

(** C103, the l1 ball: on real data given as complex the projection is the real one *)
Theorem C103_ball_real q x : cproj_l1_ball q (as_complex x) = as_complex (proj_l1_ball q x).
Proof. apply em_ball. Qed.
Print Assumptions C103_ball_real.

Lemma cabs_12_5 : cabs (12, 5) = 13.
Proof. unfold cabs. cbn. replace (12 * 12 + 5 * 5) with (13 * 13) by ring. apply sqrt_square. lra. Qed.
Lemma cabs_5_12 : cabs (5, 12) = 13.
Proof. unfold cabs. cbn. replace (5 * 5 + 12 * 12) with (13 * 13) by ring. apply sqrt_square. lra. Qed.
Lemma cl1_one (z : Cs) : cl1 [z] = cabs z.
Proof. unfold cl1. cbn. unfold Cnsq, cabs. cbn. rewrite Rplus_0_r. reflexivity. Qed.
Lemma thr_one a : l1_threshold [a] 1 = a - 1.
Proof. unfold l1_threshold. cbn. destruct (Rltb (a * 1) (0 + a - 1)); cbn; field. Qed.
Lemma ball_12_5 : cproj_l1_ball 1 [(12, 5)] = [(0, 5)].
Proof.
  unfold cproj_l1_ball. rewrite cl1_one, cabs_12_5. destruct (Rltb_spec 1 13); [|lra]. unfold cproject_inside_ball. cbn [map]. rewrite cabs_12_5, thr_one. f_equal.
  change (Cadd (cmax0 (12 - (13 - 1), 5 - 0)) (cmin0 (12 + (13 - 1), 5 + 0)) = (0, 5)). unfold cmax0, cmin0, lex_pos. cbn [fst snd].
  replace (12 - (13 - 1)) with 0 by ring. destruct (Rltb_spec 0 0); [lra|]. destruct (Reqb_spec 0 0); [|lra]. destruct (Rltb_spec 0 (5 - 0)); [|lra].
  destruct (Rltb_spec 0 (12 + (13 - 1))); [|lra]. cbn. unfold Cadd. cbn. apply (f_equal2 pair); ring.
Qed.
Lemma ball_5_12 : cproj_l1_ball 1 [(5, 12)] = [(0, 0)].
Proof.
  unfold cproj_l1_ball. rewrite cl1_one, cabs_5_12. destruct (Rltb_spec 1 13); [|lra]. unfold cproject_inside_ball. cbn [map]. rewrite cabs_5_12, thr_one. f_equal.
  change (Cadd (cmax0 (5 - (13 - 1), 12 - 0)) (cmin0 (5 + (13 - 1), 12 + 0)) = (0, 0)). unfold cmax0, cmin0, lex_pos. cbn [fst snd].
  destruct (Rltb_spec 0 (5 - (13 - 1))); [lra|]. destruct (Reqb_spec (5 - (13 - 1)) 0); [lra|].
  destruct (Rltb_spec 0 (5 + (13 - 1))); [|lra]. cbn. unfold Cadd. cbn. apply (f_equal2 pair); ring.
Qed.
(** C103 refuted, the l1 ball: complex vectors are projected to points outside the
    ball, and to points inside it that are not nearest (lpballs.py:174 compares
    complex numbers with 0). *)
Theorem C103_ball_refuted :
  (exists x, 1 < cl1 (cproj_l1_ball 1 x)) /\
  (exists x p, length p = length x /\ cl1 p <= 1 /\ cl1 (cproj_l1_ball 1 x) <= 1 /\ cnsq (vsub x p) < cnsq (vsub x (cproj_l1_ball 1 x))).
Proof.
  split.
  - exists [(12, 5)]. rewrite ball_12_5, cl1_one. unfold cabs. cbn. replace (0 * 0 + 5 * 5) with (5 * 5) by ring. rewrite sqrt_square; lra.
  - exists [(5, 12)], [(0, 1)]. split; [reflexivity|]. rewrite ball_5_12, !cl1_one. unfold cabs, cnsq. cbn. unfold Cnsq. cbn.
    replace (0 * 0 + 1 * 1) with (1 * 1) by ring. rewrite sqrt_square by lra. replace (0 * 0 + 0 * 0) with (0 * 0) by ring. rewrite sqrt_square by lra. lra.
Qed.
Print Assumptions C103_ball_refuted.

Lemma run_first f h A T b opt x0 s fuel : cfom_first f h A T b opt x0 = Some s -> cfom_cond opt s = false -> cfom f h A T b opt x0 fuel = Done s.
Proof. intros E C. unfold cfom. rewrite E. destruct fuel; cbn; rewrite C; reflexivity. Qed.
(** C103 refuted, lasso: with the identity operator, the complex data 12 + 5i, radius 1
    and the feasible start 0 it returns a point with l1 norm 5. *)
Theorem C103_lasso_refuted : exists n times trans b opt x0 s,
  is_adjoint n n times trans /\ length b = n /\ length x0 = n /\ cl1 x0 <= 1 /\ cfom_options_ok opt /\ fo_Lexact opt = Some (fo_L0 opt) /\
  (forall x, length x = n -> cnsq (times x) <= fo_L0 opt * cnsq x) /\
  (forall fuel, cfom_lasso times trans b 1 x0 opt fuel = Done s) /\ cl1 (cfm_x s) = 5.
Proof.
  set (opt := FomOptions 1 0 1 (Some 1) 1 (1 / 2)).
  assert (E : exists s, cfom_first csmooth_quad (cprox_l1_ball 1) (fun x => x) (fun x => x) (vopp [(12, 5) : Cs]) opt [(0, 0) : Cs] = Some s /\ cfm_x s = [(0, 5)] /\ cfm_iterations s = 1%nat).
  { unfold cfom_first, cfom_init. cbn [cp_func cprox_l1_ball cbuild_from_ind_proj]. rewrite cl1_one.
    assert (C0 : cabs (0, 0) = 0) by (unfold cabs; cbn; replace (0 * 0 + 0 * 0) with (0 * 0) by ring; apply sqrt_square; lra). rewrite C0.
    destruct (Rltb_spec 1 0); [lra|]. cbn [negb]. cbn [cs_grad_val cfom_f csmooth_translate csmooth_quad].
    unfold cfom_body. cbn [cfm_L cfm_theta cfm_x cfm_z cfm_iterations fo_alpha fo_L0 opt].
    assert (Th : advance_theta None (1 * 1) 1 = 1) by (unfold advance_theta; rewrite Rplus_0_r, sqrt_1; field). rewrite Th.
    cbn [cs_grad_val cfom_f csmooth_translate csmooth_quad]. destruct (Reqb_spec (1 * (1 * 1)) 0); [lra|].
    cbn [cp_vec_val cprox_l1_ball cbuild_from_ind_proj].
    match goal with |- context [cproj_l1_ball 1 ?v] => assert (Ev : v = [(12, 5)]) end.
    { cbn. unfold Csub, Cmul, Cadd, Copp, ofR. cbn. f_equal. apply (f_equal2 pair); field. }
    rewrite Ev, ball_12_5. cbv zeta. eexists. split; [reflexivity|]. split; [|reflexivity]. cbn. unfold Cadd, Cmul, ofR. cbn. f_equal. apply (f_equal2 pair); ring. }
  destruct E as (s & E & Ex & Ei). exists 1%nat, (fun x => x), (fun x => x), [(12, 5)], opt, [(0, 0)], s.
  split. { split; [intros x Hx; exact Hx|]. split; [intros x Hx; exact Hx|]. reflexivity. }
  split; [reflexivity|]. split; [reflexivity|]. split. { rewrite cl1_one. unfold cabs. cbn. replace (0 * 0 + 0 * 0) with (0 * 0) by ring. rewrite sqrt_square; lra. }
  split. { unfold cfom_options_ok, opt. cbn. split; [lra|]. split; [lra|]. split; [lra|]. intros e He. injection He as <-. lra. }
  split; [reflexivity|]. split; [intros x _; cbn; lra|]. split.
  - intros fuel. apply run_first; [exact E|]. unfold cfom_cond; rewrite Ei; reflexivity.
  - rewrite Ex, cl1_one. unfold cabs. cbn. replace (0 * 0 + 5 * 5) with (5 * 5) by ring. apply sqrt_square. lra.
Qed.
Print Assumptions C103_lasso_refuted.

(** the complex state c holds the real state s *)
Definition holds_real (c : cfom_state) (s : fom_state) : Prop :=
  cfm_x c = as_complex (fm_x s) /\ cfm_y c = as_complex (fm_y s) /\ cfm_z c = as_complex (fm_z s) /\ cfm_Ax c = as_complex (fm_Ax s) /\
  cfm_fx c = fm_fx s /\ cfm_gAx c = as_complex (fm_gAx s) /\ cfm_Cz c = fm_Cz s /\ cfm_L c = fm_L s /\ cfm_theta c = fm_theta s /\
  cfm_norm_x c = fm_norm_x s /\ cfm_norm_dx c = fm_norm_dx s /\ cfm_iterations c = fm_iterations s.
(** the runs end in the same way *)
Definition same_run (c : outcome cfom_state) (r : outcome fom_state) : Prop :=
  match r with Done s => exists t, c = Done t /\ holds_real t s | Fail => c = Fail | Fuel => c = Fuel end.
(** C103: on real data given as complex both problems are solved by the steps of the
    real solver. *)
Theorem C103_real_data times trans timesr transr b q x0 opt fuel :
  (forall x, times (as_complex x) = as_complex (timesr x)) -> (forall x, trans (as_complex x) = as_complex (transr x)) ->
  same_run (cfom_lasso times trans (as_complex b) q (as_complex x0) opt fuel) (fom_lasso timesr transr b q x0 opt fuel) /\
  same_run (cfom_l1rls times trans (as_complex b) q (as_complex x0) opt fuel) (fom_l1rls timesr transr b q x0 opt fuel).
Proof.
  intros HA HT. unfold cfom_lasso, fom_lasso, cfom_l1rls, fom_l1rls. rewrite CxBpProofs2.emb_opp.
  rewrite (@em_frun csmooth_quad (cprox_l1_ball q) times trans (smooth_quad_matrix None None None) (prox_l1_ball q) timesr transr (ropp b) opt em_quad (em_ball_func q) (em_ball_vec q) HA HT x0 fuel).
  rewrite (@em_frun csmooth_quad (cprox_l1 q) times trans (smooth_quad_matrix None None None) (prox_l1 q) timesr transr (ropp b) opt em_quad (em_l1_func q) (em_l1_vec q) HA HT x0 fuel).
  split; unfold same_run.
  - destruct (fom _ (prox_l1_ball q) _ _ _ _ _ _) as [s| |]; auto. exists (em_fom s). split; [reflexivity|]. repeat split.
  - destruct (fom _ (prox_l1 q) _ _ _ _ _ _) as [s| |]; auto. exists (em_fom s). split; [reflexivity|]. repeat split.
Qed.
Print Assumptions C103_real_data.

(** C103: which element types the loop accepts: a complex start, or only real
    arguments.  In particular complex data with a real start, such as zeros, raise. *)
Theorem C103_types ta tb tx : fom_accepts ta tb tx <-> tx = ComplexArr \/ (ta = RealArr /\ tb = RealArr).
Proof.
  unfold fom_accepts. destruct ta, tb, tx; cbn; split; intros H; auto; try (right; split; reflexivity); try discriminate; try reflexivity;
    destruct H as [H|[H1 H2]]; discriminate.
Qed.
Print Assumptions C103_types.
Theorem C103_real_start_refuted : ~ fom_accepts ComplexArr RealArr RealArr /\ ~ fom_accepts RealArr ComplexArr RealArr.
Proof. split; intros H; apply C103_types in H; destruct H as [H|[H1 H2]]; discriminate. Qed.
Print Assumptions C103_real_start_refuted.

(** multiplication by i, the options and a start meet the hypotheses *)
Example C103_nonvacuous : is_adjoint 1 1 (vscale ((0, 1) : Cs)) (vscale ((0, -1) : Cs)) /\
  cfom_options_ok (FomOptions 100 (1 / 1000) 1 (Some 1) 1 (1 / 2)) /\ ccapable 1 (fun _ => True) (fun z => 2 * cl1 z) (cprox_l1 2) /\ csmooth_ok 1 csmooth_quad /\
  (forall x, length x = 1%nat -> cnsq (vscale ((0, 1) : Cs) x) <= 1 * cnsq x).
Proof.
  split. { split; [intros x Hx; unfold vscale; now rewrite map_length|]. split; [intros x Hx; unfold vscale; now rewrite map_length|].
    intros [|[a c] [|? ?]] [|[d e] [|? ?]] H1 H2; try discriminate. cbn. unfold Cadd, Cmul, Cconj. cbn. apply (f_equal2 pair); ring. }
  split. { unfold cfom_options_ok. cbn. split; [lra|]. split; [lra|]. split; [lra|]. intros e He. injection He as <-. lra. }
  split; [apply capable_cl1; lra|]. split; [split; auto|]. intros [|[a c] [|? ?]] H; try discriminate. unfold cnsq. cbn. unfold Cnsq, Cmul. cbn. nra.
Qed.
