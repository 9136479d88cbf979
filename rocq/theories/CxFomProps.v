(** Properties of the first order method on complex data (property C103). *)
From Coq Require Import List Arith Bool Lia Reals Lra Psatz.
From Verif Require Import Scalar Vec RVec RMat Loop LoopLemmas XReal SolverSpec SolverLemmas LopModel LopSpec OptSpec OptModel OptProofs SpgSpec FomSpec FomModel FomProofs FomProofs2 FomProps CxSpec CxModel CxProofs CxProofs2 CxSpglModel CxFomModel CxFomSpec CxFomProofs.
Import ListNotations.
Set Implicit Arguments.
Unset Strict Implicit.
Local Open Scope R_scope.

(** C103: the run starts; every state it reaches has points in the domain,
    consistent cached products, gradients and values, and theta in (0,1]. *)
Theorem C103_invariants n m f h (times trans : cvec -> cvec) b opt dom hv x0 :
  is_adjoint m n times trans -> length b = m -> csmooth_ok m f -> cconvex_set n dom -> ccapable n dom hv h -> cfom_options_ok opt -> length x0 = n ->
  exists s1, cfom_first f h times trans b opt x0 = Some s1 /\
  forall k s, reaches (cfom_cond opt) (cfom_body f h times trans b opt) s1 k s ->
    dom (cfm_x s) /\ dom (cfm_y s) /\ dom (cfm_z s) /\ length (cfm_x s) = n /\
    cfm_Ax s = times (cfm_x s) /\ cfm_Ay s = times (cfm_y s) /\ cfm_Az s = times (cfm_z s) /\
    cfm_fx s = cs_func f (vadd (times (cfm_x s)) b) /\ cfm_gAx s = cs_grad f (vadd (times (cfm_x s)) b) /\
    cfm_fy s = cs_func f (vadd (times (cfm_y s)) b) /\ cfm_gAy s = cs_grad f (vadd (times (cfm_y s)) b) /\
    cfm_Cz s = Fin (hv (cfm_z s)) /\ 0 < cfm_L s /\ cfm_iterations s = S k /\ exists t, cfm_theta s = Some t /\ 0 < t <= 1.
Proof.
  intros Ha Lb Hf Hd Hc Ho Lx.
  destruct (@C45_invariants (2 * n) (2 * m) (lsm f) (lpx h) (lift times) (lift trans) (flat b) opt (ldom dom) (lift_f hv) (flat x0)
    (lift_adjoint Ha) ltac:(rewrite flat_len; lia) (l_smooth Hf) (l_cset Hd) (l_capable Hc) Ho ltac:(rewrite flat_len; lia)) as (r1 & E1 & K).
  rewrite fl_first in E1. destruct (cfom_first f h times trans b opt x0) as [s1|]; [|discriminate]. injection E1 as <-.
  exists s1. split; [reflexivity|]. intros k s H. destruct (K _ _ (fl_freaches H)) as (H1 & H2 & H3 & H4 & H5 & H6 & H7 & H8 & H9 & H10 & H11 & H12 & H13).
  unfold ldom, lift_f in *. cbn [fl_fom fm_x fm_y fm_z fm_Ax fm_Ay fm_Az fm_fx fm_fy fm_gAx fm_gAy fm_Cz fm_L fm_iterations fm_theta lsm sfunc sgrad] in *.
  rewrite !unflat_flat in *. rewrite !lift_flat in *. rewrite <- ?flat_add in *. rewrite ?unflat_flat in *.
  apply flat_inj in H5, H6, H7, H9, H11. rewrite flat_len in H4.
  repeat (split; [first [assumption|lia]|]). exact H13.
Qed.
Print Assumptions C103_invariants.

(** C103: the solver ends, within the iteration limit, at a point of the domain. *)
Theorem C103_terminates n m f h (times trans : cvec -> cvec) b opt dom hv x0 fuel :
  is_adjoint m n times trans -> length b = m -> csmooth_ok m f -> cconvex_set n dom -> ccapable n dom hv h -> cfom_options_ok opt -> length x0 = n ->
  (fo_max_iters opt <= fuel)%nat ->
  exists s, cfom f h times trans b opt x0 fuel = Done s /\ dom (cfm_x s) /\ cfm_Ax s = times (cfm_x s) /\
    (1 <= cfm_iterations s <= Nat.max 1 (fo_max_iters opt))%nat /\
    (cfm_iterations s = Nat.max 1 (fo_max_iters opt) \/ cfm_norm_dx s < fo_tol opt * Rmax (cnorm (cfm_x s)) 1).
Proof.
  intros Ha Lb Hf Hd Hc Ho Lx Fu.
  destruct (@C45_terminates (2 * n) (2 * m) (lsm f) (lpx h) (lift times) (lift trans) (flat b) opt (ldom dom) (lift_f hv) (flat x0) fuel
    (lift_adjoint Ha) ltac:(rewrite flat_len; lia) (l_smooth Hf) (l_cset Hd) (l_capable Hc) Ho ltac:(rewrite flat_len; lia) Fu) as (r & E & K).
  rewrite fl_frun in E. destruct (cfom f h times trans b opt x0 fuel) as [s| |]; try discriminate. injection E as <-.
  exists s. split; [reflexivity|]. unfold ldom in K. cbn [fl_fom fm_x fm_Ax fm_iterations fm_norm_dx] in K. rewrite unflat_flat, lift_flat, flat_nrm in K.
  destruct K as (K1 & K2 & K3). apply flat_inj in K2. auto.
Qed.
Print Assumptions C103_terminates.

(** C103: with the exact Lipschitz constant the objective of iterate k is within
    2 L |x0 - u|^2 / (k+1)^2 of the minimum, attained at u. *)
Theorem C103_rate n m f h (times trans : cvec -> cvec) b opt (dom : cvec -> Prop) hv x0 s1 k s u :
  is_adjoint m n times trans -> length b = m -> csmooth_ok m f -> cfirst_order_convex m (cs_func f) (cs_grad f) ->
  clipschitz_after n m (cs_func f) (cs_grad f) times b (fo_L0 opt) ->
  cconvex_set n dom -> cconvex_on n dom hv -> ccapable n dom hv h -> cfom_options_ok opt ->
  fo_alpha opt = 1 -> fo_Lexact opt = Some (fo_L0 opt) -> length x0 = n -> dom x0 ->
  length u = n -> dom u -> (forall v, length v = n -> dom v -> ccomposite (cs_func f) times b hv u <= ccomposite (cs_func f) times b hv v) ->
  cfom_first f h times trans b opt x0 = Some s1 -> reaches (cfom_cond opt) (cfom_body f h times trans b opt) s1 k s ->
  ccomposite (cs_func f) times b hv (cfm_x s) - ccomposite (cs_func f) times b hv u <= 2 * fo_L0 opt * cnsq (vsub x0 u) / INR (cfm_iterations s + 1) ^ 2.
Proof.
  intros Ha Lb Hf Hfc HL Hd Hh Hc Ho A1 E1 Lx Dx Lu Du Mu Ef H.
  assert (Ef' : fom_first (lsm f) (lpx h) (lift times) (lift trans) (flat b) opt (flat x0) = Some (fl_fom s1)) by (rewrite fl_first, Ef; reflexivity).
  pose proof (@C45_rate (2 * n) (2 * m) (lsm f) (lpx h) (lift times) (lift trans) (flat b) opt (ldom dom) (lift_f hv) (flat x0) (fl_fom s1) k (fl_fom s) (flat u)
    (lift_adjoint Ha) ltac:(rewrite flat_len; lia) (l_smooth Hf) (l_foc Hfc (proj2 Hf)) (l_lip (adj_len Ha) Lb HL) (l_cset Hd) (l_con Hh) (l_capable Hc) Ho A1 E1
    ltac:(rewrite flat_len; lia) ltac:(unfold ldom; now rewrite unflat_flat) ltac:(rewrite flat_len; lia) ltac:(unfold ldom; now rewrite unflat_flat) (l_min Mu) Ef' (fl_freaches H)) as K.
  cbn [fl_fom fm_x fm_iterations] in K. rewrite !l_comp, <- flat_sub, flat_nrm2 in K. exact K.
Qed.
Print Assumptions C103_rate.

(** C103, l1 regularised least squares: the solver ends and its objective is within
    2 L |x0 - u|^2 / (k+1)^2 of the minimum, L a bound of the squared operator norm. *)
Theorem C103_l1rls n m (times trans : cvec -> cvec) b lambda_ opt x0 L u fuel : is_adjoint m n times trans -> length b = m -> 0 < lambda_ ->
  0 < L -> (forall x, length x = n -> cnsq (times x) <= L * cnsq x) ->
  0 < fo_beta opt -> fo_alpha opt = 1 -> fo_L0 opt = L -> fo_Lexact opt = Some L ->
  length x0 = n -> (fo_max_iters opt <= fuel)%nat ->
  length u = n -> (forall v, length v = n -> / 2 * cnsq (vsub (times u) b) + lambda_ * cl1 u <= / 2 * cnsq (vsub (times v) b) + lambda_ * cl1 v) ->
  exists s, cfom_l1rls times trans b lambda_ x0 opt fuel = Done s /\
    (/ 2 * cnsq (vsub (times (cfm_x s)) b) + lambda_ * cl1 (cfm_x s)) - (/ 2 * cnsq (vsub (times u) b) + lambda_ * cl1 u)
      <= 2 * L * cnsq (vsub x0 u) / INR (cfm_iterations s + 1) ^ 2.
Proof.
  intros Ha Lb Hl PL HL Hbt Hal E0 EL Lx Hf Lu Mu. set (f := csmooth_quad). set (h := cprox_l1 lambda_).
  assert (Ho : cfom_options_ok opt). { unfold cfom_options_ok. rewrite Hal, E0, EL. split; [lra|]. split; [auto|]. split; [auto|]. intros e E. injection E as <-. lra. }
  assert (Sm : csmooth_ok m f) by (split; auto).
  assert (Lob : length (vopp b) = m) by (unfold vopp; now rewrite map_length).
  assert (Lo : forall v, length v = n -> length (times v) = m) by (apply (adj_len Ha)).
  assert (Sub : forall v : cvec, length v = m -> vadd v (vopp b) = vsub v b).
  { intros v Lv. apply flat_inj. rewrite flat_add, flat_sub, CxSpglProofs2.flat_opp. pose proof (flat_len v). pose proof (flat_len b). veq. }
  assert (Fq : forall x, cs_func f x = / 2 * cnsq x) by (intros x; unfold f, csmooth_quad; cbn [cs_func]; now rewrite <- flat_dot, <- flat_nrm2).
  assert (Cmp : forall v, length v = n -> ccomposite (cs_func f) times (vopp b) (fun z => lambda_ * cl1 z) v = / 2 * cnsq (vsub (times v) b) + lambda_ * cl1 v).
  { intros v Lv. unfold ccomposite. rewrite Sub by auto. now rewrite Fq. }
  assert (Hd : cconvex_set n (fun _ => True)) by (intros x y t _ _ _ _ _; exact I).
  assert (Hcv : cconvex_on n (fun _ => True) (fun z => lambda_ * cl1 z)).
  { intros x y t Hx Hy _ _ Ht. pose proof (@cl1_convex n x y t Hx Hy Ht) as K. apply (Rmult_le_compat_l lambda_) in K; unfold cbetween; lra. }
  pose proof (@capable_cl1 n lambda_ Hl) as Hc.
  assert (Hfc : cfirst_order_convex m (cs_func f) (cs_grad f)).
  { intros p q Lp Lq. pose proof (@quad_convex (2 * m) (flat p) (flat q) ltac:(rewrite flat_len; lia) ltac:(rewrite flat_len; lia)) as K. cbn [sfunc sgrad quad smooth_quad_matrix build2] in K.
    rewrite <- flat_sub, !flat_dot in K. exact K. }
  assert (HLp : clipschitz_after n m (cs_func f) (cs_grad f) times (vopp b) (fo_L0 opt)).
  { intros x y Hx Hy. rewrite E0.
    pose proof (@quad_lipschitz (2 * n) (2 * m) (lift times) (lift trans) (flat (vopp b)) L (lift_adjoint Ha) ltac:(rewrite flat_len; lia) (lift_bound HL) (flat x) (flat y) ltac:(rewrite flat_len; lia) ltac:(rewrite flat_len; lia)) as K.
    cbn [sfunc sgrad quad smooth_quad_matrix build2] in K. rewrite !lift_flat, <- !flat_add, <- !flat_sub, !flat_dot, flat_nrm2 in K. exact K. }
  destruct (@C103_terminates n m f h times trans (vopp b) opt (fun _ => True) (fun z => lambda_ * cl1 z) x0 fuel Ha Lob Sm Hd Hc Ho Lx Hf) as (s & E & _).
  exists s. split; [exact E|].
  unfold cfom in E. destruct (cfom_first f h times trans (vopp b) opt x0) as [s1|] eqn:Ef; [|discriminate].
  apply while_done in E as [k [_ [H _]]].
  pose proof (@C103_rate n m f h times trans (vopp b) opt (fun _ => True) (fun z => lambda_ * cl1 z) x0 s1 k s u Ha Lob Sm Hfc HLp Hd Hcv Hc Ho Hal ltac:(rewrite E0; exact EL) Lx I Lu I) as Rt.
  destruct (@C103_invariants n m f h times trans (vopp b) opt (fun _ => True) (fun z => lambda_ * cl1 z) x0 Ha Lob Sm Hd Hc Ho Lx) as (s1' & Ef' & Iv). rewrite Ef in Ef'. injection Ef' as <-.
  destruct (Iv _ _ H) as (_ & _ & _ & Ls & _). rewrite !Cmp in Rt by auto. rewrite E0 in Rt. apply Rt; auto. intros v Lv _. rewrite !Cmp by auto. now apply Mu.
Qed.
Print Assumptions C103_l1rls.
