(** Properties of the first order method driver (properties C45, C67). *)
From Coq Require Import List Arith Bool Lia Reals Lra Psatz.
From Verif Require Import Vec RVec RMat Loop LoopLemmas SolverSpec SolverLemmas XReal OptSpec OptModel OptProofs OptProofs2 OptProofs3 OptProofs3 SpgSpec FomSpec FomModel ScdModel ScdProofs FomProofs FomProofs2.
Import ListNotations.
Set Implicit Arguments.
Local Open Scope R_scope.

(** admissible options *)
Definition fom_options_ok (opt : fom_options) : Prop :=
  0 < fo_alpha opt <= 1 /\ 0 < fo_beta opt /\ 0 < fo_L0 opt /\ forall e, fo_Lexact opt = Some e -> fo_L0 opt <= e.
(** f returns its gradient and value consistently *)
Definition smooth_ok (m : nat) (f : smooth) : Prop :=
  (forall u, sgrad_val f u = (sgrad f u, sfunc f u)) /\ forall u, length u = m -> length (sgrad f u) = m.

(** the run starts; every state it reaches has feasible points, consistent cached
    products, gradients and values, and theta in (0,1] *)
Theorem C45_invariants n m f h times trans b opt dom hv x0 :
  adjoint_ops n m times trans -> length b = m -> smooth_ok m f -> convex_set n dom -> capable n dom hv h -> fom_options_ok opt -> length x0 = n ->
  exists s1, fom_first f h times trans b opt x0 = Some s1 /\
  forall k s, reaches (fom_cond opt) (fom_body f h times trans b opt) s1 k s ->
    dom (fm_x s) /\ dom (fm_y s) /\ dom (fm_z s) /\ length (fm_x s) = n /\
    fm_Ax s = times (fm_x s) /\ fm_Ay s = times (fm_y s) /\ fm_Az s = times (fm_z s) /\
    fm_fx s = sfunc f (radd (times (fm_x s)) b) /\ fm_gAx s = sgrad f (radd (times (fm_x s)) b) /\
    fm_fy s = sfunc f (radd (times (fm_y s)) b) /\ fm_gAy s = sgrad f (radd (times (fm_y s)) b) /\
    fm_Cz s = Fin (hv (fm_z s)) /\ 0 < fm_L s /\ fm_iterations s = S k /\ exists t, fm_theta s = Some t /\ 0 < t <= 1.
Proof.
  intros Ha Lb [Hv Hl] Hd Hc (O1 & O2 & O3 & O4) Lx.
  destruct (@init_okc n f h times b opt dom hv Hv Hc O3 O4 x0 Lx) as (s0 & E0 & I0 & _ & _ & _ & _ & It0).
  destruct (@body_okc n m f h times trans b opt dom hv Ha Lb Hv Hl Hd Hc O1 O4 s0 I0) as [s1 [E1 [I1 Q]]].
  exists s1. split; [unfold fom_first; now rewrite E0|]. intros k s H.
  destruct (@reach_okc n m f h times trans b opt dom hv Ha Lb Hv Hl Hd Hc O1 O4 s1 k s I1 H) as [I It].
  cbv zeta in Q. destruct Q as (Th & _ & _ & _ & _ & It1 & _).
  assert (T : exists t, fm_theta s = Some t).
  { destruct H as [|k s s' H Cd Bd]; [eauto|]. destruct (@reach_okc n m f h times trans b opt dom hv Ha Lb Hv Hl Hd Hc O1 O4 s1 k s I1 H) as [Is _].
    destruct (@body_okc n m f h times trans b opt dom hv Ha Lb Hv Hl Hd Hc O1 O4 s Is) as [s2 [E2 [_ Q2]]]. rewrite Bd in E2. injection E2 as <-. cbv zeta in Q2. destruct Q2 as [Q2 _]. eauto. }
  destruct I as (PL & He & Ht & Lx' & Dx & Lz & Dz & Ly & Dy & Q1 & Q2 & Q3 & Q4 & Q5 & Q6 & Q7 & Q8 & Q9).
  repeat (split; [assumption|]). split; [rewrite It, It1, It0; lia|]. destruct T as [t T]. exists t. auto.
Qed.
Print Assumptions C45_invariants.
(** the run ends, having iterated at most max(1, max_iters) times, by the budget or by the tolerance *)
Theorem C45_terminates n m f h times trans b opt dom hv x0 fuel :
  adjoint_ops n m times trans -> length b = m -> smooth_ok m f -> convex_set n dom -> capable n dom hv h -> fom_options_ok opt -> length x0 = n ->
  (fo_max_iters opt <= fuel)%nat ->
  exists s, fom f h times trans b opt x0 fuel = Done s /\ dom (fm_x s) /\ fm_Ax s = times (fm_x s) /\ (1 <= fm_iterations s <= Nat.max 1 (fo_max_iters opt))%nat /\
    (fm_iterations s = Nat.max 1 (fo_max_iters opt) \/ fm_norm_dx s < fo_tol opt * Rmax (nrm (fm_x s)) 1).
Proof.
  intros Ha Lb Sm Hd Hc Ho Lx Hf. destruct (@C45_invariants n m f h times trans b opt dom hv x0 Ha Lb Sm Hd Hc Ho Lx) as [s1 [E1 R1]]. destruct Sm as [Hv Hl]. destruct Ho as (O1 & O2 & O3 & O4).
  destruct (@first_okc n m f h times trans b opt dom hv Ha Lb Hv Hl Hd Hc O1 O3 O4 x0 Lx) as (s0 & s1' & _ & E1' & _ & _ & I1). rewrite E1 in E1'. injection E1' as <-.
  unfold fom. rewrite E1.
  assert (T : exists s, while_ (fom_cond opt) (fom_body f h times trans b opt) fuel s1 = Done s).
  { apply while_total.
    - intros k s H _. destruct (@reach_okc n m f h times trans b opt dom hv Ha Lb Hv Hl Hd Hc O1 O4 s1 k s I1 H) as [Is _].
      destruct (@body_okc n m f h times trans b opt dom hv Ha Lb Hv Hl Hd Hc O1 O4 s Is) as [s2 [E2 _]]. rewrite E2. discriminate.
    - intros k s H Cd. destruct (R1 _ _ H) as (_ & _ & _ & _ & _ & _ & _ & _ & _ & _ & _ & _ & _ & It & _). unfold fom_cond in Cd.
      apply andb_true_iff in Cd as [Cd _]. apply Nat.ltb_lt in Cd. lia. }
  destruct T as [s T]. exists s. split; auto. apply while_done in T as [j [Hj [Hr Hc2]]].
  destruct (@reach_okc n m f h times trans b opt dom hv Ha Lb Hv Hl Hd Hc O1 O4 s1 j s I1 Hr) as [Is _].
  destruct (R1 _ _ Hr) as (D & _ & _ & _ & Ax & _ & _ & _ & _ & _ & _ & _ & _ & It & _). split; [auto|]. split; [auto|].
  assert (Bd : (fm_iterations s <= Nat.max 1 (fo_max_iters opt))%nat).
  { destruct Hr as [|j s s' Hr Cd Bd]; [lia|]. destruct (R1 _ _ Hr) as (_ & _ & _ & _ & _ & _ & _ & _ & _ & _ & _ & _ & _ & It' & _).
    unfold fom_cond in Cd. apply andb_true_iff in Cd as [Cd _]. apply Nat.ltb_lt in Cd. lia. }
  split; [lia|]. unfold fom_cond in Hc2. apply andb_false_iff in Hc2 as [Q|Q]; [left; apply Nat.ltb_ge in Q; lia|right].
  apply Rleb_false in Q. replace (nrm (fm_x s)) with (fm_norm_x s) by apply Is. exact Q.
Qed.
Print Assumptions C45_terminates.
(** the accelerated O(1/k^2) rate, for a known Lipschitz constant L0 = Lexact and alpha = 1 *)
Theorem C45_rate n m f h times trans b opt dom hv x0 s1 k s u :
  adjoint_ops n m times trans -> length b = m -> smooth_ok m f -> first_order_convex m (sfunc f) (sgrad f) ->
  lipschitz_after n m (sfunc f) (sgrad f) times b (fo_L0 opt) ->
  convex_set n dom -> convex_on n dom hv -> capable n dom hv h -> fom_options_ok opt ->
  fo_alpha opt = 1 -> fo_Lexact opt = Some (fo_L0 opt) -> length x0 = n -> dom x0 ->
  length u = n -> dom u -> (forall v, length v = n -> dom v -> composite (sfunc f) times b hv u <= composite (sfunc f) times b hv v) ->
  fom_first f h times trans b opt x0 = Some s1 -> reaches (fom_cond opt) (fom_body f h times trans b opt) s1 k s ->
  composite (sfunc f) times b hv (fm_x s) - composite (sfunc f) times b hv u <= 2 * fo_L0 opt * nrm2 (rsub x0 u) / INR (fm_iterations s + 1) ^ 2.
Proof.
  intros Ha Lb [Hv Hl] Hfc HL Hd Hh Hc (O1 & O2 & O3 & O4) A1 E1 Lx Dx Lu Du Mu Ef H.
  destruct (@rate n m f h times trans b opt dom hv Ha Lb Hv Hl Hd (capable_sound Hc) O1 O3 O4 Hh Hfc A1 E1 x0 s1 k s u Lx HL Ef H Lu Du Mu) as [z0 [Ez Q]].
  destruct (@init_okc n f h times b opt dom hv Hv Hc O3 O4 x0 Lx) as (s0 & E0 & _ & _ & _ & _ & Ex & _).
  rewrite (Ez _ E0), (Ex Dx) in Q. exact Q.
Qed.
Print Assumptions C45_rate.
(** for any options, an a-posteriori certificate from the reported L and theta, provided
    every step satisfied the quadratic upper bound with the constant it used *)
Theorem C45_certificate n m f h times trans b opt dom hv x0 s0 s1 k s u :
  adjoint_ops n m times trans -> length b = m -> smooth_ok m f -> first_order_convex m (sfunc f) (sgrad f) ->
  convex_set n dom -> convex_on n dom hv -> capable n dom hv h -> fom_options_ok opt -> length x0 = n -> dom x0 ->
  length u = n -> dom u -> (forall v, length v = n -> dom v -> composite (sfunc f) times b hv u <= composite (sfunc f) times b hv v) ->
  fom_init f h times b opt x0 = Some s0 -> fom_body f h times trans b opt s0 = Some s1 ->
  reaches (fom_cond opt) (fom_body f h times trans b opt) s1 k s ->
  (forall a c, (a = s0 \/ exists j, (j < k)%nat /\ reaches (fom_cond opt) (fom_body f h times trans b opt) s1 j a) -> fom_body f h times trans b opt a = Some c ->
     fm_fx c <= fm_fy c + rdot (fm_gy c) (rsub (fm_x c) (fm_y c)) + fo_alpha opt * fm_L a / 2 * nrm2 (rsub (fm_x c) (fm_y c))) ->
  exists t, fm_theta s = Some t /\
    composite (sfunc f) times b hv (fm_x s) - composite (sfunc f) times b hv u <= t ^ 2 * fm_L s / 2 * nrm2 (rsub x0 u).
Proof.
  intros Ha Lb [Hv Hl] Hfc Hd Hh Hc (O1 & O2 & O3 & O4) Lx Dx Lu Du Mu E0 E1 H Gs.
  assert (Ef : fom_first f h times trans b opt x0 = Some s1) by (unfold fom_first; now rewrite E0).
  destruct (@certificate n m f h times trans b opt dom hv Ha Lb Hv Hl Hd (capable_sound Hc) O1 O3 O4 Hh Hfc x0 s1 k s u Lx Ef H) as (t & z0 & L & Et & Ez & HL & Q); auto.
  - intros q Hq. rewrite E0 in Hq. injection Hq as <-. apply Gs; auto.
  - intros j a c Hj Ha' Hb. apply Gs; eauto.
  - exists t. split; auto. destruct (@init_okc n f h times b opt dom hv Hv Hc O3 O4 x0 Lx) as (s0' & E0' & _ & _ & _ & _ & Ex & _).
    rewrite E0 in E0'. injection E0' as <-. rewrite (Ez _ E0), (Ex Dx) in Q.
    pose proof (rdot_pos (rsub (fm_z s) u)) as P1. fold (nrm2 (rsub (fm_z s) u)) in P1. pose proof (rdot_pos (rsub x0 u)) as P2. fold (nrm2 (rsub x0 u)) in P2.
    pose proof (pow2_ge_0 t) as P3. assert (0 <= t ^ 2 * L / 2 * nrm2 (rsub (fm_z s) u)) by (apply Rmult_le_pos; [nra|auto]).
    assert (t ^ 2 * L / 2 * nrm2 (rsub x0 u) <= t ^ 2 * fm_L s / 2 * nrm2 (rsub x0 u)) by (apply Rmult_le_compat_r; [auto|nra]). lra.
Qed.
Print Assumptions C45_certificate.
(** lasso: minimise 1/2 |A x - b|^2 over the l1 ball; every iterate is in the ball, and
    the objective converges at the accelerated rate *)
Theorem C45_lasso n m times trans b tau opt x0 L u fuel : adjoint_ops n m times trans -> length b = m -> 0 <= tau ->
  0 < L -> (forall x, length x = n -> nrm2 (times x) <= L * nrm2 x) ->
  0 < fo_beta opt -> fo_alpha opt = 1 -> fo_L0 opt = L -> fo_Lexact opt = Some L ->
  length x0 = n -> nrm1 x0 <= tau -> (fo_max_iters opt <= fuel)%nat ->
  length u = n -> nrm1 u <= tau -> (forall v, length v = n -> nrm1 v <= tau -> / 2 * nrm2 (rsub (times u) b) <= / 2 * nrm2 (rsub (times v) b)) ->
  exists s, fom_lasso times trans b tau x0 opt fuel = Done s /\ nrm1 (fm_x s) <= tau /\
    / 2 * nrm2 (rsub (times (fm_x s)) b) - / 2 * nrm2 (rsub (times u) b) <= 2 * L * nrm2 (rsub x0 u) / INR (fm_iterations s + 1) ^ 2.
Proof.
  intros Ha Lb Ht PL HL Hbt Hal E0 EL Lx Nx Hf Lu Nu Mu.
  assert (Ho : fom_options_ok opt). { unfold fom_options_ok. rewrite Hal, E0, EL. split; [lra|]. split; [auto|]. split; [auto|]. intros e E. injection E as <-. lra. }
  assert (Sm : smooth_ok m (smooth_quad_matrix None None None)) by (split; auto).
  assert (Lob : length (ropp b) = m) by vl.
  assert (Cmp : forall v, length v = n -> composite (sfunc (smooth_quad_matrix None None None)) times (ropp b) (fun _ => 0) v = / 2 * nrm2 (rsub (times v) b)).
  { intros v Lv. assert (length (times v) = m) by (apply Ha; auto). unfold composite. cbn. replace (radd (times v) (ropp b)) with (rsub (times v) b) by veq. unfold nrm2. ring. }
  destruct (@C45_terminates n m (smooth_quad_matrix None None None) (prox_l1_ball tau) times trans (ropp b) opt (fun y => nrm1 y <= tau) (fun _ => 0) x0 fuel Ha Lob Sm (@ball_convex n tau) (@capable_l1_ball n tau Ht) Ho Lx Hf) as (s & E & D & _).
  exists s. split; [exact E|]. split; [auto|]. unfold fom in E. destruct (fom_first _ _ _ _ _ _ _) as [s1|] eqn:E1; [|discriminate].
  apply while_done in E as [j [_ [Hr _]]]. destruct (@C45_invariants n m (smooth_quad_matrix None None None) (prox_l1_ball tau) times trans (ropp b) opt (fun y => nrm1 y <= tau) (fun _ => 0) x0 Ha Lob Sm (@ball_convex n tau) (@capable_l1_ball n tau Ht) Ho Lx) as [s1' [E1' R1]]. rewrite E1 in E1'. injection E1' as <-.
  assert (Ls : length (fm_x s) = n) by apply (R1 _ _ Hr).
  pose proof (@C45_rate n m _ (prox_l1_ball tau) times trans (ropp b) opt (fun y => nrm1 y <= tau) (fun _ => 0) x0 s1 j s u Ha Lob Sm (@quad_convex m)) as Q.
  rewrite E0 in Q. rewrite !Cmp in Q by auto. apply Q; auto.
  - apply quad_lipschitz with trans; auto.
  - apply ball_convex.
  - apply zero_convex.
  - now apply capable_l1_ball.
  - intros v Lv Dv. rewrite !Cmp by auto. auto.
Qed.
Print Assumptions C45_lasso.
(** l1-regularised least squares *)
Theorem C45_l1rls n m times trans b lambda_ opt x0 L u fuel : adjoint_ops n m times trans -> length b = m -> 0 < lambda_ ->
  0 < L -> (forall x, length x = n -> nrm2 (times x) <= L * nrm2 x) ->
  0 < fo_beta opt -> fo_alpha opt = 1 -> fo_L0 opt = L -> fo_Lexact opt = Some L ->
  length x0 = n -> (fo_max_iters opt <= fuel)%nat ->
  length u = n -> (forall v, length v = n -> / 2 * nrm2 (rsub (times u) b) + lambda_ * nrm1 u <= / 2 * nrm2 (rsub (times v) b) + lambda_ * nrm1 v) ->
  exists s, fom_l1rls times trans b lambda_ x0 opt fuel = Done s /\
    (/ 2 * nrm2 (rsub (times (fm_x s)) b) + lambda_ * nrm1 (fm_x s)) - (/ 2 * nrm2 (rsub (times u) b) + lambda_ * nrm1 u) <= 2 * L * nrm2 (rsub x0 u) / INR (fm_iterations s + 1) ^ 2.
Proof.
  intros Ha Lb Ht PL HL Hbt Hal E0 EL Lx Hf Lu Mu.
  assert (Ho : fom_options_ok opt). { unfold fom_options_ok. rewrite Hal, E0, EL. split; [lra|]. split; [auto|]. split; [auto|]. intros e E. injection E as <-. lra. }
  assert (Sm : smooth_ok m (smooth_quad_matrix None None None)) by (split; auto).
  assert (Lob : length (ropp b) = m) by vl.
  assert (Cmp : forall v, length v = n -> composite (sfunc (smooth_quad_matrix None None None)) times (ropp b) (fun z => lambda_ * nrm1 z) v = / 2 * nrm2 (rsub (times v) b) + lambda_ * nrm1 v).
  { intros v Lv. assert (length (times v) = m) by (apply Ha; auto). unfold composite. cbn. replace (radd (times v) (ropp b)) with (rsub (times v) b) by veq. unfold nrm2. ring. }
  destruct (@C45_terminates n m (smooth_quad_matrix None None None) (prox_l1 lambda_) times trans (ropp b) opt everywhere (fun z => lambda_ * nrm1 z) x0 fuel Ha Lob Sm (@everywhere_convex n) (@capable_l1 n lambda_ Ht) Ho Lx Hf) as (s & E & D & _).
  exists s. split; [exact E|]. unfold fom in E. destruct (fom_first _ _ _ _ _ _ _) as [s1|] eqn:E1; [|discriminate].
  apply while_done in E as [j [_ [Hr _]]]. destruct (@C45_invariants n m (smooth_quad_matrix None None None) (prox_l1 lambda_) times trans (ropp b) opt everywhere (fun z => lambda_ * nrm1 z) x0 Ha Lob Sm (@everywhere_convex n) (@capable_l1 n lambda_ Ht) Ho Lx) as [s1' [E1' R1]]. rewrite E1 in E1'. injection E1' as <-.
  assert (Ls : length (fm_x s) = n) by apply (R1 _ _ Hr).
  pose proof (@C45_rate n m _ (prox_l1 lambda_) times trans (ropp b) opt everywhere (fun z => lambda_ * nrm1 z) x0 s1 j s u Ha Lob Sm (@quad_convex m)) as Q.
  rewrite E0 in Q. rewrite !Cmp in Q by auto. apply Q; auto.
  all: try exact I.
  - apply quad_lipschitz with trans; auto.
  - apply everywhere_convex.
  - apply l1_convex; lra.
  - now apply capable_l1.
  - intros v Lv Dv. rewrite !Cmp by auto. auto.
Qed.
Print Assumptions C45_l1rls.
(** the value C_x reported for h at x is never updated: it stays that of the starting point *)
Theorem C45_stale_value n m f h times trans b opt dom hv x0 s0 s1 k s :
  adjoint_ops n m times trans -> length b = m -> smooth_ok m f -> convex_set n dom -> capable n dom hv h -> fom_options_ok opt -> length x0 = n ->
  fom_init f h times b opt x0 = Some s0 -> fom_body f h times trans b opt s0 = Some s1 ->
  reaches (fom_cond opt) (fom_body f h times trans b opt) s1 k s -> fm_Cx s = fm_Cx s0.
Proof.
  intros Ha Lb [Hv Hl] Hd Hc (O1 & O2 & O3 & O4) Lx E0 E1 H.
  destruct (@init_okc n f h times b opt dom hv Hv Hc O3 O4 x0 Lx) as (s0' & E0' & I0 & _). rewrite E0 in E0'. injection E0' as <-.
  assert (St : forall a c, fom_inv n f times b opt dom hv a -> fom_body f h times trans b opt a = Some c -> fom_inv n f times b opt dom hv c /\ fm_Cx c = fm_Cx a).
  { intros a c Ia Hb. destruct (@body_okc n m f h times trans b opt dom hv Ha Lb Hv Hl Hd Hc O1 O4 a Ia) as [c' [Ec [Ic Q]]]. rewrite Hb in Ec. injection Ec as <-. split; auto. apply Q. }
  assert (P : fom_inv n f times b opt dom hv s /\ fm_Cx s = fm_Cx s0); [|apply P].
  induction H as [|k s s' H [IH1 IH2] Cd Bd]; [now apply St|]. destruct (St _ _ IH1 Bd) as [A B]. split; [auto|congruence].
Qed.
Print Assumptions C45_stale_value.
Example C45_nonvacuous : exists n m times trans b opt L x0, adjoint_ops n m times trans /\ length b = m /\ fom_options_ok opt /\
  (forall x, length x = n -> nrm2 (times x) <= L * nrm2 x) /\ fo_L0 opt = L /\ fo_Lexact opt = Some L /\ fo_alpha opt = 1 /\ length x0 = n /\ nrm1 x0 <= 1 /\
  exists s, fom_first (smooth_quad_matrix None None None) (prox_l1_ball 1) times trans b opt x0 = Some s.
Proof.
  exists 1%nat, 1%nat, (fun x => rscale 2 x), (fun x => rscale 2 x), [1], (FomOptions 10 0 4 (Some 4) 1 (1/2)), 4, [1/2].
  assert (Ha : adjoint_ops 1 1 (fun x => rscale 2 x) (fun x => rscale 2 x)).
  { assert (Hl : linear_op 1 1 (fun x => rscale 2 x)). { split; [intros; vl|]. split; [intros; veq|intros; veq]. }
    split; [auto|]. split; [auto|]. intros x y Lx Ly. now rewrite rdot_scale_l, rdot_scale_r. }
  assert (Ho : fom_options_ok (FomOptions 10 0 4 (Some 4) 1 (1/2))). { unfold fom_options_ok. cbn. split; [lra|]. split; [lra|]. split; [lra|]. intros e E. injection E as <-. lra. }
  split; [auto|]. split; [reflexivity|]. split; [auto|]. split.
  { intros x Lx. unfold nrm2. rewrite rdot_scale_l, rdot_scale_r. lra. }
  split; [reflexivity|]. split; [reflexivity|]. split; [reflexivity|]. split; [reflexivity|]. split. { cbn. rewrite Rabs_right by lra. lra. }
  destruct (@C45_invariants 1 1 (smooth_quad_matrix None None None) (prox_l1_ball 1) _ _ [1] (FomOptions 10 0 4 (Some 4) 1 (1/2)) (fun y => nrm1 y <= 1) (fun _ => 0) [1/2] Ha) as [s [E _]]; eauto.
  - split; auto.
  - apply ball_convex.
  - apply capable_l1_ball; lra.
Qed.

(** ** C67: the smoothed dual of a prox-capable function *)
(** minus the reported value is the maximum of <w,u> - f(u) - |u - x0|^2 / (2 mu), attained
    at the reported proximal point, and the reported gradient is the gradient *)
Theorem C67_smooth_dual n dom f prox mu x0 w : convex_set n dom -> convex_on n dom f ->
  (forall v t, length v = n -> 0 < t -> unique_minimiser n dom (prox_obj f t v) (prox v t)) -> 0 < mu -> length x0 = n -> length w = n ->
  conjugate_at n dom f (/ mu) x0 w (ropp (sgrad (smooth_dual f prox mu x0) w)) (- sfunc (smooth_dual f prox mu x0) w) /\
  is_gradient n (sfunc (smooth_dual f prox mu x0)) w (sgrad (smooth_dual f prox mu x0) w) /\
  sgrad_val (smooth_dual f prox mu x0) w = (sgrad (smooth_dual f prox mu x0) w, sfunc (smooth_dual f prox mu x0) w).
Proof.
  intros Hd Hf Hp Hmu Lx Lw. split; [|split; [now apply dual_gradient with dom|reflexivity]].
  assert (E : ropp (sgrad (smooth_dual f prox mu x0) w) = prox (radd x0 (rscale mu w)) mu).
  { cbn. unfold ropp. rewrite map_map. rewrite <- (map_id (prox _ _)) at 2. apply map_ext. intros. ring. }
  rewrite E. now apply dual_conj.
Qed.
Print Assumptions C67_smooth_dual.
(** its gradient is Lipschitz with constant mu along every pair of points *)
Theorem C67_lipschitz n dom f prox mu x0 w w' : convex_set n dom -> convex_on n dom f ->
  (forall v t, length v = n -> 0 < t -> unique_minimiser n dom (prox_obj f t v) (prox v t)) -> 0 < mu -> length x0 = n -> length w = n -> length w' = n ->
  Rabs (rdot (rsub (sgrad (smooth_dual f prox mu x0) w) (sgrad (smooth_dual f prox mu x0) w')) (rsub w w')) <= mu * nrm2 (rsub w w').
Proof.
  intros Hd Hf Hp Hmu Lx Lw Lw'. pose proof (@dual_lip n dom f prox mu x0 Hd Hf Hp Hmu Lx w w' Lw Lw') as Q. cbn [sgrad smooth_dual].
  assert (L1 : length (prox (radd x0 (rscale mu w)) mu) = n) by (apply Hp; vl). assert (L2 : length (prox (radd x0 (rscale mu w')) mu) = n) by (apply Hp; vl).
  replace (rsub (ropp (prox (radd x0 (rscale mu w)) mu)) (ropp (prox (radd x0 (rscale mu w')) mu))) with (ropp (rsub (prox (radd x0 (rscale mu w)) mu) (prox (radd x0 (rscale mu w')) mu))) by veq.
  now rewrite rdot_opp_l, Rabs_Ropp.
Qed.
Print Assumptions C67_lipschitz.
(** the driver minimises this function, which requires it to be convex; it is concave *)
Theorem C67_concave n dom f prox mu x0 u v s : convex_set n dom -> convex_on n dom f ->
  (forall v t, length v = n -> 0 < t -> unique_minimiser n dom (prox_obj f t v) (prox v t)) -> 0 < mu -> length x0 = n ->
  length u = n -> length v = n -> 0 <= s <= 1 ->
  (1 - s) * sfunc (smooth_dual f prox mu x0) u + s * sfunc (smooth_dual f prox mu x0) v <= sfunc (smooth_dual f prox mu x0) (radd (rscale (1 - s) u) (rscale s v)).
Proof. exact (@dual_concave n dom f prox mu x0 u v s). Qed.
Print Assumptions C67_concave.
Theorem C67_convexity_refuted : exists n f prox mu x0,
  (forall v t, length v = n -> 0 < t -> unique_minimiser n everywhere (prox_obj f t v) (prox v t)) /\ 0 < mu /\ length x0 = n /\
  ~ convex n (sfunc (smooth_dual f prox mu x0)).
Proof.
  exists 1%nat, nrm1, shrink, 1, [0]. split; [|split; [lra|split; [reflexivity|exact dual_not_convex]]].
  intros v t Lv Ht. apply strong_min, strong_shrink; [lra|auto].
Qed.
Print Assumptions C67_convexity_refuted.
(** the documented smoothing term (mu/2)|x - x0|^2 is not the one used (it is 1/(2 mu)) *)
Theorem C67_smoothing_term_refuted : exists n f prox mu x0 w,
  (forall v t, length v = n -> 0 < t -> unique_minimiser n everywhere (prox_obj f t v) (prox v t)) /\ 0 < mu /\ length x0 = n /\ length w = n /\
  forall p, ~ conjugate_at n everywhere f mu x0 w p (- sfunc (smooth_dual f prox mu x0) w).
Proof.
  exists 1%nat, nrm1, shrink, 2, [0], [2]. split; [|split; [lra|split; [reflexivity|split; [reflexivity|exact dual_mu_wrong]]]].
  intros v t Lv Ht. apply strong_min, strong_shrink; [lra|auto].
Qed.
Print Assumptions C67_smoothing_term_refuted.

(** basis pursuit by the smoothed dual: for A = 1 and b = 2 the only feasible
    point is 2 for every smoothing; whatever the options, all points of the
    returned state, and the primal point the gradient stands for, are below it *)
Theorem C67_bp_scd_refuted : exists times trans b mu x0 z0, adjoint_ops 1 1 times trans /\ 0 < mu /\
  (forall u, length u = 1%nat -> times u = b -> u = [2]) /\
  forall opt fuel, 0 < fo_alpha opt -> 0 < fo_L0 opt -> (fo_max_iters opt <= fuel)%nat ->
  exists s, bp_scd times trans b mu x0 z0 opt fuel = Done s /\
    forall u, In u [fm_x s; fm_y s; fm_z s; ropp (fm_gAx s)] -> times u <> b.
Proof.
  exists (fun x => x), (fun x => x), [2], 1, [0], [0]. split; [|split; [lra|split; [auto|]]].
  - split; [|split]; [| |intros; reflexivity]; (split; [auto|split; [intros; reflexivity|intros; reflexivity]]).
  - intros opt fuel H1 H2 H3. destruct (bp_away opt fuel H1 H2 H3) as [s [E (x & y & z & g & Ex & Ey & Ez & Eg & Hx & Hy & Hz & Hg & _)]]. exists s. split; [exact E|].
    rewrite Ex, Ey, Ez, Eg. intros u [<-|[<-|[<-|[<-|[]]]]] Q; injection Q as Q; lra.
Qed.
Print Assumptions C67_bp_scd_refuted.
(** the Dantzig selector: points with |A^T (b - A x)|_inf <= delta exist, none of
    the returned points is one, for any delta < 2 *)
Theorem C67_dantzig_scd_refuted delta : 0 < delta < 2 -> exists times trans b mu x0 z0, adjoint_ops 1 1 times trans /\ 0 < mu /\
  (exists u, length u = 1%nat /\ forall i, Rabs (trans (rsub b (times u)))@i <= delta) /\
  forall opt fuel, 0 < fo_alpha opt -> 0 < fo_L0 opt -> (fo_max_iters opt <= fuel)%nat ->
  exists s, dantzig_scd times trans b delta mu x0 z0 opt fuel = Done s /\
    forall u, In u [fm_x s; fm_y s; fm_z s; ropp (fm_gAx s)] -> ~ forall i, Rabs (trans (rsub b (times u)))@i <= delta.
Proof.
  intros Hd. exists (fun x => x), (fun x => x), [2], 1, [0], [0]. split; [|split; [lra|split]].
  - split; [|split]; [| |intros; reflexivity]; (split; [auto|split; [intros; reflexivity|intros; reflexivity]]).
  - exists [2]. split; [reflexivity|]. intros [|[|i]]; cbn; rewrite ?Rminus_diag_eq by reflexivity; rewrite Rabs_R0; lra.
  - intros opt fuel H1 H2 H3. destruct (dantzig_away delta opt fuel (proj1 Hd) H1 H2 H3) as [s [E (x & y & z & g & Ex & Ey & Ez & Eg & Hx & Hy & Hz & Hg & _)]]. exists s. split; [exact E|].
    rewrite Ex, Ey, Ez, Eg. intros u [<-|[<-|[<-|[<-|[]]]]] Q; specialize (Q 0%nat); cbn in Q; rewrite Rabs_right in Q by lra; lra.
Qed.
Print Assumptions C67_dantzig_scd_refuted.
