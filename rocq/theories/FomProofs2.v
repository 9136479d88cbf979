From Coq Require Import List Arith Bool Lia Reals Lra Psatz.
From Verif Require Import Vec RVec RMat Loop LoopLemmas SolverSpec SolverLemmas XReal OptSpec OptModel OptProofs OptProofs2 OptProofs3 OptProofs4 OptLemmas SpgSpec FomSpec FomModel FomProofs.
Import ListNotations.
Set Implicit Arguments.
Local Open Scope R_scope.

(** *** instances *)
Lemma nrm1_radd x y : length x = length y -> nrm1 (radd x y) <= nrm1 x + nrm1 y.
Proof.
  revert y. induction x as [|a x IH]; intros [|c y] H; try discriminate; cbn; [lra|]. injection H as H. specialize (IH y H).
  unfold radd in IH. cbn in IH. pose proof (Rabs_triang a c). unfold nrm1, radd, rlsum in *. cbn in *. lra.
Qed.
Lemma nrm1_rscale c x : nrm1 (rscale c x) = Rabs c * nrm1 x.
Proof. induction x as [|a x IH]; cbn; [ring|]. unfold rscale in IH. rewrite Rabs_mult. unfold nrm1 in *. cbn in *. rewrite IH. ring. Qed.
Lemma nrm1_comb n x y t : length x = n -> length y = n -> 0 <= t <= 1 -> nrm1 (radd x (rscale t (rsub y x))) <= (1 - t) * nrm1 x + t * nrm1 y.
Proof.
  intros Lx Ly Ht. replace (radd x (rscale t (rsub y x))) with (radd (rscale (1 - t) x) (rscale t y)) by veq.
  eapply Rle_trans; [apply nrm1_radd; vl|]. rewrite !nrm1_rscale, !Rabs_right by lra. lra.
Qed.
Lemma everywhere_convex n : convex_set n everywhere.
Proof. intros x y t _ _ _ _ _. exact I. Qed.
Lemma l1_convex n q : 0 <= q -> convex_on n everywhere (fun z => q * nrm1 z).
Proof. intros Hq x y t Lx Ly _ _ Ht. pose proof (@nrm1_comb n x y t Lx Ly Ht). nra. Qed.
Lemma ball_convex n q : convex_set n (fun y => nrm1 y <= q).
Proof. intros x y t Lx Ly Cx Cy Ht. pose proof (@nrm1_comb n x y t Lx Ly Ht). nra. Qed.
Lemma zero_convex n C : convex_on n C (fun _ => 0).
Proof. intros x y t _ _ _ _ _. lra. Qed.
Lemma capable_l1 n q : 0 < q -> capable n everywhere (fun z => q * nrm1 z) (prox_l1 q).
Proof.
  intros Hq. split.
  - intros x Lx. split; [|intros N; exfalso; apply N; exact I]. intros _. cbn. now rewrite nrm1_rscale, Rabs_right by lra.
  - intros v t Lv Ht. destruct (@prox_l1_full n q t v Hq Ht Lv) as [z [_ [U E]]]. exists z. auto.
Qed.
Lemma capable_l1_ball n q : 0 <= q -> capable n (fun y => nrm1 y <= q) (fun _ => 0) (prox_l1_ball q).
Proof.
  intros Hq. split.
  - intros x Lx. cbn. split.
    + intros H. apply ind_l1_spec in H. now rewrite H.
    + intros H. destruct (ind_l1_ball q x) eqn:E; [|reflexivity]. now apply ind_l1_spec in E.
  - intros v t Lv Ht. exists (proj_l1_ball q v). split; [reflexivity|]. pose proof (@vi_l1_ball n q Hq) as V. apply vi_projects in V.
    destruct (V v Lv) as [Lp [Cp [Mn [Un _]]]]. split; [auto|]. split; [auto|]. intros z Lz Cz. unfold prox_obj.
    specialize (Mn z Lz Cz). specialize (Un z Lz Cz). unfold dist in *. split.
    + apply dist_le_sq in Mn. rewrite (nrm2_sub_sym (proj_l1_ball q v) v), (nrm2_sub_sym z v) by congruence. lra.
    + intros H. apply Un. apply dist_le_sq. rewrite (nrm2_sub_sym (proj_l1_ball q v) v), (nrm2_sub_sym z v) in H by congruence. lra.
Qed.
Notation quad := (smooth_quad_matrix None None None).
Lemma quad_convex m : first_order_convex m (sfunc quad) (sgrad quad).
Proof.
  intros u v Lu Lv. cbn. pose proof (rdot_pos (rsub v u)) as P. rewrite (rdot_sub_l v u), !rdot_sub_r, (rdot_sym v u) in P by vl.
  rewrite rdot_sub_r by vl. lra.
Qed.
Lemma linear_sub n m A x y : linear_op n m A -> length x = n -> length y = n -> A (rsub x y) = rsub (A x) (A y).
Proof.
  intros [HA [Ha Hs]] Lx Ly. replace (rsub x y) with (radd x (rscale (-1) y)) by veq. rewrite Ha, Hs by vl.
  pose proof (HA _ Lx). pose proof (HA _ Ly). veq.
Qed.
Lemma quad_lipschitz n m times trans b L : adjoint_ops n m times trans -> length b = m -> (forall x, length x = n -> nrm2 (times x) <= L * nrm2 x) ->
  lipschitz_after n m (sfunc quad) (sgrad quad) times b L.
Proof.
  intros Hadj Lb HL x y Lx Ly. cbn. pose proof (HL (rsub x y) ltac:(vl)) as Q. rewrite (@linear_sub n m times x y (proj1 Hadj) Lx Ly) in Q.
  assert (L1 : length (times x) = m) by (apply Hadj; auto). assert (L2 : length (times y) = m) by (apply Hadj; auto).
  replace (rsub (times x) (times y)) with (rsub (radd (times x) b) (radd (times y) b)) in * by veq.
  set (u := radd (times x) b) in *. set (w := radd (times y) b) in *. assert (length u = m) by (unfold u; vl). assert (length w = m) by (unfold w; vl).
  unfold nrm2 in Q at 1. rewrite (rdot_sub_l u w), !rdot_sub_r, (rdot_sym w u) in Q by vl. rewrite rdot_sub_r by vl. rewrite (rdot_sym w u). lra.
Qed.

(** *** the smoothed dual function *)
Section Dual.
  Variables (n : nat) (dom : vec -> Prop) (f : vec -> R) (prox : vec -> R -> vec) (mu : R) (x0 : vec).
  Hypothesis Hdom : convex_set n dom.
  Hypothesis Hf : convex_on n dom f.
  Hypothesis Hp : forall v t, length v = n -> 0 < t -> unique_minimiser n dom (prox_obj f t v) (prox v t).
  Hypothesis Hmu : 0 < mu.
  Hypothesis Lx0 : length x0 = n.
  Notation P w := (prox (radd x0 (rscale mu w)) mu).
  Notation D := (smooth_dual f prox mu x0).
  Lemma dual_conj w : length w = n -> conjugate_at n dom f (/ mu) x0 w (P w) (- sfunc D w).
  Proof.
    intros Lw. destruct (@Hp (radd x0 (rscale mu w)) mu ltac:(vl) Hmu) as [Lp [Dp Mn]]. split; [auto|]. split; [auto|]. split.
    { cbn. field. lra. }
    intros u Lu Du. destruct (Mn u Lu Du) as [M _]. unfold prox_obj in M. cbn.
    assert (E : forall v, length v = n -> nrm2 (rsub v (radd x0 (rscale mu w))) = nrm2 (rsub v x0) - 2 * mu * (rdot w v - rdot w x0) + mu * mu * nrm2 w).
    { intros v Lv. replace (rsub v (radd x0 (rscale mu w))) with (rsub (rsub v x0) (rscale mu w)) by veq. unfold nrm2.
      rewrite (rdot_sub_l (rsub v x0) (rscale mu w)), !(rdot_sub_r _ (rsub v x0) (rscale mu w)), !rdot_scale_l, !rdot_scale_r, (rdot_sym (rsub v x0) w), (rdot_sub_r w v x0) by vl. ring. }
    rewrite !E in M by auto. set (p := P w) in *. apply Rmult_le_reg_l with mu; auto.
    replace (mu * (rdot w u - f u - / mu / 2 * nrm2 (rsub u x0))) with (mu * rdot w u - mu * f u - / 2 * nrm2 (rsub u x0)) by (field; lra).
    replace (mu * - - (rdot w p - f p - 1 / 2 / mu * nrm2 (rsub p x0))) with (mu * rdot w p - mu * f p - / 2 * nrm2 (rsub p x0)) by (field; lra). lra.
  Qed.
  Lemma prox_firm v v' : length v = n -> length v' = n -> nrm2 (rsub (prox v mu) (prox v' mu)) <= rdot (rsub (prox v mu) (prox v' mu)) (rsub v v').
  Proof.
    intros Lv Lv'. pose proof (@Hp v mu Lv Hmu) as U. pose proof (@Hp v' mu Lv' Hmu) as U'. set (p := prox v mu) in *. set (q := prox v' mu) in *.
    assert (Lp : length p = n) by apply U. assert (Lq : length q = n) by apply U'.
    pose proof (@prox3 n dom f mu v p q Hdom Hf Hmu Lv U Lq ltac:(apply U')) as A. pose proof (@prox3 n dom f mu v' q p Hdom Hf Hmu Lv' U' Lp ltac:(apply U)) as B.
    rewrite (nrm2_sub_sym q p) in A by congruence. unfold nrm2 in *.
    rewrite (rdot_sub_l p v), (rdot_sub_l q v), (rdot_sub_r p p v), (rdot_sub_r v p v), (rdot_sub_r q q v), (rdot_sub_r v q v) in A by vl.
    rewrite (rdot_sub_l q v'), (rdot_sub_l p v'), (rdot_sub_r q q v'), (rdot_sub_r v' q v'), (rdot_sub_r p p v'), (rdot_sub_r v' p v') in B by vl.
    rewrite (rdot_sub_r (rsub p q) v v'), (rdot_sub_l p q v), (rdot_sub_l p q v') by vl.
    rewrite (rdot_sym v p), (rdot_sym v q) in A. rewrite (rdot_sym v' p), (rdot_sym v' q) in B. lra.
  Qed.
  Lemma dual_lip w w' : length w = n -> length w' = n -> Rabs (rdot (rsub (P w) (P w')) (rsub w w')) <= mu * nrm2 (rsub w w').
  Proof.
    intros Lw Lw'. assert (L1 : length (radd x0 (rscale mu w)) = n) by vl. assert (L2 : length (radd x0 (rscale mu w')) = n) by vl.
    pose proof (@prox_firm _ _ L1 L2) as Q. assert (L3 : length (P w) = n) by apply (@Hp _ mu L1 Hmu). assert (L4 : length (P w') = n) by apply (@Hp _ mu L2 Hmu).
    replace (rsub (radd x0 (rscale mu w)) (radd x0 (rscale mu w'))) with (rscale mu (rsub w w')) in Q by veq. rewrite rdot_scale_r in Q.
    pose proof (rdot_pos (rsub (P w) (P w'))) as P0. fold (nrm2 (rsub (P w) (P w'))) in P0.
    assert (0 <= rdot (rsub (P w) (P w')) (rsub w w')) by nra. rewrite Rabs_right by lra.
    (* Cauchy-Schwarz in the form |a - mu b|^2 >= 0 *)
    set (a := rsub (P w) (P w')) in *. set (c := rsub w w') in *. assert (La : length a = n) by (unfold a; vl). assert (Lc : length c = n) by (unfold c; vl).
    pose proof (rdot_pos (rsub a (rscale mu c))) as S. rewrite (rdot_sub_l a (rscale mu c)), !(rdot_sub_r _ a (rscale mu c)), !rdot_scale_l, !rdot_scale_r, (rdot_sym c a) in S by vl.
    unfold nrm2 in *. apply Rmult_le_reg_l with mu; auto. nra.
  Qed.
  Lemma dual_gradient w : length w = n -> is_gradient n (sfunc D) w (sgrad D w).
  Proof.
    intros Lw. assert (Lp : length (P w) = n) by (apply Hp; vl). split; [cbn; vl|]. intros d Ld eps He.
    assert (N0 : 0 <= nrm2 d) by apply rdot_pos. assert (Pd : 0 < eps / (mu * nrm2 d + 1)) by (apply Rmult_lt_0_compat; [auto|apply Rinv_0_lt_compat; nra]).
    exists (mkposreal _ Pd). intros s Hs Hb. cbn [pos] in Hb. rewrite Rplus_0_l.
    replace (radd w (rscale 0 d)) with w by veq.
    set (w' := radd w (rscale s d)). assert (Lw' : length w' = n) by (unfold w'; vl). assert (Lp' : length (P w') = n) by (apply Hp; vl).
    destruct (@dual_conj _ Lw) as [_ [Dp [E Mx]]]. destruct (@dual_conj _ Lw') as [_ [Dp' [E' Mx']]].
    specialize (Mx (P w') Lp' Dp'). specialize (Mx' (P w) Lp Dp).
    assert (R1 : rdot w' (P w) = rdot w (P w) + s * rdot d (P w)) by (unfold w'; rewrite rdot_add_l, rdot_scale_l by vl; ring).
    assert (R2 : rdot w' (P w') = rdot w (P w') + s * rdot d (P w')) by (unfold w'; rewrite rdot_add_l, rdot_scale_l by vl; ring).
    assert (B1 : - sfunc D w + s * rdot d (P w) <= - sfunc D w') by lra.
    assert (B2 : - sfunc D w' - s * rdot d (P w') <= - sfunc D w) by lra.
    pose proof (@dual_lip _ _ Lw' Lw) as Lp2. replace (rsub w' w) with (rscale s d) in Lp2 by (unfold w'; veq).
    rewrite rdot_scale_r in Lp2. assert (N2 : nrm2 (rscale s d) = s * s * nrm2 d) by (unfold nrm2; rewrite rdot_scale_l, rdot_scale_r; ring). rewrite N2 in Lp2.
    assert (G : rdot (sgrad D w) d = - rdot d (P w)) by (cbn; rewrite rdot_opp_l, rdot_sym; ring). rewrite G.
    rewrite (rdot_sub_l (P w') (P w)), (rdot_sym (P w') d), (rdot_sym (P w) d) in Lp2 by vl.
    set (A := - sfunc D w' - - sfunc D w - s * rdot d (P w)). assert (A1 : 0 <= A) by (unfold A; lra).
    assert (A2 : A <= mu * (s * s * nrm2 d)). { pose proof (Rle_abs (s * (rdot d (P w') - rdot d (P w)))). unfold A. lra. }
    replace ((sfunc D w' - sfunc D w) / s - - rdot d (P w)) with (- (A / s)) by (unfold A; field; auto).
    rewrite Rabs_Ropp. unfold Rdiv. rewrite Rabs_mult, (Rabs_right A) by lra. rewrite Rabs_inv.
    assert (Ps : 0 < Rabs s) by now apply Rabs_pos_lt.
    assert (Ss : s * s = Rabs s * Rabs s) by (rewrite <- Rabs_mult, Rabs_right; [ring|]; apply Rle_ge, Rle_0_sqr). rewrite Ss in A2.
    apply Rle_lt_trans with (mu * nrm2 d * Rabs s).
    - apply Rmult_le_reg_r with (Rabs s); auto. rewrite Rmult_assoc, Rinv_l by lra. lra.
    - assert (T : Rabs s * (mu * nrm2 d + 1) < eps).
      { apply Rmult_lt_compat_r with (r := mu * nrm2 d + 1) in Hb; [|nra]. unfold Rdiv in Hb. rewrite Rmult_assoc, Rinv_l in Hb by nra. lra. }
      nra.
  Qed.
End Dual.
Lemma dual_concave n dom f prox mu x0 u v s : convex_set n dom -> convex_on n dom f ->
  (forall v t, length v = n -> 0 < t -> unique_minimiser n dom (prox_obj f t v) (prox v t)) -> 0 < mu -> length x0 = n ->
  length u = n -> length v = n -> 0 <= s <= 1 ->
  (1 - s) * sfunc (smooth_dual f prox mu x0) u + s * sfunc (smooth_dual f prox mu x0) v <= sfunc (smooth_dual f prox mu x0) (radd (rscale (1 - s) u) (rscale s v)).
Proof.
  intros Hd Hf Hp Hmu Lx Lu Lv Hs. set (w := radd (rscale (1 - s) u) (rscale s v)). assert (Lw : length w = n) by (unfold w; vl).
  destruct (@dual_conj n dom f prox mu x0 Hp Hmu Lx w Lw) as [Lp [Dp [E _]]].
  destruct (@dual_conj n dom f prox mu x0 Hp Hmu Lx u Lu) as [_ [_ [_ Mu]]]. destruct (@dual_conj n dom f prox mu x0 Hp Hmu Lx v Lv) as [_ [_ [_ Mv]]].
  specialize (Mu _ Lp Dp). specialize (Mv _ Lp Dp). set (p := prox (radd x0 (rscale mu w)) mu) in *.
  assert (R1 : rdot w p = (1 - s) * rdot u p + s * rdot v p) by (unfold w; rewrite rdot_add_l, !rdot_scale_l by vl; ring). rewrite R1 in E.
  set (Du := sfunc (smooth_dual f prox mu x0) u) in *. set (Dv := sfunc (smooth_dual f prox mu x0) v) in *. set (Dw := sfunc (smooth_dual f prox mu x0) w) in *.
  assert (Q1 : (1 - s) * (rdot u p - f p - / mu / 2 * nrm2 (rsub p x0)) <= (1 - s) * - Du) by (apply Rmult_le_compat_l; lra).
  assert (Q2 : s * (rdot v p - f p - / mu / 2 * nrm2 (rsub p x0)) <= s * - Dv) by (apply Rmult_le_compat_l; lra).
  set (c := / mu / 2 * nrm2 (rsub p x0)) in *. lra.
Qed.
Lemma shrink1 a k : shrink [a] k = [Rmax 0 (a - k) + Rmin 0 (a + k)].
Proof. reflexivity. Qed.
Lemma dual_mu_wrong : forall p, ~ conjugate_at 1 everywhere nrm1 2 [0] [2] p (- sfunc (smooth_dual nrm1 shrink 2 [0]) [2]).
Proof.
  intros p [Lp [_ [E _]]]. destruct p as [|a [|]]; try discriminate. cbn in E.
  unfold Rmax, Rmin in E. destruct (Rle_dec 0 (0 + 2 * 2 - 2)); [|lra]. destruct (Rle_dec 0 (0 + 2 * 2 + 2)); [|lra].
  unfold nrm2 in E. cbn in E. rewrite (Rabs_right (0 + 2 * 2 - 2 + 0)) in E by lra. pose proof (Rle_abs a). nra.
Qed.
Lemma dual_not_convex : ~ convex 1 (sfunc (smooth_dual nrm1 shrink 1 [0])).
Proof.
  intros H. specialize (H [3] [-3] (1 / 2) eq_refl eq_refl ltac:(lra)).
  cbn in H. unfold nrm2 in H. cbn in H.
  rewrite !shrink1 in H || idtac.
  unfold Rmax, Rmin in H.
  repeat (destruct (Rle_dec _ _) in H; try lra).
  all: unfold Rabs in H; repeat (destruct (Rcase_abs _) in H; try lra).
Qed.
