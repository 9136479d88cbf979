(** Proofs about the projections, proximal operators and thresholding functions on
    complex vectors. *)
From Coq Require Import List Arith Bool Lia Reals Lra Psatz.
From Verif Require Import Scalar Vec RVec RMat Loop LoopLemmas XReal LopModel LopSpec LopProofs LopProofs2 OptSpec OptModel OptProofs OptProofs2 OptProofs3 OptProofs4 OptProofs5 OptLemmas CxSpec CxModel CxProofs CxBpSpec CxFomModel CxFomSpec CxFomProofs CxProjModel CxProjSpec.
Import ListNotations.
Set Implicit Arguments.
Unset Strict Implicit.
Local Open Scope R_scope.

(** *** the variational inequality over C^n *)
Definition cvi (n : nat) (C : cvec -> Prop) (P : cvec -> cvec) : Prop :=
  forall x, length x = n ->
    length (P x) = n /\ C (P x) /\
    forall z, length z = n -> C z -> fst (inner (vsub x (P x)) (vsub z (P x)) : Cx) <= 0.
Lemma flat2 n x : length x = n -> length (flat x) = (2 * n)%nat.
Proof. intros <-. apply flat_len. Qed.
Lemma cdist_flat x y : cdist x y = dist (flat x) (flat y).
Proof. unfold cdist, dist. now rewrite <- flat_nrm, flat_sub. Qed.
Lemma cvi_vi n C P : cvi n C P -> vi (2 * n) (fun v => C (unflat v)) (lift P).
Proof.
  intros H v Lv. pose proof (unflat_len (n := n) Lv) as Lu. destruct (H _ Lu) as [L [K V]].
  split; [unfold lift; now apply flat2|]. split; [unfold lift; now rewrite unflat_flat|].
  intros w Lw Cw. pose proof (unflat_len (n := n) Lw) as Lw'. specialize (V _ Lw' Cw).
  rewrite <- flat_dot, !flat_sub, !(flat_unflat (n := n)) in V by auto. exact V.
Qed.
Lemma cvi_spec n C P : cvi n C P -> cprojects_onto n C P /\ cnonexpansive n P.
Proof.
  intros H. pose proof (vi_projects (cvi_vi H)) as V. pose proof (vi_nonexpansive (cvi_vi H)) as N. split.
  - intros x Lx. destruct (V _ (flat2 Lx)) as [A1 [A2 [A3 [A4 [A5 A6]]]]].
    rewrite lift_flat, ?unflat_flat in *. rewrite lift_flat in A6. destruct (H x Lx) as [L [K _]].
    split; [exact L|]. split; [exact K|]. split; [|split; [|split]].
    + intros z Lz Cz. rewrite !cdist_flat. apply A3; [now apply flat2|]. now rewrite unflat_flat.
    + intros z Lz Cz D. rewrite !cdist_flat in D. apply flat_inj, A4; [now apply flat2| |exact D]. now rewrite unflat_flat.
    + rewrite <- A5. split; [now intros ->|]. intros E. now apply flat_inj.
    + now apply flat_inj.
  - intros x y Lx Ly. specialize (N _ _ (flat2 Lx) (flat2 Ly)). rewrite !lift_flat in N. now rewrite !cdist_flat.
Qed.
(** from a projection of R^2n *)
Lemma vi_cvi n C P D Q : vi (2 * n) D Q -> (forall x, length x = n -> flat (P x) = Q (flat x)) -> (forall x, C x <-> D (flat x)) -> cvi n C P.
Proof.
  intros V E K x Lx. destruct (V _ (flat2 Lx)) as [A1 [A2 A3]]. rewrite <- E in * by exact Lx.
  split; [rewrite flat_len in A1; lia|]. split; [now apply K|]. intros z Lz Cz.
  rewrite <- flat_dot, !flat_sub. apply A3; [now apply flat2|now apply K].
Qed.
Lemma fst_inner_nil : fst (inner ([] : cvec) ([] : cvec) : Cx) = 0.
Proof. reflexivity. Qed.
(** entrywise projections *)
Lemma cvi_entrywise n (c : Cs -> Prop) (p : Cs -> Cs) :
  (forall z, c (p z)) ->
  (forall z w, c w -> (fst z - fst (p z)) * (fst w - fst (p z)) + (snd z - snd (p z)) * (snd w - snd (p z)) <= 0) ->
  cvi n (fun y => forall z, In z y -> c z) (map p).
Proof.
  intros H1 H2 x Lx. split; [now rewrite map_length|]. split.
  - intros z Hz. apply in_map_iff in Hz as [w [<- _]]. apply H1.
  - clear Lx. revert n. induction x as [|a x IH]; intros n z Lz Cz; [rewrite <- flat_dot, !flat_sub; unfold rsub; cbn; apply Rle_refl|].
    destruct z as [|b z]; [rewrite <- flat_dot, !flat_sub; unfold rsub; cbn; apply Rle_refl|].
    assert (K := IH (length z) z eq_refl (fun w Hw => Cz w (or_intror Hw))). rewrite <- flat_dot, !flat_sub in K. rewrite <- flat_dot, !flat_sub.
    change ((fst a - fst (p a)) * (fst b - fst (p a)) + ((snd a - snd (p a)) * (snd b - snd (p a)) + rdot (rsub (flat x) (flat (map p x))) (rsub (flat z) (flat (map p x)))) <= 0).
    specialize (H2 a b (Cz b (or_introl eq_refl))). lra.
Qed.

(** *** l2 balls *)
Lemma flat_scaled_ball (q : R) x :
  flat (if Rltb q (cnorm x) then vscale (ofR (q / cnorm x) : Cs) x else x) = if Rltb q (nrm (flat x)) then rscale (q / nrm (flat x)) (flat x) else flat x.
Proof. rewrite flat_nrm. destruct (Rltb q (cnorm x)); [apply flat_scale|reflexivity]. Qed.
Lemma cvi_ball n q : 0 < q -> cvi n (fun y => cnorm y <= q) (fun x => cproject_to_ball x q).
Proof.
  intros Hq. apply (vi_cvi (vi_to_ball Hq)); [intros x _; apply flat_scaled_ball|]. intros x. now rewrite flat_nrm.
Qed.
Lemma cvi_l2_ball n q P : cproj_l2_ball q = Some P -> cvi n (fun y => cnorm y <= q) P.
Proof.
  unfold cproj_l2_ball. destruct (Rleb_spec q 0) as [|Hq]; [discriminate|]. intros [= <-].
  assert (Hq' : 0 < q) by lra. apply (vi_cvi (vi_to_ball Hq')); [intros x _; apply flat_scaled_ball|]. intros x. now rewrite flat_nrm.
Qed.
Lemma cl2_accepts q : (exists P, cproj_l2_ball q = Some P) <-> 0 < q.
Proof.
  unfold cproj_l2_ball. destruct (Rleb_spec q 0) as [H|H]; split; intros K; try lra; [destruct K; discriminate|eexists; reflexivity].
Qed.
Lemma cl2_at_partial n q b P : length b = n -> cproj_l2_ball_at q b = Some P ->
  exists N, cprojects_onto n (fun y => cdist y b <= q) N /\
  forall x, length x = n ->
    length (P x) = n /\ (cdist x b <= q -> P x = x) /\
    cdist (P x) (N x) <= 1 / 10000000 /\
    (1 / 20000000 <= q -> cdist (P x) b <= q).
Proof.
  intros Lb. unfold cproj_l2_ball_at. destruct (Rleb_spec q 0) as [|Hq]; [discriminate|]. intros HP0.
  assert (E : exists Q, proj_l2_ball_at q (flat b) = Some Q).
  { unfold proj_l2_ball_at. destruct (Rleb_spec q 0); [lra|eexists; reflexivity]. }
  destruct E as [Q HQ]. assert (EQ : forall x, length x = n -> flat (P x) = Q (flat x)).
  { intros x Lx. unfold proj_l2_ball_at in HQ. destruct (Rleb_spec q 0); [lra|]. injection HQ as <-. injection HP0 as <-. cbv zeta.
    rewrite flat_add, <- flat_sub, flat_nrm. destruct (Rltb q (cnorm (vsub x b))); [apply (f_equal (fun v => radd v (flat b))), flat_scale|reflexivity]. }
  destruct (@l2_at_partial (2 * n) q (flat b) Q (flat2 Lb) HQ) as [N [HN HP]].
  exists (fun x => unflat (N (flat x))). split.
  - intros x Lx. destruct (HN _ (flat2 Lx)) as [A1 [A2 [A3 [A4 [A5 A6]]]]].
    assert (F : flat (unflat (N (flat x))) = N (flat x)) by (now apply (flat_unflat (n := n))).
    split; [now apply unflat_len|]. rewrite !cdist_flat, F. split; [exact A2|]. split; [|split; [|split]].
    + intros z Lz Cz. rewrite cdist_flat in *. apply A3; [now apply flat2|exact Cz].
    + intros z Lz Cz D. rewrite cdist_flat in *. apply flat_inj. rewrite F. apply A4; [now apply flat2|exact Cz|exact D].
    + unfold dist. rewrite <- A5. split; [intros E2; rewrite E2 in F; now symmetry|]. intros E2. rewrite E2. apply unflat_flat.
    + rewrite A6. reflexivity.
  - intros x Lx. destruct (HP _ (flat2 Lx)) as [B1 [B2 [B3 B4]]]. specialize (EQ x Lx). rewrite <- EQ in B1, B2, B3, B4.
    split; [rewrite flat_len in B1; lia|]. split; [|split].
    + intros D. apply flat_inj. apply B2. rewrite cdist_flat in D. exact D.
    + rewrite cdist_flat. rewrite (flat_unflat (n := n)) by (apply HN; now apply flat2). exact B3.
    + intros Hq'. rewrite cdist_flat. apply B4, Hq'.
Qed.

(** *** moduli *)
Lemma cabs_sq z : cabs z * cabs z = fst z * fst z + snd z * snd z.
Proof. apply sqrt_sqrt. nra. Qed.
Lemma cabs_pos0 z : 0 <= cabs z.
Proof. apply sqrt_pos. Qed.
Lemma cabs_cauchy z w : fst z * fst w + snd z * snd w <= cabs z * cabs w.
Proof.
  unfold cabs. rewrite <- sqrt_mult by nra. destruct (Rle_lt_dec (fst z * fst w + snd z * snd w) 0) as [H|H]; [pose proof (sqrt_pos ((fst z * fst z + snd z * snd z) * (fst w * fst w + snd w * snd w))); lra|].
  rewrite <- (sqrt_square (fst z * fst w + snd z * snd w)) by lra. apply sqrt_le_1_alt.
  pose proof (Rle_0_sqr (fst z * snd w - snd z * fst w)) as K. unfold Rsqr in K. nra.
Qed.
Lemma cvi_box n r : 0 < r -> cvi n (fun y => forall z, In z y -> cabs z <= r) (fun x => cproject_to_box x r).
Proof.
  intros Hr. apply (cvi_entrywise (n := n) (c := fun z => cabs z <= r) (p := fun z => Cmul z (ofR (r / Rmax (cabs z) r) : Cs))).
  - intros z. set (f := r / Rmax (cabs z) r).
    assert (E : cabs (Cmul z (ofR f : Cs)) = f * cabs z).
    { unfold cabs, Cmul. cbn. replace ((fst z * f - snd z * 0) * (fst z * f - snd z * 0) + (fst z * 0 + snd z * f) * (fst z * 0 + snd z * f)) with (Rsqr f * (fst z * fst z + snd z * snd z)) by (unfold Rsqr; ring).
      rewrite sqrt_mult, sqrt_Rsqr; [reflexivity| |apply Rle_0_sqr|nra]. unfold f. apply Rle_mult_inv_pos; [lra|]. pose proof (Rmax_r (cabs z) r). lra. }
    rewrite E. unfold f. pose proof (Rmax_r (cabs z) r). pose proof (Rmax_l (cabs z) r).
    assert (0 < Rmax (cabs z) r) by lra. replace (r / Rmax (cabs z) r * cabs z) with (r * (cabs z / Rmax (cabs z) r)) by (field; lra).
    apply Rle_trans with (r * 1); [|lra]. apply Rmult_le_compat_l; [lra|]. apply Rmult_le_reg_r with (Rmax (cabs z) r); [lra|]. unfold Rdiv. rewrite Rmult_assoc, Rinv_l by lra. lra.
  - intros z w Hw. pose proof (cabs_sq z) as S. pose proof (cabs_pos0 z) as P. pose proof (cabs_cauchy z w) as K. destruct z as [a b], w as [c d]. unfold Cmul. cbn in *.
    set (m := cabs (a, b)) in *. destruct (Rle_lt_dec m r) as [H|H].
    + rewrite Rmax_right by lra. unfold Rdiv. rewrite Rinv_r by lra. lra.
    + rewrite Rmax_left by lra. set (f := r / m). assert (Hf : f * m = r) by (unfold f; field; lra). assert (0 <= f <= 1) by nra.
      assert (a * c + b * d <= m * r) by nra.
      replace ((a - (a * f - b * 0)) * (c - (a * f - b * 0)) + (b - (a * 0 + b * f)) * (d - (a * 0 + b * f))) with ((1 - f) * ((a * c + b * d) - f * (a * a + b * b))) by ring.
      rewrite <- S. assert (f * (m * m) = r * m) by (rewrite <- Hf; ring). nra.
Qed.
Lemma cvi_upper n u : cvi n (fun y => forall z, In z y -> snd z = 0 /\ fst z <= u) (fun x => as_complex (cproject_to_real_upper_limit x u)).
Proof.
  pose proof (cvi_entrywise (n := n) (c := fun z => snd z = 0 /\ fst z <= u) (p := fun z => (Rmin (fst z) u, 0))) as H.
  assert (K : cvi n (fun y => forall z, In z y -> snd z = 0 /\ fst z <= u) (map (fun z : Cs => ((Rmin (fst z) u, 0) : Cs)))).
  { apply H.
    - intros z. cbn. split; [reflexivity|apply Rmin_r].
    - intros [a b] [c d] [Hd Hc]. cbn in *. subst d. unfold Rmin. destruct (Rle_dec a u); nra. }
  intros x Lx. specialize (K x Lx). unfold as_complex, cproject_to_real_upper_limit. rewrite map_map. exact K.
Qed.

(** *** affine sets *)
Lemma inner_vzero m : forall w : cvec, inner (vzero m) w = (ofR 0 : Cs).
Proof. induction m as [|k IH]; intros [|a w]; try reflexivity. pose proof (IH w) as E. unfold vzero in *. cbn in *. rewrite E. unfold Cadd, Cmul. cbn. apply (f_equal2 pair); ring. Qed.
Section Affine.
  Variables (m n : nat) (A Rf : list cvec) (b : cvec) (solveUT solveU : cvec -> cvec).
  Hypothesis HA : @is_adjoint Cs m n (matvec A) (fun w => vecmat n w A).
  Hypothesis Lb : length b = m.
  Hypothesis HQR : forall w, length w = m -> vecmat m (matvec Rf w) Rf = matvec A (vecmat n w A).
  Hypothesis HUT : forall r, length r = m -> length (solveUT r) = m /\ vecmat m (solveUT r) Rf = r.
  Hypothesis HU : forall v, length v = m -> length (solveU v) = m /\ matvec Rf (solveU v) = v.
  Lemma cvi_affine : cvi n (fun y => matvec A y = b) (cproj_affine n A b solveUT solveU).
  Proof.
    pose proof (adjoint_linear HA) as [Hadd _]. destruct HA as [M1 [M2 M3]]. intros x Lx. unfold cproj_affine. cbv zeta.
    set (r := vsub b (matvec A x)). assert (Lr : length r = m) by (unfold r; rewrite vsub_length with (n := m); auto).
    destruct (HUT Lr) as [L1 E1]. destruct (HU L1) as [L2 E2]. set (w := solveU (solveUT r)) in *.
    assert (Hw : matvec A (vecmat n w A) = r) by (rewrite <- HQR, E2 by auto; auto).
    assert (Lh : length (vecmat n w A) = n) by auto. set (h := vecmat n w A) in *.
    assert (Lp : length (vadd x h) = n) by (apply vadd_length; auto).
    assert (EP : matvec A (vadd x h) = b).
    { rewrite Hadd, Hw by auto. unfold r. apply flat_inj. rewrite flat_add, flat_sub.
      pose proof (flat2 Lb) as F1. pose proof (flat2 (M1 _ Lx)) as F2. apply vec_eq; [vl|]. intros i Hi. rewrite radd_nth, rsub_nth by vl. ring. }
    split; [exact Lp|]. split; [exact EP|]. intros z Lz Cz.
    assert (D : length (vsub z (vadd x h)) = n) by (apply vsub_length; auto).
    assert (Z : matvec A (vsub z (vadd x h)) = vzero m).
    { assert (E3 : z = vadd (vsub z (vadd x h)) (vadd x h)).
      { apply flat_inj. rewrite flat_add, flat_sub. pose proof (flat2 Lz) as F1. pose proof (flat2 Lp) as F2. apply vec_eq; [vl|]. intros i Hi. rewrite radd_nth, rsub_nth by vl. ring. }
      pose proof (f_equal (matvec A) E3) as E4. rewrite Hadd, Cz, EP in E4 by auto.
      pose proof (flat2 (M1 _ D)) as F1. pose proof (flat2 Lb) as F2. apply (f_equal flat) in E4. rewrite flat_add in E4.
      apply flat_inj. pose proof (vzero_length Cs m) as F3. apply vec_eq; [rewrite F1; rewrite flat_len, F3; reflexivity|].
      intros i Hi. assert (E5 := f_equal (fun v => v@i) E4). cbn beta in E5. rewrite radd_nth in E5 by congruence.
      assert (Z0 : flat (vzero m) = rzero (2 * m)).
      { clear. induction m as [|k IH]; [reflexivity|]. cbn [Nat.mul]. replace (S k + (S k + 0))%nat with (S (S (2 * k))) by lia. cbn. f_equal. f_equal. exact IH. }
      rewrite Z0, rzero_nth. lra. }
    assert (E6 : fst (inner (vsub x (vadd x h)) (vsub z (vadd x h)) : Cx) = - fst (inner h (vsub z (vadd x h)) : Cx)).
    { rewrite <- !flat_dot, !flat_sub, flat_add. pose proof (flat2 Lx) as F1. pose proof (flat2 Lh) as F2. pose proof (flat2 Lz) as F3. vdot. ring. }
    rewrite E6. unfold h at 1. rewrite inner_sym. rewrite <- M3 by auto. rewrite Z.
    pose proof (inner_vzero m w) as E7.
    rewrite E7. cbn. lra.
  Qed.
End Affine.
