(** Complex soft thresholding and half thresholding. *)
From Coq Require Import List Arith Bool Lia Reals Lra Psatz.
From Verif Require Import Scalar Vec Loop RVec RMat XReal OptSpec OptModel OptProofs OptProofs2 OptProofs3 OptProofs4.
Import ListNotations.
Set Implicit Arguments.
Local Open Scope R_scope.

Lemma csoft_min x tau z : 0 <= tau -> length z = length x ->
  let p := soft_threshold_c x tau in
  tau * cnrm1 p + / 2 * cdist2 x p + / 2 * cdist2 z p <= tau * cnrm1 z + / 2 * cdist2 x z.
Proof.
  intros Ht Hz. cbv zeta. unfold soft_threshold_c. set (p := map (cshrink1 tau) x).
  assert (Hp : length p = length x) by apply map_length.
  destruct (@cshrink_dot x tau z Ht Hz) as [H1 H2]. fold p in H1, H2.
  rewrite (cdist2_expand x p z Hp Hz), cdot_sub_r by congruence. lra.
Qed.

(** *** half thresholding *)

Lemma cos3 t : cos (3 * t) = 4 * (cos t * cos t * cos t) - 3 * cos t.
Proof.
  replace (3 * t) with (2 * t + t) by ring. rewrite cos_plus, cos_2a, sin_2a.
  pose proof (sin2_cos2 t) as H. unfold Rsqr in H.
  replace (sin t * sin t) with (1 - cos t * cos t) by lra.
  replace (2 * sin t * cos t * sin t) with (2 * (sin t * sin t) * cos t) by ring.
  replace (sin t * sin t) with (1 - cos t * cos t) by lra. ring.
Qed.
Lemma cos_sq_2a t : 1 + cos (2 * t) = 2 * (cos t * cos t).
Proof. rewrite cos_2a. pose proof (sin2_cos2 t) as H. unfold Rsqr in H. lra. Qed.
Lemma Rpower_3_2 y : 0 < y -> Rpower y (3 / 2) = y * sqrt y.
Proof. intros H. replace (3 / 2) with (1 + / 2) by lra. rewrite Rpower_plus, Rpower_1, Rpower_sqrt by auto. auto. Qed.
Lemma gamma_pos tau : 0 < half_gamma tau.
Proof. unfold half_gamma. apply Rmult_lt_0_compat; [|unfold Rpower; apply exp_pos]. apply Rdiv_lt_0_compat; [unfold Rpower; apply exp_pos|lra]. Qed.
Lemma Rpower_cube a b : 0 < a -> Rpower a b * Rpower a b * Rpower a b = Rpower a (3 * b).
Proof. intros. rewrite <- !Rpower_plus. f_equal. ring. Qed.
Lemma gamma_cube tau : 0 < tau -> half_gamma tau * half_gamma tau * half_gamma tau = 54 / 64 * (tau * tau).
Proof.
  intros Ht. unfold half_gamma.
  set (p := Rpower 54 (1 / 3)). set (s := Rpower tau (2 / 3)).
  assert (Hp : p * p * p = 54). { unfold p. rewrite Rpower_cube by lra. replace (3 * (1 / 3)) with 1 by field. apply Rpower_1. lra. }
  assert (Hs : s * s * s = tau * tau).
  { unfold s. rewrite Rpower_cube by lra. replace (3 * (2 / 3)) with (1 + 1) by field. rewrite Rpower_plus, Rpower_1 by lra. auto. }
  replace (p / 4 * s * (p / 4 * s) * (p / 4 * s)) with (p * p * p * (s * s * s) / 64) by field. rewrite Hp, Hs. field.
Qed.
Lemma sqn a : 0 <= a * a. Proof. apply Rle_0_sqr. Qed.
Lemma cube_le a b : 0 <= a -> a <= b -> a * a * a <= b * b * b.
Proof. intros Ha H. assert (a * a <= b * b) by nra. nra. Qed.

(** the quartic  w^4 - 2 x w^2 + tau w *)
Definition quart (tau x w : R) : R := w * w * (w * w) - 2 * x * (w * w) + tau * w.
Lemma below_gamma tau x w : 0 < tau -> 0 <= x -> x < half_gamma tau -> 0 <= w -> 0 <= quart tau x w.
Proof.
  intros Ht Hx Hg Hw. unfold quart.
  assert (Hc : x * x * x <= 54 / 64 * (tau * tau)).
  { rewrite <- gamma_cube by auto. apply cube_le; lra. }
  assert (H : 0 <= w * w * w - 2 * x * w + tau).
  { set (m := sqrt (2 * x / 3)). assert (Hm : m * m = 2 * x / 3) by (apply sqrt_sqrt; lra).
    assert (Hm0 : 0 <= m) by apply sqrt_pos.
    assert (Hmt : 2 * (m * m * m) <= tau).
    { apply sq_le; [lra|]. replace (2 * (m * m * m) * (2 * (m * m * m))) with (4 * ((m * m) * (m * m) * (m * m))) by ring.
      rewrite Hm. replace (4 * (2 * x / 3 * (2 * x / 3) * (2 * x / 3))) with (32 / 27 * (x * x * x)) by field. lra. }
    assert (E : w * w * w - 2 * x * w + 2 * (m * m * m) = (w - m) * (w - m) * (w + 2 * m)).
    { replace (2 * x) with (3 * (m * m)) by lra. ring. }
    assert (0 <= (w - m) * (w - m) * (w + 2 * m)) by (apply Rmult_le_pos; [apply sqn|lra]). lra. }
  replace (w * w * (w * w) - 2 * x * (w * w) + tau * w) with (w * (w * w * w - 2 * x * w + tau)) by ring.
  now apply Rmult_le_pos.
Qed.
Lemma root_min tau x w v : 0 <= w -> 0 <= v -> w * w * w - x * w + tau / 4 = 0 -> 2 * x <= 3 * (w * w) -> quart tau x w <= quart tau x v.
Proof.
  intros Hw Hv Hr H3. unfold quart. replace tau with (4 * (x * w - w * w * w)) by lra.
  assert (E : v * v * (v * v) - 2 * x * (v * v) + 4 * (x * w - w * w * w) * v
    - (w * w * (w * w) - 2 * x * (w * w) + 4 * (x * w - w * w * w) * w)
    = (v - w) * (v - w) * (v * v + 2 * w * v + (3 * (w * w) - 2 * x))) by ring.
  assert (0 <= (v - w) * (v - w) * (v * v + 2 * w * v + (3 * (w * w) - 2 * x))); [|lra].
  apply Rmult_le_pos; [apply sqn|]. assert (0 <= w * v) by now apply Rmult_le_pos. pose proof (sqn v). lra.
Qed.
(** the trigonometric root *)
Lemma trig_root tau x : 0 < tau -> half_gamma tau <= x ->
  let phi := 2 / 3 * acos (tau / 8 * Rpower (x / 3) (- (3 / 2))) in
  exists w, 0 <= w /\ w * w = 2 / 3 * x * (1 + cos (2 * PI / 3 - phi)) /\
    w * w * w - x * w + tau / 4 = 0 /\ 2 * x <= 3 * (w * w).
Proof.
  intros Ht Hx. cbv zeta. pose proof (gamma_pos tau) as Hg. assert (Hx0 : 0 < x) by lra.
  set (a := tau / 8 * Rpower (x / 3) (- (3 / 2))).
  set (h := sqrt (x / 3)). assert (Hh : h * h = x / 3) by (apply sqrt_sqrt; lra).
  assert (Hh0 : 0 < h) by (apply sqrt_lt_R0; lra).
  assert (Ha : a = tau / 8 / (h * h * h)).
  { unfold a. rewrite Rpower_Ropp, Rpower_3_2 by lra. fold h. rewrite <- Hh. reflexivity. }
  assert (Hh3 : 0 < h * h * h) by (repeat apply Rmult_lt_0_compat; auto).
  assert (Ha0 : 0 < a). { rewrite Ha. apply Rdiv_lt_0_compat; lra. }
  assert (Hc : 54 / 64 * (tau * tau) <= x * x * x).
  { rewrite <- gamma_cube by auto. apply cube_le; lra. }
  assert (Hcos : cos (PI / 4) * cos (PI / 4) = / 2).
  { pose proof (cos_sq_2a (PI / 4)) as H. replace (2 * (PI / 4)) with (PI / 2) in H by field. rewrite cos_PI2 in H. lra. }
  assert (Hc4 : 0 < cos (PI / 4)). { apply cos_gt_0; pose proof PI_RGT_0; lra. }
  assert (Ha1 : a <= cos (PI / 4)).
  { apply sq_le; [lra|]. rewrite Hcos. rewrite Ha.
    replace (tau / 8 / (h * h * h) * (tau / 8 / (h * h * h))) with (tau * tau / (64 * ((h * h) * (h * h) * (h * h)))) by (field; lra).
    rewrite Hh. apply Rmult_le_reg_r with (64 * (x / 3 * (x / 3) * (x / 3))).
    { assert (0 < x / 3) by lra. assert (0 < x / 3 * (x / 3) * (x / 3)) by (apply Rmult_lt_0_compat; [apply Rmult_lt_0_compat|]; auto). lra. }
    unfold Rdiv at 1. rewrite Rmult_assoc, Rinv_l; [|].
    - rewrite Rmult_1_r. replace (/ 2 * (64 * (x / 3 * (x / 3) * (x / 3)))) with (32 / 27 * (x * x * x)) by field. lra.
    - assert (0 < x / 3) by lra. assert (0 < x / 3 * (x / 3) * (x / 3)) by (apply Rmult_lt_0_compat; [apply Rmult_lt_0_compat|]; auto). lra. }
  pose proof (COS_bound (PI / 4)) as [_ Hb1].
  set (al := acos a). assert (Hca : cos al = a) by (apply cos_acos; lra).
  assert (Hal : 0 <= al <= PI) by apply acos_bound.
  pose proof PI_RGT_0 as Hpi.
  assert (Hal4 : PI / 4 <= al). { apply cos_decr_0; lra. }
  assert (Hal2 : al <= PI / 2). { apply cos_decr_0; try lra. rewrite cos_PI2. lra. }
  set (t := PI / 3 - al / 3).
  assert (Ht1 : 0 <= t <= PI / 4) by (unfold t; lra).
  replace (2 * PI / 3 - 2 / 3 * al) with (2 * t) by (unfold t; field).
  assert (Hct : cos (PI / 4) <= cos t). { apply cos_decr_1; lra. }
  exists (2 * h * cos t). split; [apply Rmult_le_pos; lra|].
  assert (E1 : 2 * h * cos t * (2 * h * cos t) = 4 * (x / 3) * (cos t * cos t)) by (rewrite <- Hh; ring).
  split; [rewrite E1, cos_sq_2a; field|]. split.
  - replace x with (3 * (h * h)) by lra.
    replace (2 * h * cos t * (2 * h * cos t) * (2 * h * cos t) - 3 * (h * h) * (2 * h * cos t))
      with (2 * (h * h * h) * (4 * (cos t * cos t * cos t) - 3 * cos t)) by ring.
    rewrite <- cos3. replace (3 * t) with (- al + PI) by (unfold t; field). rewrite neg_cos, cos_neg, Hca, Ha. field. lra.
  - rewrite E1. assert (/ 2 <= cos t * cos t) by (rewrite <- Hcos; nra). nra.
Qed.
Lemma half_scalar tau x z : 0 < tau ->
  let p := if Rleb (half_gamma tau) (Rabs x) then
     let phi := 2 / 3 * acos (tau / 8 * Rpower (Rabs x / 3) (- (3 / 2))) in
     2 / 3 * x * (1 + cos (2 * PI / 3 - phi)) else 0 in
  tau * sqrt (Rabs p) + (p - x) * (p - x) <= tau * sqrt (Rabs z) + (z - x) * (z - x).
Proof.
  intros Ht. cbv zeta. pose proof (Rabs_pos x) as Hx.
  set (v := sqrt (Rabs z)). assert (Hv : 0 <= v) by apply sqrt_pos.
  assert (Hvv : v * v = Rabs z) by (apply sqrt_sqrt, Rabs_pos).
  assert (Hz : quart tau (Rabs x) v + x * x <= tau * v + (z - x) * (z - x)).
  { unfold quart. rewrite Hvv.
    assert (z * x <= Rabs x * Rabs z). { rewrite <- Rabs_mult, (Rmult_comm x z). apply Rle_abs. }
    assert (Rabs z * Rabs z = z * z) by (rewrite <- Rabs_mult; apply Rabs_right, Rle_ge, sqn). nra. }
  destruct (Rleb_spec (half_gamma tau) (Rabs x)) as [Hg|Hg].
  - destruct (trig_root Ht Hg) as [w [W1 [W2 [W3 W4]]]].
    set (c := 1 + cos _) in *.
    assert (Hp : Rabs (2 / 3 * x * c) = w * w).
    { rewrite W2, !Rabs_mult, (Rabs_right (2 / 3)) by lra. f_equal. apply Rabs_right. unfold c. pose proof (COS_bound (2 * PI / 3 - 2 / 3 * acos (tau / 8 * Rpower (Rabs x / 3) (- (3 / 2))))). lra. }
    rewrite Hp, sqrt_square by auto.
    assert (Hq : quart tau (Rabs x) w <= quart tau (Rabs x) v) by now apply root_min.
    assert (E : (2 / 3 * x * c - x) * (2 / 3 * x * c - x) = w * w * (w * w) - 2 * Rabs x * (w * w) + x * x).
    { rewrite W2. assert (Rabs x * Rabs x = x * x) by (rewrite <- Rabs_mult; apply Rabs_right, Rle_ge, sqn).
      replace (2 / 3 * Rabs x * c * (2 / 3 * Rabs x * c) - 2 * Rabs x * (2 / 3 * Rabs x * c))
        with ((Rabs x * Rabs x) * ((2 / 3 * c) * (2 / 3 * c) - 2 * (2 / 3 * c))) by ring. rewrite H. ring. }
    rewrite E. unfold quart in Hq at 1. lra.
  - rewrite Rabs_R0, sqrt_0. assert (0 <= quart tau (Rabs x) v) by (apply below_gamma; auto; lra). lra.
Qed.
Lemma half_min tau x z : 0 < tau -> length z = length x -> half_obj tau x (half_threshold x tau) <= half_obj tau x z.
Proof.
  intros Ht. unfold half_obj, half_threshold, nrm2. revert z.
  induction x as [|a x IH]; intros [|b z] HL; try discriminate HL; [simpl; lra|].
  specialize (IH z ltac:(simpl in HL; lia)). pose proof (@half_scalar tau a b Ht) as Hs. cbv zeta in Hs.
  cbn [map rlsum rsub zipw rdot]. cbn [rsub] in IH. unfold rsub in IH. lra.
Qed.
