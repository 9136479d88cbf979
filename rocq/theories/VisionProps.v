(** C75: image kernels and the Ricker wavelet. *)
From Coq Require Import List Arith ZArith Lia Reals Lra Psatz.
From Verif Require Import RVec VisionModel.
Import ListNotations.
Local Open Scope R_scope.

(** The response of a kernel at the window of an image whose corner is (i, j). *)
Definition response (K : list (list R)) (img : nat -> nat -> R) (i j : nat) : R :=
  rsum (length K) (fun a => rsum (length (nth a K [])) (fun b => nth b (nth a K []) 0 * img (i + a)%nat (j + b)%nat)).

Lemma box_row n a : (a < n)%nat -> nth a (kernel_box n) [] = repeat (1 / (INR n * INR n)) n.
Proof. intros H. unfold kernel_box. apply nth_error_nth. rewrite nth_error_repeat; auto. Qed.
Lemma box_response n img i j : (0 < n)%nat -> response (kernel_box n) img i j = / (INR n * INR n) * rsum n (fun a => rsum n (fun b => img (i + a)%nat (j + b)%nat)).
Proof.
  intros Hn. unfold response. replace (length (kernel_box n)) with n by (unfold kernel_box; now rewrite repeat_length).
  rewrite <- rsum_mul_l. apply rsum_ext. intros a Ha. rewrite (box_row n a Ha), repeat_length. rewrite <- rsum_mul_l. apply rsum_ext. intros b Hb.
  replace (nth b (repeat (1 / (INR n * INR n)) n) 0) with (1 / (INR n * INR n)); [unfold Rdiv; ring|].
  symmetry. apply nth_error_nth. now rewrite nth_error_repeat.
Qed.
(** The box kernels average: the response is the mean of the window, so constants
    are kept and the response lies between the extreme values of the window. *)
Theorem C75_box n img i j : (0 < n)%nat ->
  response (kernel_box n) img i j = rsum n (fun a => rsum n (fun b => img (i + a)%nat (j + b)%nat)) / INR (n * n) /\
  forall lo hi, (forall a b, (a < n)%nat -> (b < n)%nat -> lo <= img (i + a)%nat (j + b)%nat <= hi) -> lo <= response (kernel_box n) img i j <= hi.
Proof.
  intros Hn. assert (P : 0 < INR n) by (apply lt_0_INR; auto). rewrite (box_response n img i j Hn). split.
  - rewrite mult_INR. unfold Rdiv. ring.
  - intros lo hi H. set (S := rsum n _).
    assert (B : INR n * (INR n * lo) <= S <= INR n * (INR n * hi)).
    { unfold S. rewrite <- (rsum_const n lo), <- (rsum_const n hi), <- !(rsum_const n (rsum n _)). split; apply rsum_le; intros a Ha; apply rsum_le; intros b Hb; apply H; auto. }
    assert (Q : 0 < INR n * INR n) by nra.
    split; apply Rmult_le_reg_l with (INR n * INR n); auto; rewrite <- Rmult_assoc, Rinv_r by lra; lra.
Qed.
Print Assumptions C75_box.
(** The Laplacian is the sum of the second differences; it vanishes on affine images. *)
Theorem C75_laplacian img i j :
  response kernel_laplacian_3x3 img i j =
    (img i (j + 1)%nat - 2 * img (i + 1)%nat (j + 1)%nat + img (i + 2)%nat (j + 1)%nat) +
    (img (i + 1)%nat j - 2 * img (i + 1)%nat (j + 1)%nat + img (i + 1)%nat (j + 2)%nat) /\
  forall a b c, (forall i j, img i j = a * INR i + b * INR j + c) -> response kernel_laplacian_3x3 img i j = 0.
Proof.
  split.
  - unfold response. cbn. rewrite !Nat.add_0_r. ring.
  - intros a b c H. unfold response. cbn. rewrite !H, !plus_INR. cbn. ring.
Qed.
Print Assumptions C75_laplacian.
(** Sharpening subtracts the Laplacian; constants are kept. *)
Theorem C75_sharpen img i j :
  response kernel_sharpen_3x3 img i j = img (i + 1)%nat (j + 1)%nat - response kernel_laplacian_3x3 img i j /\
  forall c, (forall i j, img i j = c) -> response kernel_sharpen_3x3 img i j = c.
Proof.
  split.
  - unfold response. cbn. ring.
  - intros c H. unfold response. cbn. rewrite !H. ring.
Qed.
Print Assumptions C75_sharpen.
(** The Sobel kernels respond to the slope along the columns and the rows, with
    gain 8, and are blind to the other direction. *)
Theorem C75_sobel img i j a b c : (forall i j, img i j = a * INR i + b * INR j + c) ->
  response kernel_sobel_x img i j = 8 * b /\ response kernel_sobel_y img i j = 8 * a.
Proof. intros H. unfold response. cbn. rewrite !H, !plus_INR. cbn. split; ring. Qed.
Print Assumptions C75_sobel.

(** *** the Gaussian kernel *)
Definition offset (n i : nat) : R := INR i - (INR n - 1) / 2.
Lemma axis_eq n i : (i < n)%nat -> linspace (- (INR n - 1) / 2) ((INR n - 1) / 2) n i = offset n i.
Proof.
  intros H. unfold linspace, offset. destruct (Nat.eqb_spec n 1) as [->|N].
  - replace i with 0%nat by lia. cbn. field.
  - rewrite minus_INR by lia. cbn [INR]. field. assert (0 < INR n - 1); [|lra]. replace (INR n - 1) with (INR (n - 1)) by (rewrite minus_INR by lia; reflexivity). apply lt_0_INR. lia.
Qed.
(** Samples of exp (- d^2 / (2 s^2)) with s = sigma / 2 in each direction, at the
    distances from the centre, divided by their sum. *)
Definition bump (n : nat) (s : R) (i : nat) : R := exp (- (offset n i ^ 2) / (2 * s ^ 2)).
Theorem C75_gaussian h w sx sy i j : sx <> 0 -> sy <> 0 -> (i < h)%nat -> (j < w)%nat ->
  kernel_gaussian h w sx sy i j = (bump h (sy / 2) i / rsum h (bump h (sy / 2))) * (bump w (sx / 2) j / rsum w (bump w (sx / 2))).
Proof.
  intros Hx Hy Hi Hj. unfold kernel_gaussian.
  assert (E : forall i j, (i < h)%nat -> (j < w)%nat ->
     exp (- (linspace (- (INR w - 1) / 2) ((INR w - 1) / 2) w j ^ 2 * (2 / sx ^ 2) + linspace (- (INR h - 1) / 2) ((INR h - 1) / 2) h i ^ 2 * (2 / sy ^ 2))) = bump h (sy / 2) i * bump w (sx / 2) j).
  { intros p q Hp Hq. rewrite !axis_eq by auto. unfold bump. rewrite <- exp_plus. f_equal. field. auto. }
  rewrite E by auto. replace (rsum h (fun i => rsum w (fun j => _))) with (rsum h (bump h (sy / 2)) * rsum w (bump w (sx / 2))).
  - assert (Pos : forall n s k, (k < n)%nat -> 0 < rsum n (bump n s)).
    { intros n s k Hk. apply Rlt_le_trans with (bump n s k); [apply exp_pos|]. apply rsum_ge_term; auto. intros; left; apply exp_pos. }
    pose proof (Pos h (sy / 2) i Hi). pose proof (Pos w (sx / 2) j Hj). field. lra.
  - rewrite <- rsum_mul_r. apply rsum_ext. intros p Hp. rewrite <- rsum_mul_l. apply rsum_ext. intros q Hq. symmetry. now apply E.
Qed.
Print Assumptions C75_gaussian.
Lemma bump_sum n s : (0 < n)%nat -> 0 < rsum n (bump n s).
Proof. intros H. apply Rlt_le_trans with (bump n s 0); [apply exp_pos|]. apply rsum_ge_term; auto. intros; left; apply exp_pos. Qed.
(** positive weights that sum to one *)
Theorem C75_gaussian_weights h w sx sy : sx <> 0 -> sy <> 0 -> (0 < h)%nat -> (0 < w)%nat ->
  (forall i j, (i < h)%nat -> (j < w)%nat -> 0 < kernel_gaussian h w sx sy i j) /\
  rsum h (fun i => rsum w (fun j => kernel_gaussian h w sx sy i j)) = 1.
Proof.
  intros Hx Hy Hh Hw. pose proof (bump_sum h (sy / 2) Hh) as P1. pose proof (bump_sum w (sx / 2) Hw) as P2. split.
  - intros i j Hi Hj. rewrite C75_gaussian by auto. apply Rmult_lt_0_compat; apply Rdiv_lt_0_compat; auto; apply exp_pos.
  - replace (rsum h (fun i => rsum w (fun j => kernel_gaussian h w sx sy i j))) with
      (rsum h (fun i => bump h (sy / 2) i * / rsum h (bump h (sy / 2)))).
    + rewrite rsum_mul_r. apply Rinv_r. lra.
    + apply rsum_ext. intros i Hi. rewrite (@rsum_ext w _ (fun j => (bump h (sy / 2) i / rsum h (bump h (sy / 2))) * (bump w (sx / 2) j * / rsum w (bump w (sx / 2))))).
      * rewrite rsum_mul_l, rsum_mul_r, Rinv_r by lra. unfold Rdiv. ring.
      * intros j Hj. rewrite C75_gaussian by auto. unfold Rdiv. ring.
Qed.
Print Assumptions C75_gaussian_weights.
Lemma offset_flip n i : (i < n)%nat -> offset n (n - 1 - i) = - offset n i.
Proof. intros H. unfold offset. rewrite !minus_INR by lia. cbn [INR]. field. Qed.
(** symmetric about the centre, largest there, decreasing with the distance from it,
    and unchanged by transposing a square one *)
Theorem C75_gaussian_shape h w sx sy : sx <> 0 -> sy <> 0 ->
  (forall i j, (i < h)%nat -> (j < w)%nat ->
     kernel_gaussian h w sx sy (h - 1 - i) j = kernel_gaussian h w sx sy i j /\
     kernel_gaussian h w sx sy i (w - 1 - j) = kernel_gaussian h w sx sy i j) /\
  (forall i j i' j', (i < h)%nat -> (j < w)%nat -> (i' < h)%nat -> (j' < w)%nat ->
     Rabs (INR i' - (INR h - 1) / 2) <= Rabs (INR i - (INR h - 1) / 2) -> Rabs (INR j' - (INR w - 1) / 2) <= Rabs (INR j - (INR w - 1) / 2) ->
     kernel_gaussian h w sx sy i j <= kernel_gaussian h w sx sy i' j') /\
  (h = w -> sx = sy -> forall i j, (i < h)%nat -> (j < w)%nat -> kernel_gaussian h w sx sy j i = kernel_gaussian h w sx sy i j).
Proof.
  intros Hx Hy. split; [|split].
  - intros i j Hi Hj. rewrite !C75_gaussian by (auto || lia). unfold bump. rewrite !offset_flip by auto.
    replace ((- offset h i) ^ 2) with (offset h i ^ 2) by ring. replace ((- offset w j) ^ 2) with (offset w j ^ 2) by ring. auto.
  - intros i j i' j' Hi Hj Hi' Hj' Di Dj. rewrite !C75_gaussian by auto.
    assert (M : forall n s p q, s <> 0 -> Rabs (offset n q) <= Rabs (offset n p) -> bump n s p <= bump n s q).
    { intros n s p q Hs D. unfold bump. assert (offset n q ^ 2 <= offset n p ^ 2) by (rewrite <- (pow2_abs (offset n q)), <- (pow2_abs (offset n p)); pose proof (Rabs_pos (offset n q)); nra).
      assert (0 < / (2 * s ^ 2)) by (apply Rinv_0_lt_compat; assert (0 < s ^ 2) by (rewrite <- Rsqr_pow2; now apply Rlt_0_sqr); lra).
      assert (A : - (offset n p ^ 2) / (2 * s ^ 2) <= - (offset n q ^ 2) / (2 * s ^ 2)) by (apply Rmult_le_compat_r; lra).
      destruct A as [A| ->]; [left; now apply exp_increasing|right; reflexivity]. }
    pose proof (bump_sum h (sy / 2) ltac:(lia)) as P1. pose proof (bump_sum w (sx / 2) ltac:(lia)) as P2.
    assert (I1 : 0 < / rsum h (bump h (sy / 2))) by now apply Rinv_0_lt_compat. assert (I2 : 0 < / rsum w (bump w (sx / 2))) by now apply Rinv_0_lt_compat.
    apply Rmult_le_compat; try (left; apply Rdiv_lt_0_compat; auto; apply exp_pos); apply Rmult_le_compat_r; try lra; apply M; auto; lra.
  - intros -> -> i j Hi Hj. rewrite !C75_gaussian by auto. ring.
Qed.
Print Assumptions C75_gaussian_shape.
(** The parameter sigma is not the standard deviation of the sampled Gaussian:
    the weight at distance 1 relative to the centre is not exp (-1 / (2 sigma^2)). *)
Theorem C75_gaussian_sigma_refuted : exists h w sx sy, 0 < sx /\ 0 < sy /\
  kernel_gaussian h w sx sy 1 2 <> exp (- 1 ^ 2 / (2 * sx ^ 2)) * kernel_gaussian h w sx sy 1 1.
Proof.
  exists 3%nat, 3%nat, 1, 1. split; [lra|]. split; [lra|]. rewrite !C75_gaussian by (lra || lia).
  pose proof (bump_sum 3 (1 / 2) ltac:(lia)) as P. set (S := rsum 3 (bump 3 (1 / 2))) in *. intros E.
  assert (B1 : bump 3 (1 / 2) 1 = 1). { unfold bump, offset. cbn. replace (- _ / _) with 0 by field. apply exp_0. }
  assert (B2 : bump 3 (1 / 2) 2 = exp (-2)). { unfold bump, offset. cbn. f_equal. field. }
  rewrite B1, B2 in E. replace (- 1 ^ 2 / (2 * 1 ^ 2)) with (- (1 / 2)) in E by field.
  assert (Q : exp (-2) = exp (- (1 / 2))). { apply Rmult_eq_reg_r with (1 / S * (1 / S)); [unfold Rdiv in *; lra|]. apply Rgt_not_eq. apply Rmult_lt_0_compat; apply Rdiv_lt_0_compat; lra. }
  apply exp_inv in Q. lra.
Qed.
Print Assumptions C75_gaussian_sigma_refuted.

(** *** the Ricker wavelet *)
(** even, peak 1 at the origin, bounded by it, zero exactly where (pi f0 t)^2 = 1/2 *)
Theorem C75_ricker_shape t f0 : ricker 0 f0 = 1 /\ ricker (- t) f0 = ricker t f0 /\ ricker t f0 <= 1 /\
  - 2 * exp (- (3 / 2)) <= ricker t f0 /\ (ricker t f0 = 0 <-> (PI * f0 * t) ^ 2 = 1 / 2).
Proof.
  unfold ricker. split; [replace (PI * f0 * 0) with 0 by ring; replace (- 0 ^ 2) with 0 by ring; rewrite exp_0; ring|].
  split; [replace (PI * f0 * - t) with (- (PI * f0 * t)) by ring; replace ((- (PI * f0 * t)) ^ 2) with ((PI * f0 * t) ^ 2) by ring; reflexivity|].
  set (u := (PI * f0 * t) ^ 2). assert (Hu : 0 <= u) by apply pow2_ge_0. pose proof (exp_pos (- u)) as P.
  assert (One : exp (- u) <= 1) by (rewrite <- exp_0; destruct (Req_dec u 0) as [->|]; [right; f_equal; ring|left; apply exp_increasing; lra]).
  split; [nra|]. split.
  - (* 2u - 1 <= 2 exp (u - 3/2) *)
    assert (Q : 1 + (u - 3 / 2) <= exp (u - 3 / 2)) by (destruct (Req_dec (u - 3 / 2) 0) as [E|N]; [rewrite E, exp_0; lra|left; now apply exp_ineq1]).
    assert (Ex : exp (u - 3 / 2) * exp (- u) = exp (- (3 / 2))) by (rewrite <- exp_plus; f_equal; ring).
    assert ((1 + (u - 3 / 2)) * exp (- u) <= exp (u - 3 / 2) * exp (- u)) by (apply Rmult_le_compat_r; lra). nra.
  - split; [intros E; nra|intros E; rewrite E; field].
Qed.
Print Assumptions C75_ricker_shape.
(** the bound from below is attained at (pi f0 t)^2 = 3/2 *)
Theorem C75_ricker_trough t f0 : (PI * f0 * t) ^ 2 = 3 / 2 -> ricker t f0 = - 2 * exp (- (3 / 2)).
Proof. intros E. unfold ricker. rewrite E. field. Qed.
Print Assumptions C75_ricker_trough.
Example C75_ricker_trough_ex : (PI * 1 * (sqrt (3 / 2) / PI)) ^ 2 = 3 / 2.
Proof. replace (PI * 1 * (sqrt (3 / 2) / PI)) with (sqrt (3 / 2)) by (field; apply PI_neq0). rewrite <- Rsqr_pow2. apply Rsqr_sqrt. lra. Qed.
(** it has no constant component: t exp (-(pi f0 t)^2) is an antiderivative, and it
    vanishes at infinity *)
Theorem C75_ricker_mean f0 : 0 < f0 ->
  (forall t, derivable_pt_lim (fun t => t * exp (- (PI * f0 * t) ^ 2)) t (ricker t f0)) /\
  (forall eps, 0 < eps -> exists T, forall t, T <= Rabs t -> Rabs (t * exp (- (PI * f0 * t) ^ 2)) < eps).
Proof.
  intros Hf. set (a := PI * f0). assert (Pa : 0 < a) by (unfold a; apply Rmult_lt_0_compat; auto; apply PI_RGT_0). split.
  - intros t. unfold ricker. fold a.
    assert (D : derivable_pt_lim (fun t => t * exp (- (a * t) ^ 2)) t (1 * exp (- (a * t) ^ 2) + t * (exp (- (a * t) ^ 2) * (- (a * a * (2 * t)))))).
    { apply (derivable_pt_lim_mult (fun t => t) (fun t => exp (- (a * t) ^ 2))); [apply derivable_pt_lim_id|].
      apply (derivable_pt_lim_comp (fun t => - (a * t) ^ 2) exp); [|apply derivable_pt_lim_exp].
      apply (derivable_pt_lim_opp (fun t => (a * t) ^ 2)). 
      replace (fun t0 : R => (a * t0) ^ 2) with (fun t0 : R => (a * a) * (t0 ^ 2)) by (apply FunctionalExtensionality.functional_extensionality; intros; ring).
      apply (derivable_pt_lim_scal (fun t => t ^ 2) (a * a)). replace (2 * t) with (INR 2 * t ^ (Nat.pred 2)) by (cbn; ring). apply derivable_pt_lim_pow. }
    replace ((1 - 2 * (a * t) ^ 2) * exp (- (a * t) ^ 2)) with (1 * exp (- (a * t) ^ 2) + t * (exp (- (a * t) ^ 2) * (- (a * a * (2 * t))))) by ring. exact D.
  - clearbody a. intros eps He. exists (1 / (a * a * eps) + 1). intros t Ht.
    assert (Pe : 0 < 1 / (a * a * eps)) by (apply Rdiv_lt_0_compat; [lra|]; repeat apply Rmult_lt_0_compat; auto).
    set (r := Rabs t) in *.
    assert (Pr : 0 < r) by lra. replace ((a * t) ^ 2) with ((a * r) ^ 2) by (unfold r; rewrite !Rpow_mult_distr, pow2_abs; reflexivity).
    rewrite Rabs_mult. fold r. rewrite (Rabs_right (exp _)) by (left; apply exp_pos).
    assert (E : (a * r) ^ 2 < exp ((a * r) ^ 2)). { pose proof (exp_ineq1 ((a * r) ^ 2)) as Q. assert (0 < (a * r) ^ 2) by (apply pow_lt; nra). lra. }
    rewrite exp_Ropp. assert (P2 : 0 < (a * r) ^ 2) by (apply pow_lt; nra).
    apply Rlt_trans with (r * / (a * r) ^ 2); [apply Rmult_lt_compat_l; auto; apply Rinv_lt_contravar; auto; nra|].
    replace (r * / (a * r) ^ 2) with (1 / (a * a) * / r) by (field; lra).
    apply Rmult_lt_reg_r with r; auto. rewrite Rmult_assoc, Rinv_l, Rmult_1_r by lra.
    assert (eps * (1 / (a * a * eps)) = 1 / (a * a)) by (field; lra). nra.
Qed.
Print Assumptions C75_ricker_mean.
