(** C81: elementwise thresholding and projections in floating point arithmetic.
    C82: sums, inner products, norms, matrix products and running sums in floating point
    arithmetic, whatever the order of evaluation.
    C83: the residual kept by matching pursuit and conjugate gradients in floating point
    arithmetic.
    Theorems over emin and prec hold in every binary format with gradual underflow; the
    refutations are in float32.  Overflow is not modelled. *)
From Coq Require Import List Arith ZArith Reals Lra Lia Permutation.
From Flocq Require Import Core.
From Verif Require Import FpSpec FpModel FpProofs FpLinModel FpProofs2 FpProofs3 FpProofs4 FpProofs5.
Import ListNotations.
Local Open Scope R_scope.
Notation rs := FpSpec.rs.

Lemma nth_map_R (f : R -> R) l i : (i < length l)%nat -> nth i (map f l) 0 = f (nth i l 0).
Proof. intros H. rewrite (nth_indep _ 0 (f 0)) by (rewrite map_length; auto). now rewrite map_nth. Qed.
Lemma nth_Forall_R (P : R -> Prop) l i : Forall P l -> (i < length l)%nat -> P (nth i l 0).
Proof. intros F H. rewrite Forall_forall in F. apply F, nth_In, H. Qed.

(** ** C81 *)
(** shrink and soft_threshold return the exact soft threshold
    rounded once *)
Theorem C81_shrink_rounded emin prec (Hp : (0 < prec)%Z) a kappa i :
  Forall (is_float emin prec) a -> is_float emin prec kappa -> 0 <= kappa -> (i < length a)%nat ->
  (Rabs (nth i a 0) <= kappa -> nth i (fshrink emin prec a kappa) 0 = 0) /\
  (kappa < nth i a 0 -> nth i (fshrink emin prec a kappa) 0 = fl emin prec (nth i a 0 - kappa)) /\
  (nth i a 0 < - kappa -> nth i (fshrink emin prec a kappa) 0 = fl emin prec (nth i a 0 + kappa)).
Proof.
  intros Fa Fk Hk Hi. unfold fshrink. rewrite nth_map_R by auto. assert (F := nth_Forall_R _ _ _ Fa Hi).
  rewrite (@fshrink_rounded emin prec Hp) by auto. destruct (shrink_cases kappa (nth i a 0) Hk) as [[H ->]|[[H ->]|[H ->]]].
  - pose proof (Rle_abs (nth i a 0)). pose proof (Rle_abs (- nth i a 0)) as Q. rewrite Rabs_Ropp in Q. repeat split; intros; try lra. apply (@fl_0 emin prec).
  - repeat split; intros; auto; try lra. pose proof (Rle_abs (nth i a 0)). lra.
  - repeat split; intros; auto; try lra. pose proof (Rle_abs (- nth i a 0)) as Q. rewrite Rabs_Ropp in Q. lra.
Qed.
Print Assumptions C81_shrink_rounded.
Theorem C81_soft_threshold_rounded emin prec (Hp : (0 < prec)%Z) x tau i :
  Forall (is_float emin prec) x -> is_float emin prec tau -> 0 <= tau -> (i < length x)%nat ->
  (Rabs (nth i x 0) <= tau -> nth i (fsoft_threshold emin prec x tau) 0 = 0) /\
  (tau < nth i x 0 -> nth i (fsoft_threshold emin prec x tau) 0 = fl emin prec (nth i x 0 - tau)) /\
  (nth i x 0 < - tau -> nth i (fsoft_threshold emin prec x tau) 0 = fl emin prec (nth i x 0 + tau)).
Proof. exact (C81_shrink_rounded emin prec Hp x tau i). Qed.
Print Assumptions C81_soft_threshold_rounded.
(** the entries that become zero are exactly those of magnitude at most kappa: no
    underflow; no entry grows or changes sign, and the order of the entries is kept *)
Theorem C81_shrink_zero emin prec (Hp : (0 < prec)%Z) a kappa i :
  Forall (is_float emin prec) a -> is_float emin prec kappa -> 0 <= kappa -> (i < length a)%nat ->
  (nth i (fshrink emin prec a kappa) 0 = 0 <-> Rabs (nth i a 0) <= kappa).
Proof. intros Fa Fk Hk Hi. unfold fshrink. rewrite nth_map_R by auto. apply (@fshrink_zero emin prec Hp); auto. now apply nth_Forall_R. Qed.
Print Assumptions C81_shrink_zero.
Theorem C81_shrink_shrinks emin prec (Hp : (0 < prec)%Z) a kappa i :
  Forall (is_float emin prec) a -> is_float emin prec kappa -> 0 <= kappa -> (i < length a)%nat ->
  0 <= nth i (fshrink emin prec a kappa) 0 * nth i a 0 /\ Rabs (nth i (fshrink emin prec a kappa) 0) <= Rabs (nth i a 0).
Proof. intros Fa Fk Hk Hi. unfold fshrink. rewrite nth_map_R by auto. apply (@fshrink_shrinks emin prec Hp); auto. now apply nth_Forall_R. Qed.
Print Assumptions C81_shrink_shrinks.
Theorem C81_shrink_monotone emin prec (Hp : (0 < prec)%Z) a kappa i j :
  Forall (is_float emin prec) a -> is_float emin prec kappa -> 0 <= kappa -> (i < length a)%nat -> (j < length a)%nat ->
  nth i a 0 <= nth j a 0 -> nth i (fshrink emin prec a kappa) 0 <= nth j (fshrink emin prec a kappa) 0.
Proof. intros Fa Fk Hk Hi Hj H. unfold fshrink. rewrite !nth_map_R by auto. apply (@fshrink_monotone emin prec Hp); auto; now apply nth_Forall_R. Qed.
Print Assumptions C81_shrink_monotone.
(** in exact arithmetic shrinkage never increases the distance of two numbers; in float32
    it can *)
Theorem C81_shrink_nonexpansive_refuted : exists kappa a b, is_float emin32 prec32 kappa /\ is_float emin32 prec32 a /\ is_float emin32 prec32 b /\ 0 < kappa /\
  Rabs (nth 0 (fshrink emin32 prec32 [a; b] kappa) 0 - nth 1 (fshrink emin32 prec32 [a; b] kappa) 0) > Rabs (a - b).
Proof. exact shrink_expands. Qed.
Print Assumptions C81_shrink_nonexpansive_refuted.
Example C81_shrink_ex : Forall (is_float emin32 prec32) [c12; - 1] /\ is_float emin32 prec32 (bpow (-3)) /\ 0 <= bpow (-3) /\
  nth 0 (fshrink emin32 prec32 [c12; - 1] (bpow (-3))) 0 = c12 - bpow (-3).
Proof.
  assert (F1 : is_float emin32 prec32 1) by (change 1 with (bpow 0); apply bp32; lia).
  assert (F : Forall (is_float emin32 prec32) [c12; - 1]) by (repeat constructor; [apply c12_float|now apply float_opp]).
  assert (K : is_float emin32 prec32 (bpow (-3))) by (apply bp32; lia). repeat split; auto; [apply bpow_ge_0|].
  destruct (C81_shrink_rounded emin32 prec32 eq_refl [c12; - 1] (bpow (-3)) 0 F K (bpow_ge_0 _ _) ltac:(cbn; lia)) as [_ [H _]].
  rewrite H by (cbn [nth]; unfold c12; bp; lra). cbn [nth]. apply fl32_id.
  unfold c12. replace (4097 / 4096 - bpow (-3)) with (IZR 3585 * bpow (-12)) by (bp; field). apply float32_dyadic; [lia|reflexivity].
Qed.

(** project_to_box leaves the entries inside the box alone and never changes a sign; the
    other entries end up within two units in the last place of the radius, and not beyond
    it when the radius is a power of two such as the default 1; another radius can be
    exceeded *)
Theorem C81_box_inside emin prec (Hp : (0 < prec)%Z) x r i : (emin <= 0)%Z -> Forall (is_float emin prec) x -> 0 < r -> (i < length x)%nat ->
  0 <= nth i (fproject_to_box emin prec x r) 0 * nth i x 0 /\
  (Rabs (nth i x 0) <= r -> nth i (fproject_to_box emin prec x r) 0 = nth i x 0).
Proof.
  intros He Fx Hr Hi. unfold fproject_to_box. rewrite nth_map_R by auto. split; [apply (@fbox_sign emin prec Hp); auto|].
  intros H. apply (@fbox_inside emin prec Hp); auto. now apply nth_Forall_R.
Qed.
Print Assumptions C81_box_inside.
Theorem C81_box_outside_partial emin prec (Hp : (0 < prec)%Z) x r i : is_float emin prec r -> 0 < r -> (i < length x)%nat -> r < Rabs (nth i x 0) ->
  bpow (emin + prec - 1) <= r / Rabs (nth i x 0) -> bpow (emin + prec) <= r ->
  Rabs (Rabs (nth i (fproject_to_box emin prec x r) 0) - r) <= 2 * ulp1 prec * r.
Proof. intros Fr Hr Hi Ha Hu Hr'. unfold fproject_to_box. rewrite nth_map_R by auto. now apply (@fbox_bound emin prec Hp). Qed.
Print Assumptions C81_box_outside_partial.
Theorem C81_box_power_of_two emin prec k x i : (1 < prec)%Z -> (emin + prec <= k)%Z -> (i < length x)%nat -> bpow k < Rabs (nth i x 0) ->
  bpow (emin + prec - 1) <= bpow k / Rabs (nth i x 0) ->
  Rabs (nth i (fproject_to_box emin prec x (bpow k)) 0) <= bpow k.
Proof. intros Hp Hk Hi Ha Hu. unfold fproject_to_box. rewrite nth_map_R by auto. apply (@fbox_pow2 emin prec (Z.lt_trans _ _ _ Z.lt_0_1 Hp)); auto. Qed.
Print Assumptions C81_box_power_of_two.
Theorem C81_box_exceeded_refuted : exists r x, is_float emin32 prec32 r /\ is_float emin32 prec32 x /\ 0 < r /\
  nth 0 (fproject_to_box emin32 prec32 [x] r) 0 > r.
Proof. exact box_exceeds. Qed.
Print Assumptions C81_box_exceeded_refuted.
Example C81_box_ex : is_float emin32 prec32 3 /\ 3 < Rabs 21 /\ bpow (emin32 + prec32 - 1) <= 3 / Rabs 21 /\ bpow (emin32 + prec32) <= 3 /\
  bpow 0 < Rabs 21 /\ bpow (emin32 + prec32 - 1) <= bpow 0 / Rabs 21 /\ (emin32 + prec32 <= 0)%Z.
Proof.
  rewrite (Rabs_pos_eq 21) by lra. change (emin32 + prec32 - 1)%Z with (-126)%Z. change (emin32 + prec32)%Z with (-125)%Z.
  assert (B : bpow (-125) <= bpow (-10)) by (apply bpow_le; lia). assert (B' : bpow (-126) <= bpow (-10)) by (apply bpow_le; lia).
  revert B B'. rewrite (bpn 10). cbn [Z.pow_pos Pos.iter Z.mul Pos.mul]. rewrite bp0. intros B B'.
  repeat split; try lra; try lia. replace 3 with (IZR 3 * bpow 0) by (rewrite bp0; ring). apply float32_dyadic; [lia|reflexivity].
Qed.

(** project_to_real_upper_limit is exact *)
Theorem C81_upper_limit_exact emin prec x limit i : Forall (is_float emin prec) x -> is_float emin prec limit -> (i < length x)%nat ->
  let v := nth i (fproject_to_real_upper_limit x limit) 0 in
  is_float emin prec v /\ v <= limit /\ (nth i x 0 <= limit -> v = nth i x 0) /\ (limit < nth i x 0 -> v = limit).
Proof.
  intros Fx Fl Hi. unfold fproject_to_real_upper_limit. rewrite nth_map_R by auto. pose proof (nth_Forall_R _ _ _ Fx Hi). cbv zeta.
  unfold Rmin. destruct (Rle_dec (nth i x 0) limit); repeat split; auto; intros; lra.
Qed.
Print Assumptions C81_upper_limit_exact.

(** hard_threshold_percentile squares the percentile gamma, halves it, doubles it and takes
    the square root; the rounded result is gamma again, so exactly the entries of magnitude
    above gamma are kept, unless the square underflows *)
Theorem C81_percentile_partial emin prec x gamma : (1 < prec)%Z -> (emin + prec <= 2)%Z -> is_float emin prec gamma -> 0 < gamma ->
  bpow (emin + prec + 1) <= gamma * gamma ->
  fhard_threshold_percentile emin prec x gamma = map (fun a => if Rlt_dec gamma (Rabs a) then a else 0) x.
Proof. intros H1. apply (@percentile_keeps emin prec (Z.lt_trans _ _ _ Z.lt_0_1 H1) gamma x H1). Qed.
Print Assumptions C81_percentile_partial.
Theorem C81_percentile_underflow_refuted : exists gamma a, is_float emin32 prec32 gamma /\ is_float emin32 prec32 a /\ 0 < a /\ a < gamma /\
  fhard_threshold_percentile emin32 prec32 [a] gamma = [a].
Proof. exact percentile_underflow. Qed.
Print Assumptions C81_percentile_underflow_refuted.
Example C81_percentile_ex : (1 < prec32)%Z /\ (emin32 + prec32 <= 2)%Z /\ is_float emin32 prec32 c12 /\ 0 < c12 /\ bpow (emin32 + prec32 + 1) <= c12 * c12.
Proof.
  unfold emin32, prec32. repeat split; try lia; [apply c12_float|unfold c12; lra|]. apply Rle_trans with (bpow 0); [apply bpow_le; lia|]. rewrite bp0. unfold c12. lra.
Qed.

(** ** C82 *)
(** a sum, whatever the order and grouping of the additions *)
Theorem C82_sum_error emin prec (Hp : (0 < prec)%Z) x s : Forall (is_float emin prec) x -> fsum emin prec x s ->
  is_float emin prec s /\ Rabs (s - Rsum x) <= ((1 + ulp1 prec) ^ (length x - 1) - 1) * Rsum (map Rabs x).
Proof. intros F H. split; [destruct H as [d H]; eapply (@sum_eval_float emin prec Hp); eauto|now apply (@fsum_error emin prec Hp)]. Qed.
Print Assumptions C82_sum_error.
Theorem C82_sum_orders_close emin prec (Hp : (0 < prec)%Z) x s t : Forall (is_float emin prec) x -> fsum emin prec x s -> fsum emin prec x t ->
  Rabs (s - t) <= 2 * (((1 + ulp1 prec) ^ (length x - 1) - 1) * Rsum (map Rabs x)).
Proof. intros F H1 H2. now apply (@fsum_two emin prec Hp). Qed.
Print Assumptions C82_sum_orders_close.
(** sums of multiples of one power of two, such as integers, are exact in every order as
    long as the magnitudes add up to at most 2^prec units *)
Theorem C82_sum_exact emin prec (Hp : (0 < prec)%Z) k x s : (emin <= k)%Z -> Forall (multiple k) x -> Rsum (map Rabs x) <= bpow (k + prec) ->
  fsum emin prec x s -> s = Rsum x.
Proof. intros Hk F B [d H]. eapply (@sum_eval_exact emin prec Hp); eauto. Qed.
Print Assumptions C82_sum_exact.
Theorem C82_sum_order_refuted : exists x s t, Forall (is_float emin32 prec32) x /\ fsum emin32 prec32 x s /\ fsum emin32 prec32 x t /\ s <> t.
Proof. exact sum_order. Qed.
Print Assumptions C82_sum_order_refuted.
(** every sum and inner product has a result *)
Theorem C82_reductions_total emin prec x y : (exists s, fsum emin prec x s) /\ (exists s, fdot emin prec x y s).
Proof. split; [apply fsum_total|apply fdot_total]. Qed.
Print Assumptions C82_reductions_total.
Example C82_sum_ex : Forall (multiple 0) [3; - 5; 4] /\ Rsum (map Rabs [3; - 5; 4]) <= bpow (0 + prec32).
Proof.
  split.
  - repeat constructor; [exists 3%Z|exists (-5)%Z|exists 4%Z]; rewrite bp0; ring.
  - cbn [map]. rewrite (Rabs_pos_eq 3), (Rabs_left (- 5)), (Rabs_pos_eq 4) by lra. change (0 + prec32)%Z with 24%Z. rewrite bpp. unfold Rsum. cbn. lra.
Qed.

(** an inner product, with or without fused multiply-adds, in any order *)
Theorem C82_dot_error emin prec (Hp : (0 < prec)%Z) x y s n : length x = n -> length y = n -> fdot emin prec x y s ->
  is_float emin prec s /\
  Rabs (s - rs n (fun j => nth j x 0 * nth j y 0)) <=
    ((1 + ulp1 prec) ^ n - 1) * rs n (fun j => Rabs (nth j x 0 * nth j y 0)) + INR n * tiny emin * (1 + ulp1 prec) ^ n.
Proof.
  intros Hx Hy H. split; [eapply (@fdot_float emin prec Hp); eauto|]. pose proof (@fdot_error emin prec Hp _ _ _ H) as E.
  rewrite combine_length, Hx, Hy, Nat.min_id in E. rewrite (dot_seq x y n Hx Hy), (dot_abs_seq x y n Hx Hy) in E. exact E.
Qed.
Print Assumptions C82_dot_error.
(** the computed squared norm is never negative, and zero only if every square is at most
    half the smallest positive number; the computed norm has a small relative error when no
    square underflows, but the norm of a nonzero vector can be zero *)
Theorem C82_norm_nonneg emin prec (Hp : (0 < prec)%Z) x s : fdot emin prec x x s ->
  0 <= s /\ (s = 0 -> Forall (fun a => a * a <= tiny emin) x).
Proof.
  intros [d H]. split; [eapply (@square_eval_nonneg emin prec Hp); eauto using squares_combine|]. intros Z.
  pose proof (@square_eval_zero emin prec Hp _ _ _ H (squares_combine x) Z) as F. clear H.
  induction x as [|a x IH]; [constructor|]. cbn in F. inversion F; subst. constructor; auto.
Qed.
Print Assumptions C82_norm_nonneg.
Theorem C82_norm_error_partial emin prec (Hp : (0 < prec)%Z) x r : (emin + 2 * prec <= 2)%Z -> Forall (normal_sq emin prec) x -> fnorm emin prec x r ->
  let e := sqrt (rs (length x) (fun j => nth j x 0 * nth j x 0)) in
  Rabs (r - e) <= ((1 + ulp1 prec) ^ (length x + 1) - 1) * e.
Proof.
  intros He F H. pose proof (@fnorm_error emin prec Hp x r He H F) as E. rewrite (dot_seq x x (length x)) in E by auto. rewrite Nat.add_1_r. exact E.
Qed.
Print Assumptions C82_norm_error_partial.
Theorem C82_norm_zero_refuted : exists x, is_float emin32 prec32 x /\ x <> 0 /\ fnorm emin32 prec32 [x] 0.
Proof. exact norm_underflow. Qed.
Print Assumptions C82_norm_zero_refuted.
Example C82_norm_ex : (emin32 + 2 * prec32 <= 2)%Z /\ Forall (normal_sq emin32 prec32) [c12; 0; - 1].
Proof.
  split; [unfold emin32, prec32; lia|]. assert (B : bpow (emin32 + prec32 - 1) <= bpow 0) by (apply bpow_le; unfold emin32, prec32; lia). rewrite bp0 in B.
  apply Forall_cons; [right; unfold c12; lra|]. apply Forall_cons; [left; reflexivity|]. apply Forall_cons; [right; lra|constructor].
Qed.

(** the operator of a matrix and its transpose agree in the inner product up to rounding,
    but the dot test of the library, whose tolerance is relative to the inner product
    itself, can reject such a matrix *)
Theorem C82_matrix_adjoint_rounded emin prec (Hp : (0 < prec)%Z) m n A x v p q yy xx : is_matrix m n A -> length x = n -> length v = m ->
  fmatvec emin prec A x p -> fvecmat emin prec n A v q -> fdot emin prec p v yy -> fdot emin prec x q xx ->
  Rabs (yy - xx) <= 2 * ((1 + ulp1 prec) ^ (m + n) - 1) * bil_abs m n A v x
    + tiny emin * ((1 + ulp1 prec) ^ (m + n) * (INR n * rs m (fun i => Rabs (nth i v 0)) + INR m * rs n (fun j => Rabs (nth j x 0)))
                   + INR m * (1 + ulp1 prec) ^ m + INR n * (1 + ulp1 prec) ^ n).
Proof. exact (@adjoint_rounded emin prec Hp m n A x v p q yy xx). Qed.
Print Assumptions C82_matrix_adjoint_rounded.
Theorem C82_dot_test_refuted : exists A x v, Forall (Forall (is_float emin32 prec32)) A /\ Forall (is_float emin32 prec32) x /\ Forall (is_float emin32 prec32) v /\
  is_matrix 1 2 A /\ length x = 2%nat /\ length v = 1%nat /\
  fdot_test emin32 prec32 2 A x v (fl emin32 prec32 (/ 10 ^ 15)) (fl emin32 prec32 (/ 10 ^ 6)) False.
Proof. exact dot_test_rejects. Qed.
Print Assumptions C82_dot_test_refuted.
Example C82_matrix_ex : exists p q yy xx, fmatvec emin32 prec32 [[1; 2]; [3; 4]] [1; c12] p /\ fvecmat emin32 prec32 2 [[1; 2]; [3; 4]] [c12; 2] q /\
  fdot emin32 prec32 p [c12; 2] yy /\ fdot emin32 prec32 [1; c12] q xx.
Proof.
  destruct (fmatvec_total emin32 prec32 [[1; 2]; [3; 4]] [1; c12]) as [p Hpp].
  destruct (fdot_total emin32 prec32 (map (fun row => nth 0 row 0) [[1; 2]; [3; 4]]) [c12; 2]) as [q0 H0].
  destruct (fdot_total emin32 prec32 (map (fun row => nth 1 row 0) [[1; 2]; [3; 4]]) [c12; 2]) as [q1 H1].
  destruct (fdot_total emin32 prec32 p [c12; 2]) as [yy Hy]. destruct (fdot_total emin32 prec32 [1; c12] [q0; q1]) as [xx Hx].
  exists p, [q0; q1], yy, xx. repeat split; auto. repeat constructor; auto.
Qed.

(** inv_heaviside undoes cumsum up to rounding, but not exactly *)
Theorem C82_cumsum_diff emin prec (Hp : (0 < prec)%Z) x y i : Forall (is_float emin prec) x -> fcumsum emin prec x y -> (i < length x)%nat ->
  Rabs (nth i y 0 - Rsum (firstn (S i) x)) <= ((1 + ulp1 prec) ^ i - 1) * Rsum (map Rabs (firstn (S i) x)) /\
  Rabs (nth i (fdiff emin prec y) 0 - nth i x 0) <= 2 * ((1 + ulp1 prec) ^ length x - 1) * Rsum (map Rabs x).
Proof. intros F H Hi. split; [now apply (@fcumsum_error emin prec Hp)|now apply (@diff_cumsum_error emin prec Hp)]. Qed.
Print Assumptions C82_cumsum_diff.
Example C82_cumsum_ex : exists y, Forall (is_float emin32 prec32) [c12; 1] /\ fcumsum emin32 prec32 [c12; 1] y.
Proof.
  destruct (fsum_total emin32 prec32 [c12]) as [a Ha]. destruct (fsum_total emin32 prec32 [c12; 1]) as [b Hb]. exists [a; b].
  split; [|repeat constructor; auto]. repeat constructor; [apply c12_float|change 1 with (bpow 0); apply bp32; lia].
Qed.
Theorem C82_cumsum_inverse_refuted : exists x y, Forall (is_float emin32 prec32) x /\ fcumsum emin32 prec32 x y /\ fdiff emin32 prec32 y <> x.
Proof. exact cumsum_loss. Qed.
Print Assumptions C82_cumsum_inverse_refuted.

(** ** C83 *)
(** matching pursuit: every entry of the residual it keeps differs from the same entry of
    y - Phi x by at most the rounding errors of the updates made so far, each bounded by
    numbers the solver has computed *)
Theorem C83_mp_residual emin prec (Hp : (0 < prec)%Z) m n A y tr t : is_matrix m n A -> Forall (Forall (is_float emin prec)) A -> Forall (is_float emin prec) y ->
  length y = m -> (t < m)%nat -> fmp_trace emin prec n A (repeat 0 n) y tr ->
  Rabs (nth t (snd (mp_final n y tr)) 0 - resid n A y (fst (mp_final n y tr)) t) <=
  Rsum (map (fun it => let a := nth (mi_i it) (nth t A []) 0 in
    ulp1 prec * (Rabs (nth t (mi_r it) 0) + Rabs (mi_c it * a) + Rabs (a * nth (mi_i it) (mi_x it) 0)) + tiny emin) tr).
Proof. exact (@mp_drift emin prec Hp m n A y tr t). Qed.
Print Assumptions C83_mp_residual.
(** the two differ already after one iteration of some run *)
Theorem C83_mp_residual_exact_refuted : exists A y tr, Forall (Forall (is_float emin32 prec32)) A /\ Forall (is_float emin32 prec32) y /\ is_matrix 1 1 A /\ length y = 1%nat /\
  fmp_trace emin32 prec32 1 A (repeat 0 1) y tr /\ tr <> [] /\
  nth 0 (snd (mp_final 1 y tr)) 0 <> resid 1 A y (fst (mp_final 1 y tr)) 0.
Proof. exact mp_drifts. Qed.
Print Assumptions C83_mp_residual_exact_refuted.
(** conjugate gradients, the same with the error of the product A p *)
Theorem C83_cg_residual emin prec (Hp : (0 < prec)%Z) n A b x0 r0 tr t : is_matrix n n A -> Forall (is_float emin prec) b -> Forall (is_float emin prec) x0 ->
  length b = n -> length x0 = n -> (t < n)%nat -> fcg_run emin prec A b x0 r0 tr ->
  Rabs (nth t (snd (cg_final x0 r0 tr)) 0 - resid n A b (fst (cg_final x0 r0 tr)) t) <=
  (ulp1 prec * Rabs (nth t r0 0) + ((1 + ulp1 prec) ^ n - 1) * rs n (fun j => Rabs (nth j (nth t A []) 0 * nth j x0 0)) + INR n * tiny emin * (1 + ulp1 prec) ^ n) +
  Rsum (map (fun it =>
    ulp1 prec * (Rabs (nth t (ci_r it) 0) + Rabs (ci_a it * nth t (ci_q it) 0)) + tiny emin
    + Rabs (ci_a it) * (((1 + ulp1 prec) ^ n - 1) * rs n (fun j => Rabs (nth j (nth t A []) 0 * nth j (ci_p it) 0)) + INR n * tiny emin * (1 + ulp1 prec) ^ n)
    + rs n (fun j => Rabs (nth j (nth t A []) 0) * (ulp1 prec * (Rabs (nth j (ci_x it) 0) + Rabs (ci_a it * nth j (ci_p it) 0)) + tiny emin))) tr).
Proof. exact (@cg_drift emin prec Hp n A b x0 r0 tr t). Qed.
Print Assumptions C83_cg_residual.
(** a run of one iteration for the 1 x 1 identity with the start 1/4096 *)
Example C83_cg_ex : exists r0 tr, is_matrix 1 1 [[1]] /\ Forall (is_float emin32 prec32) [1] /\ Forall (is_float emin32 prec32) [/ 4096] /\
  fcg_run emin32 prec32 [[1]] [1] [/ 4096] r0 tr /\ length tr = 1%nat.
Proof.
  assert (F1 : is_float emin32 prec32 1) by (change 1 with (bpow 0); apply bp32; lia).
  assert (F2 : is_float emin32 prec32 (/ 4096)) by (replace (/ 4096) with (bpow (-12)) by (bp; field); apply bp32; lia).
  assert (F3 : is_float emin32 prec32 (4095 / 4096)) by (replace (4095 / 4096) with (IZR 4095 * bpow (-12)) by (bp; field); apply float32_dyadic; [lia|reflexivity]).
  assert (F4 : is_float emin32 prec32 (16769025 / 16777216)) by (replace (16769025 / 16777216) with (IZR 16769025 * bpow (-24)) by (bp; field); apply float32_dyadic; [lia|reflexivity]).
  assert (O : forall a b c, a * b = c -> is_float emin32 prec32 c -> fdot emin32 prec32 [a] [b] c).
  { intros a b c E F. exists 1%nat. cbn [combine]. replace c with (fl emin32 prec32 (a * b)); [constructor|]. rewrite E. now apply fl32_id. }
  exists [4095 / 4096], [CgIter 1 [4095 / 4096] [4095 / 4096] [1] [0] 0].
  split; [split; [reflexivity|repeat constructor]|]. split; [auto|]. split; [auto|]. split; [|reflexivity].
  exists [/ 4096], (16769025 / 16777216). split; [|split; [|split]].
  - constructor; [|constructor]. apply O; auto. ring.
  - cbn [combine map fst snd]. f_equal. replace (1 - / 4096) with (4095 / 4096) by field. symmetry. now apply fl32_id.
  - apply O; auto. field.
  - cbn [fcg_trace ci_a ci_p ci_q ci_x ci_r ci_rho]. exists [0]. split; [|exact Logic.I]. exists (16769025 / 16777216). cbn [ci_a ci_p ci_q ci_x ci_r ci_rho].
    split; [reflexivity|]. split; [constructor; [apply O; auto; ring|constructor]|]. split; [apply O; auto; field|]. split; [lra|]. split; [lra|].
    split; [replace (16769025 / 16777216 / (16769025 / 16777216)) with 1 by field; symmetry; now apply fl32_id|]. split; [reflexivity|]. split; [reflexivity|]. split.
    { intros [|j] H; cbn in H; [|lia]. cbn [nth]. right. replace (/ 4096 + 1 * (4095 / 4096)) with 1 by field. symmetry. now apply fl32_id. }
    split.
    { intros [|j] H; cbn in H; [|lia]. cbn [nth]. right. replace (4095 / 4096 + - (1) * (4095 / 4096)) with 0 by field. symmetry. apply (fl_0 emin32 prec32). }
    split; [apply O; [ring|apply float_0]|]. split; [reflexivity|].
    intros [|j] H; cbn in H; [|lia]. cbn [nth]. right. replace (0 / (16769025 / 16777216)) with 0 by field. rewrite fl_0, Rmult_0_l, Rplus_0_l. symmetry. apply (fl_0 emin32 prec32).
Qed.
