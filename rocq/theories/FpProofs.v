From Coq Require Import List ZArith Reals Lra Lia Permutation.
From Flocq Require Import Core Relative Plus_error.
From Verif Require Import FpSpec FpModel.
Import ListNotations.
Local Open Scope R_scope.

Section P.
  Variables emin prec : Z.
  Context {Hp : Prec_gt_0 prec}.
  Notation fl := (fl emin prec).
  Notation is_float := (is_float emin prec).
  Notation u := (ulp1 prec).
  Notation bpow := (bpow radix2).
  Notation fexp := (FLT_exp emin prec).

  Lemma fl_float x : is_float (fl x).
  Proof. apply generic_format_round; [apply FLT_exp_valid; exact Hp|apply valid_rnd_N]. Qed.
  Lemma fl_id x : is_float x -> fl x = x.
  Proof. apply round_generic, valid_rnd_N. Qed.
  Lemma fl_le x y : x <= y -> fl x <= fl y.
  Proof. apply round_le; [apply FLT_exp_valid; exact Hp|apply valid_rnd_N]. Qed.
  Lemma float_0 : is_float 0. Proof. apply generic_format_0. Qed.
  Lemma fl_0 : fl 0 = 0. Proof. apply fl_id, float_0. Qed.
  Lemma fl_nonneg x : 0 <= x -> 0 <= fl x.
  Proof. intros H. rewrite <- fl_0. now apply fl_le. Qed.
  Lemma fl_nonpos x : x <= 0 -> fl x <= 0.
  Proof. intros H. rewrite <- fl_0. now apply fl_le. Qed.
  Lemma fl_opp x : fl (- x) = - fl x.
  Proof. apply round_NE_opp. Qed.
  Lemma float_opp x : is_float x -> is_float (- x).
  Proof. apply generic_format_opp. Qed.
  Lemma fl_abs x : fl (Rabs x) = Rabs (fl x).
  Proof.
    unfold Rabs at 1. destruct (Rcase_abs x).
    - rewrite fl_opp, Rabs_left1; [reflexivity|apply fl_nonpos; lra].
    - rewrite Rabs_pos_eq; [reflexivity|apply fl_nonneg; lra].
  Qed.
  Lemma u_pos : 0 < u. Proof. apply bpow_gt_0. Qed.
  Lemma u_ro_eq : u_ro radix2 prec = u.
  Proof.
    unfold u_ro, ulp1. change (/ 2) with (bpow (-1)). rewrite <- bpow_plus. f_equal. lia.
  Qed.
  Lemma u_le_half : u <= / 2.
  Proof. unfold ulp1. change (/ 2) with (bpow (-1)). apply bpow_le. unfold Prec_gt_0 in Hp. lia. Qed.
  Lemma tiny_eq : / 2 * bpow emin = tiny emin.
  Proof. unfold tiny. change (/ 2) with (bpow (-1)). rewrite <- bpow_plus. f_equal. lia. Qed.
  Lemma tiny_pos : 0 < tiny emin. Proof. apply bpow_gt_0. Qed.

  (** one rounding *)
  Lemma fl_err x : Rabs (fl x - x) <= u * Rabs x + tiny emin.
  Proof.
    destruct (error_N_FLT radix2 emin prec Hp (fun t => negb (Z.even t)) x) as (e & h & He & Hh & _ & E).
    change (/ 2 * bpow (- prec + 1)) with (u_ro radix2 prec) in He. rewrite u_ro_eq in He. rewrite tiny_eq in Hh.
    unfold FpSpec.fl. rewrite E.
    replace (x * (1 + e) + h - x) with (e * x + h) by ring.
    eapply Rle_trans; [apply Rabs_triang|]. rewrite Rabs_mult. apply Rplus_le_compat; [|exact Hh].
    apply Rmult_le_compat_r; [apply Rabs_pos|exact He].
  Qed.
  Lemma fl_err_add x y : is_float x -> is_float y -> Rabs (fl (x + y) - (x + y)) <= u * Rabs (x + y).
  Proof.
    intros Fx Fy. destruct (FLT_plus_error_N_ex radix2 emin prec (fun t => negb (Z.even t)) x y Fx Fy) as (e & He & E).
    rewrite u_ro_eq in He. unfold FpSpec.fl. rewrite E. replace ((x + y) * (1 + e) - (x + y)) with (e * (x + y)) by ring.
    rewrite Rabs_mult. apply Rmult_le_compat_r; [apply Rabs_pos|]. eapply Rle_trans; [exact He|].
    pose proof u_pos. apply Rmult_le_reg_r with (1 + u); [lra|]. unfold Rdiv. rewrite Rmult_assoc, Rinv_l by lra. nra.
  Qed.
  Lemma fl_err_add_post x y : is_float x -> is_float y -> Rabs (fl (x + y) - (x + y)) <= u * Rabs (fl (x + y)).
  Proof.
    intros Fx Fy. destruct (FLT_plus_error_N_round_ex radix2 emin prec (fun t => negb (Z.even t)) x y Fx Fy) as (e & He & E).
    rewrite u_ro_eq in He. change (x + y = fl (x + y) * (1 + e)) in E.
    set (f := fl (x + y)) in *. replace (f - (x + y)) with (- (f * e)) by (rewrite E; ring).
    rewrite Rabs_Ropp, Rabs_mult, Rmult_comm. apply Rmult_le_compat_r; [apply Rabs_pos|exact He].
  Qed.
  Lemma fl_err_sub x y : is_float x -> is_float y -> Rabs (fl (x - y) - (x - y)) <= u * Rabs (x - y).
  Proof. intros Fx Fy. apply (fl_err_add x (- y) Fx (float_opp _ Fy)). Qed.
  (** relative error away from underflow *)
  Lemma fl_rel x : bpow (emin + prec - 1) <= Rabs x -> Rabs (fl x - x) <= u / (1 + u) * Rabs x.
  Proof.
    intros H. destruct (relative_error_N_FLX'_ex radix2 prec Hp (fun t => negb (Z.even t)) x) as (e & He & E).
    rewrite u_ro_eq in He. unfold FpSpec.fl. rewrite <- (round_FLT_FLX radix2 emin prec _ x H) in E. rewrite E.
    replace (x * (1 + e) - x) with (e * x) by ring. rewrite Rabs_mult. apply Rmult_le_compat_r; [apply Rabs_pos|exact He].
  Qed.
  Lemma fl_add_0 x y : is_float x -> is_float y -> fl (x + y) = 0 -> x + y = 0.
  Proof. intros Fx Fy. apply (@round_plus_eq_0 radix2 fexp (FLT_exp_valid emin prec) _ _ (valid_rnd_N _)); auto. Qed.

  (** evaluating a rounding *)
  Lemma fl_near m k x : (emin <= k)%Z -> bpow (k + prec - 1) <= Rabs x < bpow (k + prec) -> Rabs (x - IZR m * bpow k) < / 2 * bpow k -> fl x = IZR m * bpow k.
  Proof.
    intros Hk Hx H. unfold FpSpec.fl, round. assert (E : cexp radix2 fexp x = k).
    { unfold cexp. rewrite (mag_unique radix2 x (k + prec)) by exact Hx. unfold FLT_exp. unfold Prec_gt_0 in Hp. lia. }
    unfold F2R, scaled_mantissa. rewrite E. cbn [Fnum Fexp]. f_equal. f_equal. apply Znearest_imp.
    assert (B : 0 < bpow k) by apply bpow_gt_0. assert (I : bpow (- k) * bpow k = 1) by (rewrite <- bpow_plus; replace (- k + k)%Z with 0%Z by lia; reflexivity).
    assert (B' : 0 < bpow (- k)) by apply bpow_gt_0.
    replace (x * bpow (- k) - IZR m) with ((x - IZR m * bpow k) * bpow (- k)) by (ring_simplify; rewrite Rmult_assoc, (Rmult_comm (bpow k)), I; ring).
    rewrite Rabs_mult, (Rabs_pos_eq (bpow (- k))) by lra. apply Rmult_lt_reg_r with (bpow k); [exact B|]. rewrite Rmult_assoc, I. lra.
  Qed.
  Lemma fl_tie_even m k : (emin <= k)%Z -> bpow (k + prec - 1) <= Rabs ((IZR m + / 2) * bpow k) < bpow (k + prec) -> Z.even m = true -> fl ((IZR m + / 2) * bpow k) = IZR m * bpow k.
  Proof.
    intros Hk Hx Hm. set (x := (IZR m + / 2) * bpow k) in *. unfold FpSpec.fl, round. assert (E : cexp radix2 fexp x = k).
    { unfold cexp. rewrite (mag_unique radix2 x (k + prec)) by exact Hx. unfold FLT_exp. unfold Prec_gt_0 in Hp. lia. }
    unfold F2R, scaled_mantissa. rewrite E. cbn [Fnum Fexp]. f_equal. f_equal.
    replace (x * bpow (- k)) with (IZR m + / 2).
    2:{ unfold x. rewrite Rmult_assoc, <- bpow_plus. replace (k + - k)%Z with 0%Z by lia. cbn. ring. }
    assert (Fl : Zfloor (IZR m + / 2) = m) by (apply Zfloor_imp; rewrite plus_IZR; lra).
    unfold Znearest. rewrite Fl. replace (IZR m + / 2 - IZR m) with (/ 2) by ring. rewrite Rcompare_Eq by reflexivity. rewrite Hm. reflexivity.
  Qed.

  (** *** soft thresholding *)
  Definition shrink_exact (k a : R) : R := Rmax 0 (a - k) + Rmin 0 (a + k).
  Lemma fshrink_rounded k a : is_float k -> is_float a -> 0 <= k -> fshrink1 emin prec k a = fl (shrink_exact k a).
  Proof.
    intros Fk Fa Hk. unfold fshrink1, shrink_exact.
    destruct (Rle_or_lt 0 (a + k)) as [H1|H1].
    - rewrite (Rmin_left 0 (fl (a + k))) by (now apply fl_nonneg). rewrite (Rmin_left 0 (a + k)) by auto. rewrite !Rplus_0_r.
      destruct (Rle_or_lt 0 (a - k)) as [H2|H2].
      + rewrite Rmax_right by (now apply fl_nonneg). rewrite Rmax_right by auto. apply fl_id, fl_float.
      + rewrite Rmax_left by (apply fl_nonpos; lra). rewrite Rmax_left by lra. reflexivity.
    - rewrite (Rmin_right 0 (fl (a + k))) by (apply fl_nonpos; lra). rewrite (Rmin_right 0 (a + k)) by lra.
      rewrite Rmax_left by (apply fl_nonpos; lra). rewrite Rmax_left by lra. rewrite !Rplus_0_l. apply fl_id, fl_float.
  Qed.
  Lemma shrink_cases k a : 0 <= k -> (Rabs a <= k /\ shrink_exact k a = 0) \/ (k < a /\ shrink_exact k a = a - k) \/ (a < - k /\ shrink_exact k a = a + k).
  Proof.
    intros Hk. unfold shrink_exact. destruct (Rle_or_lt a k) as [H1|H1].
    - destruct (Rle_or_lt (- k) a) as [H2|H2].
      + left. split; [apply Rabs_le; lra|]. rewrite Rmax_left, Rmin_left by lra. ring.
      + right; right. split; [lra|]. rewrite Rmax_left, Rmin_right by lra. ring.
    - right; left. split; [lra|]. rewrite Rmax_right, Rmin_left by lra. ring.
  Qed.
  Lemma fshrink_zero k a : is_float k -> is_float a -> 0 <= k -> (fshrink1 emin prec k a = 0 <-> Rabs a <= k).
  Proof.
    intros Fk Fa Hk. rewrite fshrink_rounded by auto. destruct (shrink_cases k a Hk) as [[H E] | [[H E] | [H E]]]; rewrite E.
    - rewrite fl_0. tauto.
    - split; intros Q.
      + apply (fl_add_0 a (- k) Fa (float_opp _ Fk)) in Q. lra.
      + rewrite Rabs_pos_eq in Q; lra.
    - split; intros Q.
      + apply (fl_add_0 a k Fa Fk) in Q. lra.
      + rewrite Rabs_left1 in Q; lra.
  Qed.
  Lemma fshrink_shrinks k a : is_float k -> is_float a -> 0 <= k -> 0 <= fshrink1 emin prec k a * a /\ Rabs (fshrink1 emin prec k a) <= Rabs a.
  Proof.
    intros Fk Fa Hk. rewrite fshrink_rounded by auto. destruct (shrink_cases k a Hk) as [[H E] | [[H E] | [H E]]]; rewrite E.
    - rewrite fl_0, Rabs_R0, Rmult_0_l. split; [lra|apply Rabs_pos].
    - assert (0 <= fl (a - k)) by (apply fl_nonneg; lra). assert (fl (a - k) <= a) by (rewrite <- (fl_id a Fa) at 2; apply fl_le; lra).
      split; [apply Rmult_le_pos; lra|]. rewrite !Rabs_pos_eq; lra.
    - assert (fl (a + k) <= 0) by (apply fl_nonpos; lra). assert (a <= fl (a + k)) by (rewrite <- (fl_id a Fa) at 1; apply fl_le; lra).
      split; [nra|]. rewrite !Rabs_left1; lra.
  Qed.
  Lemma fshrink_monotone k a b : is_float k -> is_float a -> is_float b -> 0 <= k -> a <= b -> fshrink1 emin prec k a <= fshrink1 emin prec k b.
  Proof.
    intros Fk Fa Fb Hk H. rewrite !fshrink_rounded by auto. apply fl_le.
    destruct (shrink_cases k a Hk) as [[H1 E1] | [[H1 E1] | [H1 E1]]], (shrink_cases k b Hk) as [[H2 E2] | [[H2 E2] | [H2 E2]]]; rewrite E1, E2;
      try (apply Rabs_le_inv in H1); try (apply Rabs_le_inv in H2); lra.
  Qed.
  Lemma fshrink_error k a : is_float k -> is_float a -> 0 <= k -> Rabs (fshrink1 emin prec k a - shrink_exact k a) <= u * Rabs (shrink_exact k a).
  Proof.
    intros Fk Fa Hk. rewrite fshrink_rounded by auto. destruct (shrink_cases k a Hk) as [[H E] | [[H E] | [H E]]]; rewrite E.
    - rewrite fl_0, Rminus_0_r, !Rabs_R0, Rmult_0_r. lra.
    - now apply fl_err_sub.
    - now apply fl_err_add.
  Qed.

  (** *** box *)
  Lemma float_bpow k : (emin <= k)%Z -> is_float (bpow k).
  Proof. intros H. apply generic_format_bpow'; [apply FLT_exp_valid; exact Hp|]. unfold FLT_exp. unfold Prec_gt_0 in Hp. lia. Qed.
  Definition fbox1 (r a : R) : R := fl (a * fl (r / Rmax (Rabs a) r)).
  Lemma fbox_inside r a : (emin <= 0)%Z -> is_float a -> 0 < r -> Rabs a <= r -> fbox1 r a = a.
  Proof.
    intros He Fa Hr Ha. unfold fbox1. rewrite Rmax_right by auto. unfold Rdiv. rewrite Rinv_r by lra.
    rewrite (fl_id 1) by (change 1 with (bpow 0); now apply float_bpow). rewrite Rmult_1_r. now apply fl_id.
  Qed.
  Lemma fbox_sign r a : 0 < r -> 0 <= fbox1 r a * a.
  Proof.
    intros Hr. unfold fbox1. set (t := fl (r / Rmax (Rabs a) r)).
    assert (Ht : 0 <= t). { apply fl_nonneg. apply Rmult_le_pos; [lra|]. apply Rlt_le, Rinv_0_lt_compat. eapply Rlt_le_trans; [exact Hr|apply Rmax_r]. }
    destruct (Rle_or_lt 0 a) as [Ha|Ha].
    - apply Rmult_le_pos; [|auto]. apply fl_nonneg, Rmult_le_pos; auto.
    - assert (fl (a * t) <= 0) by (apply fl_nonpos; nra). nra.
  Qed.
  (** the magnitude of the product before the last rounding *)
  Lemma fbox_product r a : 0 < r -> r < Rabs a -> bpow (emin + prec - 1) <= r / Rabs a ->
    Rabs (Rabs a * fl (r / Rabs a) - r) <= u / (1 + u) * r.
  Proof.
    intros Hr Ha Hu. assert (Pa : 0 < Rabs a) by lra.
    assert (Q : 0 < r / Rabs a) by (apply Rdiv_lt_0_compat; lra).
    pose proof (fl_rel (r / Rabs a)) as H. rewrite (Rabs_pos_eq (r / Rabs a)) in H by lra. specialize (H Hu).
    replace (Rabs a * fl (r / Rabs a) - r) with (Rabs a * (fl (r / Rabs a) - r / Rabs a)) by (field; lra).
    rewrite Rabs_mult, Rabs_Rabsolu. replace (u / (1 + u) * r) with (Rabs a * (u / (1 + u) * (r / Rabs a))) by (field; pose proof u_pos; lra).
    apply Rmult_le_compat_l; lra.
  Qed.
  Lemma fbox_abs r a : 0 < r -> Rabs (fbox1 r a) = fl (Rabs a * fl (r / Rmax (Rabs a) r)).
  Proof.
    intros Hr. unfold fbox1. rewrite <- fl_abs, Rabs_mult. f_equal. f_equal. apply Rabs_pos_eq, fl_nonneg, Rmult_le_pos; [lra|].
    apply Rlt_le, Rinv_0_lt_compat. eapply Rlt_le_trans; [exact Hr|apply Rmax_r].
  Qed.
  Lemma u_frac : 0 < u / (1 + u) /\ u / (1 + u) < u.
  Proof.
    pose proof u_pos as U. split; [apply Rdiv_lt_0_compat; lra|]. apply Rmult_lt_reg_r with (1 + u); [lra|]. unfold Rdiv. rewrite Rmult_assoc, Rinv_l by lra. nra.
  Qed.
  Lemma fbox_bound r a : is_float r -> 0 < r -> r < Rabs a -> bpow (emin + prec - 1) <= r / Rabs a -> bpow (emin + prec) <= r ->
    Rabs (Rabs (fbox1 r a) - r) <= 2 * u * r.
  Proof.
    intros Fr Hr Ha Hu Hr'. rewrite fbox_abs by auto. rewrite Rmax_left by lra. pose proof (fbox_product r a Hr Ha Hu) as H.
    set (p := Rabs a * fl (r / Rabs a)) in *. destruct u_frac as [U1 U2]. pose proof u_pos as U. pose proof u_le_half as UH.
    assert (HE : u / (1 + u) <= / 3). { apply Rmult_le_reg_r with (1 + u); [lra|]. unfold Rdiv. rewrite Rmult_assoc, Rinv_l by lra. lra. }
    assert (Pp : 0 <= p) by (unfold p; apply Rmult_le_pos; [apply Rabs_pos|]; apply fl_nonneg; apply Rmult_le_pos; [lra|apply Rlt_le, Rinv_0_lt_compat; lra]).
    assert (Hp' : bpow (emin + prec - 1) <= Rabs p).
    { rewrite Rabs_pos_eq by auto. apply Rabs_le_inv in H. assert (bpow (emin + prec) = 2 * bpow (emin + prec - 1)).
      { change 2 with (bpow 1). rewrite <- bpow_plus. f_equal. lia. } nra. }
    pose proof (fl_rel p Hp') as H2. rewrite (Rabs_pos_eq p) in H2 by auto.
    replace (fl p - r) with ((fl p - p) + (p - r)) by ring. eapply Rle_trans; [apply Rabs_triang|].
    apply Rabs_le_inv in H. assert (p <= (1 + u / (1 + u)) * r) by lra.
    assert (E : u / (1 + u) * (1 + u / (1 + u)) + u / (1 + u) <= 2 * u).
    { set (v := u / (1 + u)) in *. assert (v * (1 + u) = u) by (unfold v; field; lra). nra. }
    assert (Rabs (p - r) <= u / (1 + u) * r) by (apply Rabs_le; lra).
    assert (u / (1 + u) * p <= u / (1 + u) * ((1 + u / (1 + u)) * r)) by (apply Rmult_le_compat_l; lra).
    nra.
  Qed.
  (** a radius that is a power of two, such as the default 1, is never exceeded *)
  Lemma fbox_pow2 k a : (emin + prec <= k)%Z -> (1 < prec)%Z -> bpow (emin + prec - 1) <= bpow k / Rabs a -> bpow k < Rabs a -> Rabs (fbox1 (bpow k) a) <= bpow k.
  Proof.
    intros Hk H1 Hu Ha. assert (Hr : 0 < bpow k) by apply bpow_gt_0. rewrite fbox_abs by auto. rewrite Rmax_left by lra.
    pose proof (fbox_product _ a Hr Ha Hu) as H. set (p := Rabs a * fl (bpow k / Rabs a)) in *. apply Rabs_le_inv in H. destruct u_frac as [U1 U2].
    assert (Hp2 : p <= bpow k + u * bpow k) by nra.
    eapply Rle_trans; [apply fl_le, Hp2|]. right.
    assert (B : bpow (prec - 1) = IZR (2 ^ (prec - 1))) by (change 2%Z with (radix_val radix2); now rewrite IZR_Zpower by lia).
    replace (bpow k + u * bpow k) with ((IZR (2 ^ (prec - 1)) + / 2) * bpow (k - prec + 1)).
    2:{ rewrite <- B. rewrite Rmult_plus_distr_r, <- bpow_plus. f_equal; [f_equal; lia|].
        change (/ 2) with (bpow (-1)). unfold ulp1. rewrite <- !bpow_plus. f_equal. lia. }
    assert (B1 : 1 < bpow (prec - 1)) by (change 1 with (bpow 0); apply bpow_lt; lia).
    rewrite fl_tie_even.
    - rewrite <- B, <- bpow_plus. f_equal. lia.
    - lia.
    - rewrite <- B. rewrite Rabs_pos_eq by (apply Rmult_le_pos; [lra|apply bpow_ge_0]). replace (k - prec + 1 + prec - 1)%Z with (prec - 1 + (k - prec + 1))%Z by lia.
      replace (k - prec + 1 + prec)%Z with (1 + (prec - 1) + (k - prec + 1))%Z by lia. rewrite !(bpow_plus radix2 _ (k - prec + 1)). rewrite (bpow_plus radix2 1 (prec - 1)).
      change (bpow 1) with 2. assert (0 < bpow (k - prec + 1)) by apply bpow_gt_0. split; [apply Rmult_le_compat_r; lra|apply Rmult_lt_compat_r; lra].
    - rewrite Z.even_pow by lia. reflexivity.
  Qed.

  (** *** the percentile threshold *)
  Lemma fl_sqrt_square g : (1 < prec)%Z -> is_float g -> 0 < g -> bpow (emin + prec + 1) <= g * g -> (emin + prec <= 2)%Z -> fl (sqrt (fl (g * g))) = g.
  Proof.
    intros H1 Fg Hg Hgg He. set (e := mag_val radix2 g (mag radix2 g)).
    assert (Bg : bpow (e - 1) <= g < bpow e). { unfold e. pose proof (bpow_mag_le radix2 g ltac:(lra)). pose proof (bpow_mag_gt radix2 g). rewrite Rabs_pos_eq in * by lra. split; auto. }
    assert (Egg : (emin + prec + 1 < 2 * e)%Z).
    { apply (lt_bpow radix2). eapply Rle_lt_trans; [exact Hgg|]. replace (2 * e)%Z with (e + e)%Z by lia. rewrite bpow_plus. apply Rmult_le_0_lt_compat; lra. }
    assert (Ee : (emin + prec <= e)%Z) by lia.
    (* g is an integer multiple of its unit *)
    assert (Gm : exists m, g = IZR m * bpow (e - prec)).
    { exists (Ztrunc (scaled_mantissa radix2 fexp g)). rewrite Fg at 1. unfold F2R. cbn [Fnum Fexp]. f_equal. f_equal. unfold cexp, FLT_exp. fold e. lia. }
    destruct Gm as [m Gm]. set (y := fl (g * g)).
    assert (Py : bpow (2 * e - 2) <= y).
    { unfold y. rewrite <- (fl_id (bpow (2 * e - 2))) by (apply float_bpow; unfold Prec_gt_0 in Hp; lia). apply fl_le.
      replace (2 * e - 2)%Z with ((e - 1) + (e - 1))%Z by lia. rewrite bpow_plus. apply Rmult_le_compat; try apply bpow_ge_0; lra. }
    assert (Pb : 0 < bpow (2 * e - 2)) by apply bpow_gt_0.
    assert (S : sqrt y * sqrt y = y) by (apply sqrt_sqrt; lra). assert (Ps : 0 <= sqrt y) by apply sqrt_pos.
    assert (Sl : bpow (e - 1) <= sqrt y).
    { rewrite <- (sqrt_square (bpow (e - 1))) by apply bpow_ge_0. apply sqrt_le_1_alt. rewrite <- bpow_plus. replace (e - 1 + (e - 1))%Z with (2 * e - 2)%Z by lia. exact Py. }
    assert (Err : Rabs (y - g * g) <= / 2 * ulp radix2 fexp (g * g)) by (apply error_le_half_ulp; apply FLT_exp_valid; exact Hp).
    assert (B2 : bpow (e - 1) = 2 * bpow (e - 2)) by (change 2 with (bpow 1); rewrite <- bpow_plus; f_equal; lia).
    assert (Near : Rabs (sqrt y - g) < / 2 * bpow (e - prec)).
    { assert (Q : Rabs (sqrt y - g) * (sqrt y + g) = Rabs (y - g * g)).
      { rewrite <- (Rabs_pos_eq (sqrt y + g)) at 1 by lra. rewrite <- Rabs_mult. f_equal. rewrite <- S at 3. ring. }
      assert (W : 0 < bpow (e - prec)) by apply bpow_gt_0.
      destruct (Rle_or_lt (bpow (2 * e - 1)) (g * g)) as [C|C].
      - (* upper half *)
        assert (U : ulp radix2 fexp (g * g) = bpow (2 * e - prec)).
        { rewrite ulp_neq_0 by nra. unfold cexp. rewrite (mag_unique radix2 (g * g) (2 * e)). f_equal. unfold FLT_exp. unfold Prec_gt_0 in Hp. lia.
          rewrite Rabs_pos_eq by nra. split; [exact C|]. replace (2 * e)%Z with (e + e)%Z by lia. rewrite bpow_plus. apply Rmult_le_0_lt_compat; lra. }
        rewrite U in Err. assert (Yb : bpow (2 * e - 1) <= y).
        { unfold y. rewrite <- (fl_id (bpow (2 * e - 1))) by (apply float_bpow; unfold Prec_gt_0 in Hp; lia). now apply fl_le. }
        assert (T2 : bpow (2 * e - 1) = 2 * (bpow (e - 1) * bpow (e - 1))) by (rewrite <- bpow_plus; change 2 with (bpow 1); rewrite <- bpow_plus; f_equal; lia).
        assert (Pe : 0 < bpow (e - 1)) by apply bpow_gt_0.
        assert (SS : 2 * bpow (e - 1) < sqrt y + g).
        { assert (bpow (e - 1) < sqrt y) by (destruct Sl as [|Sl]; [auto|]; rewrite <- Sl in S; nra). lra. }
        assert (T3 : bpow (2 * e - prec) = 2 * bpow (e - 1) * bpow (e - prec)) by (rewrite Rmult_assoc, <- bpow_plus; change 2 with (bpow 1); rewrite <- bpow_plus; f_equal; lia).
        rewrite T3 in Err. rewrite <- Q in Err. apply Rmult_lt_reg_r with (sqrt y + g); [lra|]. eapply Rle_lt_trans; [exact Err|].
        replace (/ 2 * (2 * bpow (e - 1) * bpow (e - prec))) with (/ 2 * bpow (e - prec) * (2 * bpow (e - 1))) by ring.
        apply Rmult_lt_compat_l; [lra|exact SS].
      - assert (U : ulp radix2 fexp (g * g) = bpow (2 * e - 1 - prec)).
        { rewrite ulp_neq_0 by nra. unfold cexp. rewrite (mag_unique radix2 (g * g) (2 * e - 1)). f_equal. unfold FLT_exp. unfold Prec_gt_0 in Hp. lia.
          rewrite Rabs_pos_eq by nra. split; [|exact C]. replace (2 * e - 1 - 1)%Z with ((e - 1) + (e - 1))%Z by lia. rewrite bpow_plus. apply Rmult_le_compat; try apply bpow_ge_0; lra. }
        rewrite U in Err. assert (Pe : 0 < bpow (e - 1)) by apply bpow_gt_0.
        assert (T3 : bpow (2 * e - 1 - prec) = bpow (e - 1) * bpow (e - prec)) by (rewrite <- bpow_plus; f_equal; lia).
        rewrite T3, <- Q in Err. apply Rmult_lt_reg_r with (sqrt y + g); [lra|]. eapply Rle_lt_trans; [exact Err|].
        replace (/ 2 * (bpow (e - 1) * bpow (e - prec))) with (/ 2 * bpow (e - prec) * bpow (e - 1)) by ring.
        apply Rmult_lt_compat_l; lra. }
    rewrite Gm at 1. rewrite Gm in Near. fold y in Near |- *. apply fl_near.
    - lia.
    - rewrite Rabs_pos_eq by auto. replace (e - prec + prec - 1)%Z with (e - 1)%Z by lia. replace (e - prec + prec)%Z with e by lia. split; [exact Sl|].
      apply Rabs_lt_inv in Near. rewrite <- Gm in Near.
      assert (g <= bpow e - bpow (e - prec)).
      { assert (m + 1 <= 2 ^ prec)%Z.
        { apply Zlt_le_succ. apply lt_IZR. change 2%Z with (radix_val radix2). unfold Prec_gt_0 in Hp. rewrite IZR_Zpower by lia. apply Rmult_lt_reg_r with (bpow (e - prec)); [apply bpow_gt_0|].
          rewrite <- Gm, <- bpow_plus. replace (prec + (e - prec))%Z with e by lia. lra. }
        apply IZR_le in H. rewrite plus_IZR in H. change 2%Z with (radix_val radix2) in H. unfold Prec_gt_0 in Hp. rewrite IZR_Zpower in H by lia.
        replace (bpow e) with (bpow prec * bpow (e - prec)) by (rewrite <- bpow_plus; f_equal; lia). rewrite Gm. assert (0 < bpow (e - prec)) by apply bpow_gt_0. nra. }
      assert (0 < bpow (e - prec)) by apply bpow_gt_0. lra.
    - exact Near.
  Qed.
End P.
