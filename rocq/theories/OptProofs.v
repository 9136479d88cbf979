(** Projections: the variational inequality and the individual sets. *)
From Coq Require Import List Arith Bool Lia Reals Lra Psatz Permutation.
From Verif Require Import Scalar Vec Loop RVec RMat XReal OptSpec OptModel.
Import ListNotations.
Set Implicit Arguments.
Local Open Scope R_scope.

Lemma nrm2_sub_expand n x y z : length x = n -> length y = n -> length z = n ->
  nrm2 (rsub x z) = nrm2 (rsub x y) + nrm2 (rsub z y) - 2 * rdot (rsub x y) (rsub z y).
Proof.
  intros. unfold nrm2. rewrite !(rdot_sum (n := n)) by vl.
  rewrite <- rsum_mul_l, <- rsum_add, <- rsum_sub. apply rsum_ext. intros i Hi.
  rewrite !rsub_nth by vl. ring.
Qed.
Lemma nrm2_pos x : 0 <= nrm2 x. Proof. apply rdot_pos. Qed.
Lemma nrm_nrm2 x : nrm x = sqrt (nrm2 x). Proof. reflexivity. Qed.
Lemma dist_le_sq x y z w : nrm2 (rsub x y) <= nrm2 (rsub z w) <-> dist x y <= dist z w.
Proof.
  unfold dist. rewrite !nrm_nrm2. split; intros H.
  - apply sqrt_le_1; auto using nrm2_pos.
  - apply sqrt_le_0; auto using nrm2_pos.
Qed.
Lemma nrm2_sub_sym x y : length x = length y -> nrm2 (rsub x y) = nrm2 (rsub y x).
Proof. intros H. unfold nrm2. rewrite <- !nrm_sq. now rewrite nrm_sub_sym. Qed.

Definition vi (n : nat) (C : vec -> Prop) (P : vec -> vec) : Prop :=
  forall x, length x = n ->
    length (P x) = n /\ C (P x) /\
    forall z, length z = n -> C z -> rdot (rsub x (P x)) (rsub z (P x)) <= 0.

Lemma vi_projects n C P : vi n C P -> projects_onto n C P.
Proof.
  intros H x Hx. destruct (H x Hx) as [HL [HC Hv]].
  assert (E : forall z, length z = n -> C z ->
     nrm2 (rsub x (P x)) + nrm2 (rsub z (P x)) <= nrm2 (rsub x z)).
  { intros z Hz Cz. specialize (Hv z Hz Cz). rewrite (@nrm2_sub_expand n x (P x) z) by auto. lra. }
  assert (U : forall y, length y = n -> C y -> P y = y).
  { intros y Hy Cy. destruct (H y Hy) as [HL2 [HC2 Hv2]]. specialize (Hv2 y Hy Cy).
    symmetry. apply rdot_sub_eq0; [congruence|]. pose proof (rdot_pos (rsub y (P y))). lra. }
  split; [auto|]. split; [auto|]. split; [|split; [|split]].
  - intros z Hz Cz. apply dist_le_sq. specialize (E z Hz Cz). pose proof (nrm2_pos (rsub z (P x))). lra.
  - intros z Hz Cz D. apply dist_le_sq in D. specialize (E z Hz Cz).
    apply rdot_sub_eq0; [congruence|]. pose proof (nrm2_pos (rsub z (P x))) as Hp. unfold nrm2 in *. lra.
  - split; [intros <-; auto|]. intros; apply U; auto.
  - apply U; auto.
Qed.

Lemma firm_nonexpansive n P :
  (forall x, length x = n -> length (P x) = n) ->
  (forall x y, length x = n -> length y = n ->
     nrm2 (rsub (P x) (P y)) <= rdot (rsub (P x) (P y)) (rsub x y)) -> nonexpansive n P.
Proof.
  intros HL H x y Hx Hy. specialize (H x y Hx Hy). unfold dist.
  pose proof (cauchy_le (rsub (P x) (P y)) (rsub x y)) as Hc.
  pose proof (nrm_sq (rsub (P x) (P y))) as Hs. unfold nrm2 in H.
  pose proof (nrm_pos (rsub (P x) (P y))). pose proof (nrm_pos (rsub x y)).
  destruct (Req_dec (nrm (rsub (P x) (P y))) 0) as [E|E]; [lra|].
  apply Rmult_le_reg_l with (nrm (rsub (P x) (P y))); lra.
Qed.

Lemma vi_nonexpansive n C P : vi n C P -> nonexpansive n P.
Proof.
  intros H. apply firm_nonexpansive; [intros x Hx; apply H; auto|].
  intros x y Hx Hy. destruct (H x Hx) as [L1 [C1 V1]]. destruct (H y Hy) as [L2 [C2 V2]].
  specialize (V1 _ L2 C2). specialize (V2 _ L1 C1). unfold nrm2.
  rewrite !(rdot_sum (n := n)) in * by vl.
  assert (Hs : rsum n (fun i => (rsub (P x) (P y))@i * (rsub x y)@i) - rsum n (fun i => (rsub (P x) (P y))@i * (rsub (P x) (P y))@i)
    = - rsum n (fun i => (rsub x (P x))@i * (rsub (P y) (P x))@i) - rsum n (fun i => (rsub y (P y))@i * (rsub (P x) (P y))@i)).
  { rewrite <- rsum_opp, <- !rsum_sub. apply rsum_ext. intros i Hi. rewrite !rsub_nth by vl. ring. }
  lra.
Qed.

Lemma rdot_nonpos n x y : length x = n -> length y = n ->
  (forall i, (i < n)%nat -> x@i * y@i <= 0) -> rdot x y <= 0.
Proof.
  intros Hx Hy H. rewrite (rdot_sum (n := n)) by auto.
  apply Rle_trans with (rsum n (fun _ => 0)); [now apply rsum_le|rewrite rsum_0; lra].
Qed.

(** *** elementary sets *)
Lemma vi_zero n : vi n (fun y => y = rzero n) proj_zero.
Proof.
  intros x Hx. unfold proj_zero. rewrite Hx. split; [vl|]. split; [auto|].
  intros z Hz ->. apply (@rdot_nonpos n); vl. intros i Hi. rewrite !rsub_nth by vl. lra.
Qed.
Lemma vi_identity n : vi n everywhere proj_identity.
Proof.
  intros x Hx. unfold proj_identity. split; [auto|]. split; [exact I|].
  intros z Hz _. apply (@rdot_nonpos n); vl. intros i Hi. rewrite !rsub_nth by vl. lra.
Qed.
Lemma vi_singleton n c : length c = n -> vi n (fun y => y = c) (proj_singleton c).
Proof.
  intros Hc x Hx. unfold proj_singleton. split; [auto|]. split; [auto|].
  intros z Hz ->. apply (@rdot_nonpos n); vl. intros i Hi. rewrite !rsub_nth by vl. lra.
Qed.

Lemma vmax_len x y : length (vmax x y) = Nat.min (length x) (length y). Proof. apply zipw_length. Qed.
Lemma vmin_len x y : length (vmin x y) = Nat.min (length x) (length y). Proof. apply zipw_length. Qed.
Global Hint Rewrite vmax_len vmin_len : rlen.
Lemma vmax_nth x y i : (i < length x)%nat -> length x = length y -> (vmax x y)@i = Rmax (x@i) (y@i).
Proof. intros. apply nth_zipw; lia. Qed.
Lemma vmin_nth x y i : (i < length x)%nat -> length x = length y -> (vmin x y)@i = Rmin (x@i) (y@i).
Proof. intros. apply nth_zipw; lia. Qed.

Ltac rmm := unfold Rmax, Rmin in *; repeat destruct (Rle_dec _ _).

Lemma vi_box n l u P : box_ok n l u -> proj_box l u = Some P -> vi n (box_set l u) P.
Proof.
  intros [Hl [Hu Hlu]]. destruct l as [l|], u as [u|]; simpl; intros E; inversion E; subst P; clear E; intros x Hx.
  - specialize (Hl _ eq_refl). specialize (Hu _ eq_refl). specialize (Hlu _ _ eq_refl eq_refl).
    assert (Hn : forall i, (i < n)%nat -> (vmin (vmax x l) u)@i = Rmin (Rmax (x@i) (l@i)) (u@i)).
    { intros i Hi. rewrite vmin_nth, vmax_nth by vl. auto. }
    split; [vl|]. split.
    + split; intros v [= <-] i Hi; rewrite Hn by lia; specialize (Hlu i ltac:(lia)); rmm; lra.
    + intros z Hz [H1 H2]. apply (@rdot_nonpos n); vl. intros i Hi. rewrite !rsub_nth by vl. rewrite Hn by lia.
      specialize (H1 _ eq_refl i ltac:(lia)). specialize (H2 _ eq_refl i ltac:(lia)).
      specialize (Hlu i ltac:(lia)). rmm; nra.
  - specialize (Hl _ eq_refl).
    assert (Hn : forall i, (i < n)%nat -> (vmax x l)@i = Rmax (x@i) (l@i)).
    { intros i Hi. rewrite vmax_nth by vl. auto. }
    split; [vl|]. split.
    + split; intros v [= <-]. intros i Hi; rewrite Hn by lia. rmm; lra.
    + intros z Hz [H1 H2]. apply (@rdot_nonpos n); vl. intros i Hi. rewrite !rsub_nth by vl. rewrite Hn by lia.
      specialize (H1 _ eq_refl i ltac:(lia)). rmm; nra.
  - specialize (Hu _ eq_refl).
    assert (Hn : forall i, (i < n)%nat -> (vmin x u)@i = Rmin (x@i) (u@i)).
    { intros i Hi. rewrite vmin_nth by vl. auto. }
    split; [vl|]. split.
    + split; intros v [= <-]. intros i Hi; rewrite Hn by lia. rmm; lra.
    + intros z Hz [H1 H2]. apply (@rdot_nonpos n); vl. intros i Hi. rewrite !rsub_nth by vl. rewrite Hn by lia.
      specialize (H2 _ eq_refl i ltac:(lia)). rmm; nra.
Qed.

(** *** second-order cone *)
Lemma rdot_app x y a b : length x = length y -> rdot (x ++ a) (y ++ b) = rdot x y + rdot a b.
Proof.
  revert y; induction x as [|c x IH]; intros [|d y] H; simpl in *; try discriminate; [ring|].
  rewrite IH by lia. ring.
Qed.
Lemma rsub_app a b c d : length a = length b -> rsub (a ++ [c]) (b ++ [d]) = rsub a b ++ [c - d].
Proof.
  unfold rsub. revert b; induction a as [|e a IH]; intros [|g b] H; try discriminate; [reflexivity|].
  cbn [app zipw]. f_equal. apply IH. simpl in H; lia.
Qed.
Lemma vi_conic n : (0 < n)%nat -> vi n cone_set proj_conic.
Proof.
  intros Hn x Hx. destruct (@exists_last _ x) as [v [t E]]; [intros ->; simpl in *; lia|]. subst x.
  assert (Hv : n = (length v + 1)%nat) by vl.
  unfold proj_conic. rewrite removelast_last, last_last.
  assert (Hz : forall z : vec, length z = n -> exists w s, z = w ++ [s] /\ length w = length v).
  { intros z Hz. destruct (@exists_last _ z) as [w [s E]]; [intros ->; simpl in *; lia|].
    exists w, s. split; [auto|]. subst z. vl. }
  destruct (Rltb_spec (Rabs t) (nrm v)) as [Hout|Hin].
  - set (m := nrm v) in *. assert (Hm : 0 < m) by (pose proof (Rabs_pos t); lra).
    assert (Ht : -m < t < m) by (apply Rabs_def2 in Hout; lra).
    set (al := (m + t) / 2).
    assert (Hp : rscale al (rscale (/ m) v ++ [1]) = rscale (al / m) v ++ [al]).
    { unfold rscale. rewrite map_app, map_map. simpl. f_equal; [|f_equal; ring].
      apply map_ext. intros a. field. lra. }
    rewrite Hp. split; [vl|]. split.
    + unfold cone_set. rewrite removelast_last, last_last, nrm_scale. fold m.
      rewrite Rabs_right by (apply Rle_ge; unfold al; apply Rmult_le_pos; [lra|apply Rlt_le, Rinv_0_lt_compat; auto]).
      unfold Rdiv. rewrite Rmult_assoc, Rinv_l by lra. lra.
    + intros z Hzl Cz. destruct (Hz z Hzl) as [w [s [-> Hw]]].
      unfold cone_set in Cz. rewrite removelast_last, last_last in Cz.
      rewrite !rsub_app by vl. rewrite rdot_app by vl. cbn [rdot].
      rewrite rdot_sub_l, !rdot_sub_r by vl. rewrite !rdot_scale_l, !rdot_scale_r.
      pose proof (cauchy_le v w) as Hc. fold m in Hc. pose proof (nrm_sq v) as Hsq. fold m in Hsq.
      rewrite <- Hsq.
      assert (Hvw : rdot v w <= m * s) by nra.
      replace (al / m * (al / m * (m * m))) with (al * al) by (field; lra).
      replace (al / m * (m * m)) with (al * m) by (field; lra).
      replace (rdot v w - al * m - (al / m * rdot v w - al * al) + ((t - al) * (s - al) + 0))
        with ((1 - al / m) * rdot v w + (t - al) * s + al * (2 * al - m - t)) by ring.
      replace (2 * al - m - t) with 0 by (unfold al; field).
      assert (H1 : 1 - al / m = (m - t) / 2 / m) by (unfold al; field; lra).
      assert (H2 : 0 <= (m - t) / 2 / m).
      { apply Rmult_le_pos; [lra|]. apply Rlt_le, Rinv_0_lt_compat; auto. }
      rewrite H1. assert (H3 : (m - t) / 2 / m * rdot v w <= (m - t) / 2 / m * (m * s)) by (apply Rmult_le_compat_l; auto).
      replace ((m - t) / 2 / m * (m * s)) with ((m - t) / 2 * s) in H3 by (field; lra).
      unfold al. lra.
  - destruct (Rltb_spec 0 t) as [Hp|Hp].
    + split; [auto|]. split; [unfold cone_set; rewrite removelast_last, last_last; rewrite Rabs_right in Hin; lra|].
      intros z Hzl _. apply (@rdot_nonpos n); vl. intros i Hi. rewrite !rsub_nth by vl. lra.
    + rewrite Hx. split; [vl|].
      assert (Hrz : rzero n = rzero (length v) ++ [0]).
      { rewrite Hv. unfold rzero. rewrite repeat_app. auto. }
      split; [unfold cone_set; rewrite Hrz, removelast_last, last_last, nrm_rzero; lra|].
      intros z Hzl Cz. destruct (Hz z Hzl) as [w [s [-> Hw]]].
      unfold cone_set in Cz. rewrite removelast_last, last_last in Cz.
      rewrite Rabs_left1 in Hin by lra. pose proof (nrm_pos v). pose proof (nrm_pos w).
      assert (Hr : forall y, length y = n -> rsub y (rzero n) = y) by (intros; veq).
      rewrite !Hr by auto. rewrite rdot_app by auto. cbn [rdot].
      pose proof (cauchy_le v w). assert (0 <= s) by lra.
      assert (nrm v * nrm w <= nrm v * s) by (apply Rmult_le_compat_l; lra).
      assert (nrm v * s <= - t * s) by (apply Rmult_le_compat_r; lra). lra.
Qed.

(** *** l2 ball *)
Lemma scale_ball_vi n q x : length x = n -> 0 < q ->
  let p := if Rltb q (nrm x) then rscale (q / nrm x) x else x in
  length p = n /\ nrm p <= q /\ forall z, length z = n -> nrm z <= q -> rdot (rsub x p) (rsub z p) <= 0.
Proof.
  intros Hx Hq. destruct (Rltb_spec q (nrm x)) as [H|H]; cbv zeta.
  - set (m := nrm x) in *. assert (0 < q / m) by (apply Rmult_lt_0_compat; [lra|apply Rinv_0_lt_compat; lra]).
    split; [vl|]. split.
    + rewrite nrm_scale, Rabs_right by lra. fold m. right. field. lra.
    + intros z Hz Cz. rewrite rdot_sub_l, !rdot_sub_r by vl. rewrite !rdot_scale_l, !rdot_scale_r.
      rewrite <- (nrm_sq x). fold m. pose proof (cauchy_le x z) as Hc. fold m in Hc.
      assert (Hxz : rdot x z <= m * q) by nra.
      replace (q / m * (q / m * (m * m))) with (q * q) by (field; lra).
      replace (q / m * (m * m)) with (q * m) by (field; lra).
      assert (H1 : q / m <= 1). { apply Rmult_le_reg_r with m; [lra|]. unfold Rdiv. rewrite Rmult_assoc, Rinv_l; lra. }
      assert (H2 : (1 - q / m) * rdot x z <= (1 - q / m) * (m * q)) by (apply Rmult_le_compat_l; lra).
      replace ((1 - q / m) * (m * q)) with (m * q - q * q) in H2 by (field; lra). lra.
  - split; [auto|]. split; [lra|]. intros z Hz _. apply (@rdot_nonpos n); vl.
    intros i Hi. rewrite !rsub_nth by vl. lra.
Qed.
Lemma vi_l2_ball n q P : proj_l2_ball q = Some P -> vi n (fun y => nrm y <= q) P.
Proof.
  unfold proj_l2_ball. destruct (Rleb_spec q 0); [discriminate|]. intros [= <-] x Hx.
  apply scale_ball_vi; auto; lra.
Qed.
Lemma vi_to_ball n q : 0 < q -> vi n (fun y => nrm y <= q) (fun x => project_to_ball x q).
Proof. intros Hq x Hx. unfold project_to_ball. apply scale_ball_vi; auto. Qed.

Lemma clip_nth x r i : (project_to_box x r)@i = x@i * (r / Rmax (Rabs (x@i)) r).
Proof.
  unfold project_to_box. transitivity ((fun a => a * (r / Rmax (Rabs a) r)) (x@i)); [|reflexivity].
  replace 0 with ((fun a => a * (r / Rmax (Rabs a) r)) 0) at 1 by (cbv beta; ring). apply (map_nth (fun a => a * (r / Rmax (Rabs a) r))).
Qed.
Lemma vi_to_box n r : 0 < r ->
  vi n (fun y => forall i, (i < n)%nat -> Rabs (y@i) <= r) (fun x => project_to_box x r).
Proof.
  intros Hr x Hx.
  assert (Hc : forall i, (project_to_box x r)@i = (if Rle_dec (Rabs (x@i)) r then x@i else if Rle_dec 0 (x@i) then r else - r)).
  { intros i. rewrite clip_nth. unfold Rmax. destruct (Rle_dec (Rabs (x@i)) r); [field; lra|].
    assert (Rabs (x@i) <> 0) by lra. destruct (Rle_dec 0 (x@i)).
    - rewrite Rabs_right in * by lra. field; lra.
    - rewrite Rabs_left in * by lra. field; lra. }
  split; [unfold project_to_box; vl|]. split.
  - intros i Hi. rewrite Hc. destruct (Rle_dec (Rabs (x@i)) r); auto.
    destruct (Rle_dec 0 (x@i)); [rewrite Rabs_right|rewrite Rabs_left]; lra.
  - intros z Hz Cz. assert (length (project_to_box x r) = n) by (unfold project_to_box; vl).
    apply (@rdot_nonpos n); vl. intros i Hi. rewrite !rsub_nth by vl. rewrite Hc.
    specialize (Cz i Hi). assert (- r <= z@i <= r) by (revert Cz; unfold Rabs; destruct (Rcase_abs (z@i)); lra).
    destruct (Rle_dec (Rabs (x@i)) r) as [H1|H1]; [lra|].
    destruct (Rle_dec 0 (x@i)); [rewrite Rabs_right in H1|rewrite Rabs_left in H1]; nra.
Qed.

Lemma vi_upper n u : vi n (fun y => forall i, (i < n)%nat -> y@i <= u) (fun x => project_to_real_upper_limit x u).
Proof.
  intros x Hx. unfold project_to_real_upper_limit.
  assert (Hc : forall i, (i < n)%nat -> (map (fun a => Rmin a u) x)@i = Rmin (x@i) u).
  { intros i Hi. rewrite nth_indep with (d' := Rmin 0 u) by vl. apply (map_nth (fun a => Rmin a u)). }
  split; [vl|]. split.
  - intros i Hi. rewrite Hc by auto. apply Rmin_r.
  - intros z Hz Cz. apply (@rdot_nonpos n); vl. intros i Hi. rewrite !rsub_nth by vl. rewrite Hc by auto.
    specialize (Cz i Hi). rmm; nra.
Qed.

(** *** affine set *)
Section Affine.
  Variables (m n : nat) (A Rf : mat) (b : vec) (solveUT solveU : vec -> vec).
  Hypothesis HA : shape m n A.
  Hypothesis HR : shape m m Rf.
  Hypothesis Hb : length b = m.
  (** R' R = A A', from the QR factorisation of A' *)
  Hypothesis HQR : forall w, length w = m -> mtv m Rf (mv Rf w) = mv A (mtv n A w).
  Hypothesis HUT : forall r, length r = m -> length (solveUT r) = m /\ mtv m Rf (solveUT r) = r.
  Hypothesis HU : forall v, length v = m -> length (solveU v) = m /\ mv Rf (solveU v) = v.
  Lemma vi_affine : vi n (fun y => mv A y = b) (proj_affine n A b solveUT solveU).
  Proof.
    destruct HA as [HA1 HA2]. intros x Hx. unfold proj_affine. cbv zeta.
    set (r := rsub b (mv A x)). assert (Hr : length r = m) by (unfold r; vl).
    destruct (HUT r Hr) as [L1 E1]. destruct (HU _ L1) as [L2 E2]. set (w := solveU (solveUT r)) in *.
    assert (Hw : mv A (mtv n A w) = r). { rewrite <- HQR, E2 by auto. auto. }
    assert (Lt : length (mtv n A w) = n) by (apply mtv_len; auto).
    assert (LP : length (radd x (mtv n A w)) = n) by (vl; rewrite Lt; lia).
    assert (EP : mv A (radd x (mtv n A w)) = b).
    { rewrite (@mv_add A x (mtv n A w) n), Hw by auto. unfold r. apply vec_eq; [vl|].
      intros i Hi. rewrite radd_nth, rsub_nth by vl. ring. }
    split; [auto|]. split; [auto|]. intros z Hz Cz.
    assert (E : rsub x (radd x (mtv n A w)) = ropp (mtv n A w)).
    { apply vec_eq; [vl|]. intros i Hi. rewrite rsub_nth, ropp_nth by (rewrite LP; auto).
      rewrite radd_nth by (rewrite Lt; auto). ring. }
    rewrite E, rdot_opp_l, rdot_sym.
    rewrite <- mv_adj by (first [exact HA2 | rewrite rsub_len, LP; lia | exact (eq_trans L2 (eq_sym HA1))]).
    rewrite (@mv_sub A z (radd x (mtv n A w)) n) by auto. rewrite Cz, EP.
    assert (E0 : rsub b b = rzero m) by veq. rewrite E0, rdot_zero_l. lra.
  Qed.
End Affine.
