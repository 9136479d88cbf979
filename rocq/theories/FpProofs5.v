From Coq Require Import List Arith ZArith Reals Lra Lia Permutation.
From Flocq Require Import Core Mult_error.
From Verif Require Import FpSpec FpModel FpProofs FpLinModel FpProofs2 FpProofs3 FpProofs4.
Import ListNotations.
Local Open Scope R_scope.

Section P.
  Variables emin prec : Z.
  Context {Hp : Prec_gt_0 prec}.
  Notation fl := (fl emin prec).
  Notation is_float := (is_float emin prec).
  Notation bpow := (bpow radix2).
  Notation tiny := (tiny emin).
  Hint Resolve fl_float float_0 : core.

  Lemma float_small x : is_float x -> 0 <= x -> x < bpow emin -> x = 0.
  Proof.
    intros Fx Px L. destruct (Rle_or_lt x 0) as [|L2]; [lra|]. exfalso.
    assert (Hu : ulp radix2 (FLT_exp emin prec) x = bpow emin). { apply ulp_FLT_small; [exact Hp|]. rewrite Rabs_pos_eq by auto. eapply Rlt_le_trans; [exact L|]. apply bpow_le. pose proof Hp as Q; unfold Prec_gt_0 in Q. lia. }
    assert (V : ulp radix2 (FLT_exp emin prec) x <= x) by (apply ulp_le_id; [exact L2|exact Fx]). rewrite Hu in V. lra.
  Qed.
  Lemma fl_underflow z : 0 <= z -> z < tiny -> fl z = 0.
  Proof.
    intros Hz L. pose proof (tiny_eq emin) as T. pose proof (bpow_gt_0 radix2 emin). apply float_small; auto; [apply fl_nonneg; auto|].
    pose proof (error_le_half_ulp radix2 (FLT_exp emin prec) (fun t => negb (Z.even t)) z) as E.
    change (Rabs (fl z - z) <= / 2 * ulp radix2 (FLT_exp emin prec) z) in E. rewrite ulp_FLT_small in E; [|exact Hp|].
    - pose proof (Rle_abs (fl z - z)). lra.
    - rewrite Rabs_pos_eq by auto. apply Rlt_le_trans with (bpow emin); [lra|]. apply bpow_le. pose proof Hp as Q; unfold Prec_gt_0 in Q. lia.
  Qed.
  Lemma half_float x : is_float x -> bpow (emin + prec) <= Rabs x -> is_float (/ 2 * x).
  Proof.
    intros Fx L. replace (/ 2 * x) with (x * bpow (-1)) by (change (bpow (-1)) with (/ IZR (Z.pow_pos 2 1)); cbn; field).
    apply mult_bpow_exact_FLT; [exact Fx|]. assert (N : x <> 0) by (intros ->; rewrite Rabs_R0 in L; pose proof (bpow_gt_0 radix2 (emin + prec)); lra).
    assert (emin + prec < mag radix2 x)%Z; [|lia]. apply mag_gt_bpow. exact L.
  Qed.
  Lemma percentile_threshold g : (1 < prec)%Z -> (emin + prec <= 2)%Z -> is_float g -> 0 < g -> bpow (emin + prec + 1) <= g * g ->
    fl (sqrt (fl (2 * fl (/ 2 * fl (g * g))))) = g.
  Proof.
    intros H1 H2 Fg Pg L. assert (B : is_float (bpow (emin + prec + 1))) by (apply float_bpow; pose proof Hp as Q; unfold Prec_gt_0 in Q; auto; lia).
    assert (L2 : bpow (emin + prec + 1) <= fl (g * g)) by (rewrite <- (fl_id emin prec _ B); apply fl_le; auto).
    rewrite (fl_id emin prec (/ 2 * fl (g * g))).
    - replace (2 * (/ 2 * fl (g * g))) with (fl (g * g)) by field. rewrite (fl_id emin prec (fl (g * g))) by auto. apply fl_sqrt_square; auto.
    - apply half_float; auto. rewrite Rabs_pos_eq by (apply fl_nonneg; auto; nra). eapply Rle_trans; [|exact L2]. apply bpow_le. lia.
  Qed.
  Lemma percentile_keeps g x : (1 < prec)%Z -> (emin + prec <= 2)%Z -> is_float g -> 0 < g -> bpow (emin + prec + 1) <= g * g ->
    fhard_threshold_percentile emin prec x g = map (fun a => if Rlt_dec g (Rabs a) then a else 0) x.
  Proof. intros. unfold fhard_threshold_percentile, fhard_threshold. now rewrite percentile_threshold. Qed.

  (** every reduction has a result *)
  Lemma dot_total l : exists d s, dot_eval emin prec l d s.
  Proof.
    induction l as [|[a b] l [d [s H]]]; [do 2 eexists; constructor|]. destruct l as [|c l]; [do 2 eexists; constructor|].
    do 2 eexists. apply dot_fma with (c :: l); [exact H|discriminate|reflexivity].
  Qed.
  Lemma sum_total l : exists d s, sum_eval emin prec l d s.
  Proof.
    induction l as [|a l [d [s H]]]; [do 2 eexists; constructor|]. destruct l as [|c l]; [do 2 eexists; constructor|].
    do 2 eexists. apply sum_add with [a] (c :: l); [constructor|exact H|discriminate|discriminate|reflexivity].
  Qed.
  Lemma fdot_total x y : exists s, fdot emin prec x y s.
  Proof. destruct (dot_total (combine x y)) as [d [s H]]. exists s, d. exact H. Qed.
  Lemma fsum_total x : exists s, fsum emin prec x s.
  Proof. destruct (sum_total x) as [d [s H]]. exists s, d. exact H. Qed.
  Lemma fmatvec_total A x : exists y, fmatvec emin prec A x y.
  Proof. induction A as [|row A [y H]]; [exists []; constructor|]. destruct (fdot_total row x) as [s Hs]. exists (s :: y). now constructor. Qed.
End P.

#[export] Instance prec32_pos : Prec_gt_0 prec32. Proof. reflexivity. Qed.
Notation fl32 := (fl emin32 prec32).
Notation float32 := (is_float emin32 prec32).
Notation bpow := (bpow radix2).
Lemma bp0 : bpow 0 = 1. Proof. reflexivity. Qed.
Lemma bpn k : bpow (Z.neg k) = / IZR (Z.pow_pos 2 k). Proof. reflexivity. Qed.
Lemma bpp k : bpow (Z.pos k) = IZR (Z.pow_pos 2 k). Proof. reflexivity. Qed.
Ltac bp := rewrite ?bp0, ?bpn, ?bpp; cbn [Z.pow_pos Pos.iter Z.mul Pos.mul].
(** a dyadic rational with a 24 bit numerator *)
Lemma float32_dyadic m k : (-149 <= k)%Z -> (Z.abs m < 2 ^ 24)%Z -> float32 (IZR m * bpow k).
Proof. intros Hk Hm. apply generic_format_FLT. exists (Float radix2 m k); cbn; auto. Qed.
Lemma near32 m k e x : (-149 <= k)%Z -> (e = k + 23)%Z -> bpow e <= Rabs x < 2 * bpow e -> Rabs (x - IZR m * bpow k) < / 2 * bpow k -> fl32 x = IZR m * bpow k.
Proof.
  intros H1 -> H2 H3. apply fl_near; auto. unfold prec32. replace (k + 24 - 1)%Z with (k + 23)%Z by lia.
  replace (k + 24)%Z with (1 + (k + 23))%Z by lia. rewrite (bpow_plus radix2 1). exact H2.
Qed.
Lemma bp32 k : (-149 <= k)%Z -> float32 (bpow k). Proof. intros H. apply float_bpow; [exact prec32_pos|exact H]. Qed.
Ltac absr := match goal with |- context [Rabs ?x] => first [rewrite (Rabs_pos_eq x) by lra | rewrite (Rabs_left1 x) by lra] end.

(** the shrinkage is not non-expansive *)
Lemma shrink_expands : exists k a b, float32 k /\ float32 a /\ float32 b /\ 0 < k /\
  Rabs (fshrink1 emin32 prec32 k a - fshrink1 emin32 prec32 k b) > Rabs (a - b).
Proof.
  exists (3 / 8), 8388609, 8388608.
  assert (F1 : float32 (3 / 8)). { replace (3 / 8) with (IZR 3 * bpow (-3)) by (bp; field). apply float32_dyadic; [lia|reflexivity]. }
  assert (F2 : float32 8388609). { replace 8388609 with (IZR 8388609 * bpow 0) by (bp; field). apply float32_dyadic; [lia|reflexivity]. }
  assert (F3 : float32 8388608). { replace 8388608 with (IZR 8388608 * bpow 0) by (bp; field). apply float32_dyadic; [lia|reflexivity]. }
  repeat split; auto; try lra. rewrite !fshrink_rounded by (solve [exact prec32_pos | assumption | lra]).
  destruct (shrink_cases (3 / 8) 8388609 ltac:(lra)) as [[H _]|[[_ ->]|[H _]]]; [rewrite Rabs_pos_eq in H; lra| |lra].
  destruct (shrink_cases (3 / 8) 8388608 ltac:(lra)) as [[H _]|[[_ ->]|[H _]]]; [rewrite Rabs_pos_eq in H; lra| |lra].
  rewrite (near32 8388609 0 23 (8388609 - 3 / 8)); [|lia|reflexivity|bp; absr; lra|bp; absr; lra].
  rewrite (near32 16777215 (-1) 22 (8388608 - 3 / 8)); [|lia|reflexivity|bp; absr; lra|bp; absr; lra].
  bp. repeat absr. lra.
Qed.
(** the projection onto a box can leave the box *)
Lemma box_exceeds : exists r a, float32 r /\ float32 a /\ 0 < r /\ fbox1 emin32 prec32 r a > r.
Proof.
  exists 3, 21.
  assert (F1 : float32 3). { replace 3 with (IZR 3 * bpow 0) by (bp; field). apply float32_dyadic; [lia|reflexivity]. }
  assert (F2 : float32 21). { replace 21 with (IZR 21 * bpow 0) by (bp; field). apply float32_dyadic; [lia|reflexivity]. }
  repeat split; auto; try lra. unfold fbox1. rewrite (Rabs_pos_eq 21), (Rmax_left 21 3) by lra.
  rewrite (near32 9586981 (-26) (-3) (3 / 21)); [|lia|reflexivity|bp; absr; lra|bp; absr; lra].
  rewrite (near32 12582913 (-22) 1 _); [|lia|reflexivity|bp; absr; lra|bp; absr; lra].
  bp. lra.
Qed.
(** underflow in hard_threshold_percentile *)
Lemma percentile_underflow : exists g a, float32 g /\ float32 a /\ 0 < a /\ a < g /\
  fhard_threshold_percentile emin32 prec32 [a] g = [a].
Proof.
  exists (bpow (-80)), (bpow (-90)).
  assert (L : bpow (-90) < bpow (-80)) by (apply bpow_lt; lia). pose proof (bpow_gt_0 radix2 (-90)) as P.
  repeat split; auto; try (apply bp32; lia).
  unfold fhard_threshold_percentile, fhard_threshold. cbn [map]. rewrite (fl_underflow emin32 prec32 (bpow (-80) * bpow (-80))).
  - rewrite !Rmult_0_r, fl_0, Rmult_0_r, fl_0, sqrt_0, fl_0. destruct (Rlt_dec 0 (Rabs (bpow (-90)))) as [|N]; auto. exfalso. apply N. rewrite Rabs_pos_eq; lra.
  - pose proof (bpow_gt_0 radix2 (-80)). nra.
  - rewrite <- bpow_plus. apply bpow_lt. reflexivity.
Qed.
(** a sum depends on the order of evaluation *)
Lemma fl32_id x : float32 x -> fl32 x = x. Proof. apply fl_id. Qed.
Lemma sum_order : exists x s t, Forall float32 x /\ fsum emin32 prec32 x s /\ fsum emin32 prec32 x t /\ s <> t.
Proof.
  exists [1073741824; 1; - 1073741824], 0, 1.
  assert (F1 : float32 1073741824). { replace 1073741824 with (IZR 1 * bpow 30) by (bp; field). apply float32_dyadic; [lia|reflexivity]. }
  assert (F2 : float32 1). { replace 1 with (IZR 1 * bpow 0) by (bp; field). apply float32_dyadic; [lia|reflexivity]. }
  assert (F3 : float32 (- 1073741824)). { replace (- 1073741824) with (IZR (-1) * bpow 30) by (bp; field). apply float32_dyadic; [lia|reflexivity]. }
  repeat split; auto; try lra.
  - eexists. replace 0 with (fl32 (fl32 (1073741824 + 1) + - 1073741824)).
    + apply sum_add with [1073741824; 1] [- 1073741824]; [|constructor|discriminate|discriminate|reflexivity].
      apply sum_add with [1073741824] [1]; [constructor|constructor|discriminate|discriminate|reflexivity].
    + rewrite (near32 8388608 7 30 (1073741824 + 1)); [|lia|reflexivity|bp; absr; lra|bp; absr; lra].
      replace (IZR 8388608 * bpow 7 + - 1073741824) with 0 by (bp; field). apply fl_0.
  - eexists. replace 1 with (fl32 (fl32 (1073741824 + - 1073741824) + 1)) at 2.
    + apply sum_add with [1073741824; - 1073741824] [1]; [|constructor|discriminate|discriminate|cbn; apply perm_skip, perm_swap].
      apply sum_add with [1073741824] [- 1073741824]; [constructor|constructor|discriminate|discriminate|reflexivity].
    + replace (1073741824 + - 1073741824) with 0 by ring. rewrite fl_0, Rplus_0_l. now apply fl_id.
Qed.
(** the norm of a nonzero vector can be zero *)
Lemma norm_underflow : exists x, float32 x /\ x <> 0 /\ fnorm emin32 prec32 [x] 0.
Proof.
  exists (bpow (-80)). pose proof (bpow_gt_0 radix2 (-80)) as P. split; [apply bp32; lia|]. split; [lra|].
  exists 0. split; [|now rewrite sqrt_0, fl_0]. exists 1%nat. cbn [combine]. replace 0 with (fl32 (bpow (-80) * bpow (-80))); [constructor|].
  apply fl_underflow; [exact prec32_pos|nra|]. rewrite <- bpow_plus. apply bpow_lt. reflexivity.
Qed.
(** differences do not undo running sums *)
Lemma cumsum_loss : exists x y, Forall float32 x /\ fcumsum emin32 prec32 x y /\ fdiff emin32 prec32 y <> x.
Proof.
  exists [1; bpow (-25)], [1; 1].
  assert (F2 : float32 1). { replace 1 with (IZR 1 * bpow 0) by (bp; field). apply float32_dyadic; [lia|reflexivity]. }
  assert (F3 : float32 (bpow (-25))) by (apply bp32; lia). repeat split; auto.
  - constructor; [|constructor; [|constructor]]; cbn [firstn].
    + exists 0%nat. constructor.
    + eexists. replace 1 with (fl32 (1 + bpow (-25))) at 2.
      * apply sum_add with [1] [bpow (-25)]; [constructor|constructor|discriminate|discriminate|reflexivity].
      * rewrite (near32 8388608 (-23) 0 (1 + bpow (-25))); [|lia|reflexivity|bp; absr; lra|bp; absr; lra]. bp. field.
  - unfold fdiff. cbn [combine map fst snd]. intros E. injection E as _ E. rewrite Rminus_eq_0, fl_0 in E. pose proof (bpow_gt_0 radix2 (-25)). lra.
Qed.
(** the dot test rejects a matrix whose transpose is exact *)
Definition c12 : R := 4097 / 4096.
Lemma c12_float : float32 c12. Proof. unfold c12. replace (4097 / 4096) with (IZR 4097 * bpow (-12)) by (bp; field). apply float32_dyadic; [lia|reflexivity]. Qed.
Lemma c12_square : fl32 (c12 * c12) = 2049 / 2048.
Proof.
  unfold c12. replace (4097 / 4096 * (4097 / 4096)) with ((IZR 8392704 + / 2) * bpow (-23)) by (bp; field).
  rewrite fl_tie_even; [bp; field|unfold emin32; lia| |reflexivity].
  unfold prec32. change (-23 + 24 - 1)%Z with 0%Z. change (-23 + 24)%Z with 1%Z. bp. absr. lra.
Qed.
Lemma dot_test_rejects : exists A x v, Forall (Forall float32) A /\ Forall float32 x /\ Forall float32 v /\ is_matrix 1 2 A /\ length x = 2%nat /\ length v = 1%nat /\
  fdot_test emin32 prec32 2 A x v (fl32 (/ 10 ^ 15)) (fl32 (/ 10 ^ 6)) False.
Proof.
  exists [[1; 1]], [c12; - 1], [c12]. pose proof c12_float as F0.
  assert (F2 : float32 1). { replace 1 with (IZR 1 * bpow 0) by (bp; field). apply float32_dyadic; [lia|reflexivity]. }
  assert (F3 : float32 (- 1)) by (apply float_opp; auto).
  assert (F4 : float32 (/ 4096)). { replace (/ 4096) with (bpow (-12)) by (bp; field). apply bp32; lia. }
  assert (F5 : float32 (4097 / 16777216)). { replace (4097 / 16777216) with (IZR 4097 * bpow (-24)) by (bp; field). apply float32_dyadic; [lia|reflexivity]. }
  repeat (split; [first [repeat constructor; auto; fail | reflexivity]|]).
  exists [/ 4096], [c12; c12], (4097 / 16777216), (/ 4096). split; [|split; [|split; [|split]]].
  - constructor; [|constructor]. eexists. cbn [combine]. replace (/ 4096) with (fl32 (fl32 (1 * c12) + fl32 (1 * - 1))).
    + apply dot_add with [(1, c12)] [(1, - 1)]; [constructor|constructor|discriminate|discriminate|reflexivity].
    + rewrite !Rmult_1_l, (fl32_id c12), (fl32_id (- 1)) by auto. replace (c12 + - 1) with (/ 4096) by (unfold c12; field). now apply fl32_id.
  - constructor; [|constructor; [|constructor]]; exists 1%nat; cbn [map nth combine]; (replace c12 with (fl32 (1 * c12)) at 2; [constructor|rewrite Rmult_1_l; now apply fl32_id]).
  - exists 1%nat. cbn [combine]. replace (4097 / 16777216) with (fl32 (/ 4096 * c12)); [constructor|]. replace (/ 4096 * c12) with (4097 / 16777216) by (unfold c12; field). now apply fl32_id.
  - eexists. cbn [combine]. replace (/ 4096) with (fl32 (fl32 (c12 * c12) + fl32 (- 1 * c12))).
    + apply dot_add with [(c12, c12)] [(- 1, c12)]; [constructor|constructor|discriminate|discriminate|reflexivity].
    + rewrite c12_square. replace (- 1 * c12) with (- c12) by ring. rewrite (fl32_id (- c12)) by (apply float_opp; auto).
      replace (2049 / 2048 + - c12) with (/ 4096) by (unfold c12; field). now apply fl32_id.
  - split; [contradiction|]. intros H. unfold fdot_gap in H.
    replace (4097 / 16777216 - / 4096) with (bpow (-24)) in H by (bp; field).
    assert (F6 : forall k, (-149 <= k)%Z -> fl32 (bpow k) = bpow k) by (intros k Hk; apply fl_id, bp32; exact Hk).
    rewrite (F6 (-24)%Z), (Rabs_pos_eq (bpow (-24))) in H by (lia || apply bpow_ge_0).
    assert (T : fl32 (/ 10 ^ 6) <= bpow (-19)). { rewrite <- (F6 (-19)%Z) by lia. apply fl_le; [exact prec32_pos|]. bp. lra. }
    assert (E : 0 <= fl32 (/ 10 ^ 15) <= bpow (-40)). { split; [apply fl_nonneg; [exact prec32_pos|lra]|]. rewrite <- (F6 (-40)%Z) by lia. apply fl_le; [exact prec32_pos|]. bp. lra. }
    set (s := fl32 (4097 / 16777216 + / 4096)) in *.
    assert (S : bpow (-11) <= s <= 3 * bpow (-12)).
    { split; [rewrite <- (F6 (-11)%Z) by lia; apply fl_le; [exact prec32_pos|bp; lra]|].
      assert (Q : float32 (3 * bpow (-12))) by (apply float32_dyadic; [lia|reflexivity]). rewrite <- (fl32_id _ Q). apply fl_le; [exact prec32_pos|bp; lra]. }
    set (e := fl32 (/ 10 ^ 15)) in *. set (d := fl32 (s + e)) in *.
    assert (D : bpow (-11) <= d <= bpow (-10)).
    { split; [rewrite <- (F6 (-11)%Z) by lia; apply fl_le; [exact prec32_pos|lra]|]. rewrite <- (F6 (-10)%Z) by lia. apply fl_le; [exact prec32_pos|]. revert S E. bp. lra. }
    set (g := fl32 (d / 2)) in *.
    assert (G : bpow (-12) <= g <= bpow (-11)).
    { split; [rewrite <- (F6 (-12)%Z) by lia|rewrite <- (F6 (-11)%Z) by lia]; (apply fl_le; [exact prec32_pos|]); revert D; bp; lra. }
    assert (Q : bpow (-13) <= fl32 (bpow (-24) / g)).
    { rewrite <- (F6 (-13)%Z) by lia. apply fl_le; [exact prec32_pos|]. assert (0 < g) by (revert G; bp; lra).
      apply Rmult_le_reg_r with g; [auto|]. unfold Rdiv. rewrite (Rmult_assoc (bpow (-24))), Rinv_l, Rmult_1_r by lra. revert G. bp. lra. }
    revert Q H T. bp. lra.
Qed.
(** the residual of matching pursuit drifts from y - A x *)
Lemma mp_drifts : exists A y tr, Forall (Forall float32) A /\ Forall float32 y /\ is_matrix 1 1 A /\ length y = 1%nat /\
  fmp_trace emin32 prec32 1 A (repeat 0 1) y tr /\ tr <> [] /\
  nth 0 (snd (mp_final 1 y tr)) 0 <> resid 1 A y (fst (mp_final 1 y tr)) 0.
Proof.
  exists [[c12]], [1], [MpIter 0 c12 [c12] [- / 2048]]. pose proof c12_float as F0.
  assert (F2 : float32 1). { replace 1 with (IZR 1 * bpow 0) by (bp; field). apply float32_dyadic; [lia|reflexivity]. }
  assert (F4 : float32 (- / 2048)). { apply float_opp. replace (/ 2048) with (bpow (-11)) by (bp; field). apply bp32; lia. }
  repeat (split; [first [repeat constructor; auto; fail | reflexivity]|]). split; [|split; [discriminate|]].
  - split; [|exact Logic.I]. cbn [mi_i mi_c mi_x mi_r repeat]. exists [c12], [c12].
    assert (D : fdot emin32 prec32 [c12] [1] c12). { exists 1%nat. cbn [combine]. replace c12 with (fl32 (c12 * 1)) at 2; [constructor|]. rewrite Rmult_1_r. now apply fl32_id. }
    split; [constructor; [exact D|constructor]|]. split; [split; [cbn; lia|]; split; [intros [|[|j]] H; cbn in *; lra || lia|intros j H; lia]|].
    split; [reflexivity|]. split; [constructor; [|constructor]; exact D|]. split; [reflexivity|]. split; [reflexivity|]. split.
    + intros [|j] H; cbn in *; [|lia]. rewrite Rplus_0_l. symmetry. now apply fl32_id.
    + intros [|t] H; cbn in *; [|lia]. left. rewrite <- Ropp_mult_distr_l, fl_opp, c12_square.
      replace (1 + - (2049 / 2048)) with (- / 2048) by field. symmetry. now apply fl32_id.
  - cbn. unfold resid, rs. cbn. unfold c12. lra.
Qed.
