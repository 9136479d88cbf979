(** LSQR: rate from the condition number on the row space. *)
From Coq Require Import List Arith Bool Lia Reals Lra Psatz.
From Verif Require Import Vec RVec RMat Loop LoopLemmas XReal SolverSpec SolverLemmas CGModel CGSpec CGProofs SlsModel LsqrModel LsqrSpec LsqrProofs LsqrLemmas EigenSpec EigenProofs ChebProofs CondSpec CondProofs CondProofs2.
Import ListNotations.
Set Implicit Arguments.
Unset Strict Implicit.
Local Open Scope R_scope.

Section Lsqr.
  Variables (n m : nat) (A : simple_op) (b x0 z : vec) (damp atol btol conlim mu L : R) (mx : nat).
  Hypothesis HA : adjoint_ops n m (so_times A) (so_trans A).
  Hypothesis Hb : length b = m.
  Hypothesis Hx : length x0 = n.
  Notation AA := (so_times A). Notation T := (so_trans A).
  Notation F := (damped_objective A b x0 damp).
  Definition GG (x : vec) : vec := radd (T (AA x)) (rscale (damp * damp) x).
  Lemma A_len x : length x = n -> length (AA x) = m. Proof. apply HA. Qed.
  Lemma T_len x : length x = m -> length (T x) = n. Proof. apply HA. Qed.
  Lemma TA_len x : length x = n -> length (T (AA x)) = n. Proof. intros; apply T_len; now apply A_len. Qed.
  Lemma G_len x : length x = n -> length (GG x) = n. Proof. intros Lx. unfold GG. pose proof (TA_len Lx). vl. Qed.
  Lemma TA_linear : linear_op n n (fun x => T (AA x)).
  Proof.
    destruct HA as [LA [LT _]]. split; [intros; now apply TA_len|]. split; intros.
    - rewrite (proj1 (proj2 LA)), (proj1 (proj2 LT)) by (auto; now apply A_len). reflexivity.
    - rewrite (proj2 (proj2 LA)), (proj2 (proj2 LT)) by (auto; now apply A_len). reflexivity.
  Qed.
  Lemma TA_symmetric : symmetric_op n (fun x => T (AA x)).
  Proof. intros x y Lx Ly. destruct HA as [_ [_ Ad]]. rewrite rdot_sym, <- Ad, rdot_sym, Ad by (auto; now apply A_len). reflexivity. Qed.
  Lemma G_linear : linear_op n n GG.
  Proof.
    destruct TA_linear as (L1 & L2 & L3). split; [intros; now apply G_len|]. split; intros; unfold GG.
    - rewrite L2 by auto. pose proof (TA_len H). pose proof (TA_len H0). veq.
    - rewrite L3 by auto. pose proof (TA_len H). veq.
  Qed.
  Lemma G_symmetric : symmetric_op n GG.
  Proof.
    intros x y Lx Ly. unfold GG. pose proof (TA_len Lx). pose proof (TA_len Ly). rewrite rdot_add_l, rdot_add_r, rdot_scale_l, rdot_scale_r by vl. f_equal. now apply TA_symmetric.
  Qed.
  Lemma G_quad x : length x = n -> rdot x (GG x) = nrm2 (AA x) + damp * damp * nrm2 x.
  Proof. intros Lx. unfold GG, nrm2. pose proof (TA_len Lx). rewrite rdot_add_r, rdot_scale_r by vl. rewrite <- (proj2 (proj2 HA)) by (auto; now apply A_len). reflexivity. Qed.
  Lemma F_exp x h : length x = n -> length h = n -> F (radd x h) = F x - 2 * rdot (damped_descent A b x0 damp x) h + rdot h (GG h).
  Proof.
    intros Lx Lh. rewrite G_quad by auto. unfold damped_objective, damped_descent, nrm2. rewrite (proj1 (proj2 (proj1 HA))) by auto. pose proof (A_len Lx) as L1. pose proof (A_len Lh) as L2.
    assert (L3 : length (T (rsub b (AA x))) = n) by (apply T_len; vl).
    replace (rsub b (radd (AA x) (AA h))) with (rsub (rsub b (AA x)) (AA h)) by veq. replace (rsub (radd x h) x0) with (radd (rsub x x0) h) by veq.
    assert (Q : rdot (rsub (T (rsub b (AA x))) (rscale (damp * damp) (rsub x x0))) h = rdot (T (rsub b (AA x))) h - damp * damp * rdot (rsub x x0) h).
    { rewrite rdot_sub_l; [now rewrite rdot_scale_l|]. rewrite L3. vl. }
    rewrite Q; clear Q. rewrite (rdot_sym (T (rsub b (AA x))) h), <- (proj2 (proj2 HA)) by (auto; vl). set (a := rsub b (AA x)) in *. assert (La : length a = m) by (unfold a; vl). set (p := rsub x x0) in *. assert (Lp : length p = n) by (unfold p; vl).
    rewrite !rdot_sub_l, !rdot_sub_r, !rdot_add_l, !rdot_add_r by vl. rewrite (rdot_sym a (AA h)), (rdot_sym p h). ring.
  Qed.
  Hypothesis Lz : length z = n.
  Hypothesis Mz : forall y, length y = n -> F z <= F y.
  Lemma normal_eq : damped_descent A b x0 damp z = rzero n.
  Proof.
    set (g := damped_descent A b x0 damp z). assert (Lg : length g = n). { unfold g, damped_descent. pose proof (A_len Lz). assert (length (T (rsub b (AA z))) = n) by (apply T_len; vl). vl. }
    assert (P : forall t, 0 <= - 2 * t * nrm2 g + t * t * rdot g (GG g)).
    { intros t. pose proof (Mz (y := radd z (rscale t g)) ltac:(vl)) as Q. rewrite F_exp in Q by vl. fold g in Q. rewrite (proj2 (proj2 G_linear)), !rdot_scale_r, rdot_scale_l in Q by auto. unfold nrm2. lra. }
    assert (Z : rdot g g = 0). 2:{ rewrite <- Lg. now apply rdot_eq0. }
    pose proof (rdot_pos g) as [G|G]; [|now symmetry]. exfalso. set (K := rdot g (GG g)) in *. unfold nrm2 in *. pose proof (Rle_abs K). pose proof (Rabs_pos K).
    pose proof (P (rdot g g / (Rabs K + 1))) as P1. set (t := rdot g g / (Rabs K + 1)) in *. assert (T0 : 0 < t) by (unfold t; apply Rdiv_lt_0_compat; lra).
    assert (TK : t * K < rdot g g). { assert (t * (Rabs K + 1) = rdot g g) by (unfold t; field; lra). nra. }
    nra.
  Qed.
  Lemma F_gap x : length x = n -> F x - F z = rdot (rsub x z) (GG (rsub x z)).
  Proof. intros Lx. replace x with (radd z (rsub x z)) at 1 by veq. rewrite F_exp by vl. rewrite normal_eq, rdot_zero_l. ring. Qed.
  Lemma G_start : T (rsub b (AA x0)) = ropp (GG (rsub x0 z)).
  Proof.
    pose proof normal_eq as E. unfold damped_descent in E. pose proof (A_len Lz) as L1. pose proof (A_len Hx) as L2. destruct HA as [LA [LT _]].
    unfold GG. rewrite (@lin_sub n m AA x0 z LA), (@lin_sub m n T (AA x0) (AA z) LT) by auto. rewrite (@lin_sub m n T b (AA z) LT) in E by auto. rewrite (@lin_sub m n T b (AA x0) LT) by auto.
    assert (L3 := T_len Hb). assert (L4 := T_len L1). assert (L5 := T_len L2). apply vec_eq; [vl|]. intros i Hi.
    assert (Ei := f_equal (fun u : vec => u@i) E). cbv beta in Ei. rewrite rzero_nth in Ei. rewrite rsub_nth, rscale_nth, rsub_nth, rsub_nth in Ei by vl.
    rewrite ropp_nth, radd_nth, rscale_nth, !rsub_nth by vl. lra.
  Qed.
  Hypothesis HL : 0 < mu <= L.
  Hypothesis Bd : forall y, length y = m -> mu * nrm2 (T y) <= nrm2 (AA (T y)) <= L * nrm2 (T y).
  Lemma lsqr_rate k s : lsqr_after A b x0 damp atol btol conlim mx k s ->
    F (lq_x s) - F z <= (2 * cond_rate (mu + damp * damp) (L + damp * damp) ^ k) ^ 2 * (F x0 - F z).
  Proof.
    intros H. pose proof G_linear as LG. pose proof G_symmetric as SG. destruct (spectral LG SG) as (lam & v & EB).
    assert (PS : psd_op n GG). { intros x Lx. rewrite G_quad by auto. apply Rplus_le_le_0_compat; [apply rdot_pos|]. apply Rmult_le_pos; [apply Rle_0_sqr|apply rdot_pos]. }
    pose proof (psd_values PS EB) as PV. set (e0 := rsub x0 z). assert (Le : length e0 = n) by (unfold e0; vl). pose proof (Rle_0_sqr damp) as D0. unfold Rsqr in D0.
    destruct (@rate n n (fun x => T (AA x)) GG (T (rsub b (AA x0))) e0 (mu + damp * damp) (L + damp * damp) (damp * damp) (root n lam v) GG lam v) with (k := k) as (d & D1 & Ld & D2); auto.
    - apply TA_linear.
    - apply G_start.
    - lra.
    - now apply root_linear with GG.
    - intros x Lx. now apply root_com.
    - intros i Hi. pose proof EB as ([FL FO] & EV & _). assert (Lv := FL i Hi). set (sg := lam i - damp * damp).
      assert (ET : T (AA (v i)) = rscale sg (v i)).
      { specialize (EV i Hi). unfold GG in EV. pose proof (TA_len Lv) as L1. apply vec_eq; [vl|]. intros j Hj. assert (Ej := f_equal (fun u : vec => u@j) EV). cbv beta in Ej.
        rewrite radd_nth, !rscale_nth in Ej by vl. rewrite rscale_nth. unfold sg. lra. }
      assert (En : nrm2 (AA (v i)) = sg). { unfold nrm2. rewrite (proj2 (proj2 HA)) by (auto; now apply A_len). rewrite ET, rdot_scale_r, FO, Nat.eqb_refl by auto. ring. }
      destruct (Req_dec sg 0) as [Z|Z].
      + right. unfold root. rewrite (eb_fun_coord EB) by auto. destruct (Req_dec (damp * damp) 0) as [Dz|Dz].
        * replace (lam i) with 0 by (unfold sg in Z; lra). rewrite sqrt_0. ring.
        * assert (AZ : AA (v i) = rzero m). { rewrite <- (A_len Lv). apply rdot_eq0. unfold nrm2 in En. lra. }
          assert (Q : rdot (T (rsub b (AA x0))) (v i) = 0). { pose proof (A_len Hx). rewrite rdot_sym, <- (proj2 (proj2 HA)) by vl. rewrite AZ. apply rdot_zero_l. }
          rewrite G_start, rdot_opp_l in Q. fold e0 in Q. rewrite (eb_coord SG EB) in Q by auto. replace (lam i) with (damp * damp) in * by (unfold sg in Z; lra).
          assert (R0 : rdot e0 (v i) = 0). { assert (damp * damp * rdot e0 (v i) = 0) by lra. apply Rmult_integral in H0. destruct H0; [contradiction|auto]. } rewrite R0. ring.
      + left. assert (LAv := A_len Lv). specialize (Bd (y := rscale (/ sg) (AA (v i))) ltac:(vl)). rewrite (proj2 (proj2 (proj1 (proj2 HA)))) in Bd by auto. rewrite ET in Bd.
        replace (rscale (/ sg) (rscale sg (v i))) with (v i) in Bd by (apply vec_eq; [vl|]; intros j Hj; rewrite !rscale_nth; field; auto).
        rewrite En in Bd. unfold nrm2 in Bd. rewrite FO, Nat.eqb_refl in Bd by auto. unfold sg in Bd. lra.
    - pose proof (@lsqr_krylov n m A b x0 damp atol btol conlim mx HA Hb Hx k s d H D1 Ld) as O.
      pose proof (@F_gap (radd x0 d) ltac:(vl)) as G1. pose proof (@F_gap x0 Hx) as G2. fold e0 in G2. replace (rsub (radd x0 d) z) with (radd e0 d) in G1 by (unfold e0; veq).
      assert (E1 : rdot (root n lam v (radd e0 d)) (root n lam v (radd e0 d)) = rdot (radd e0 d) (GG (radd e0 d))) by (apply (root_nrm2 LG SG EB PV); vl).
      assert (E2 : rdot (root n lam v e0) (root n lam v e0) = rdot e0 (GG e0)) by (apply (root_nrm2 LG SG EB PV); vl).
      rewrite <- nrm_sq in E1, E2. set (p := nrm (root n lam v (radd e0 d))) in *. set (q := nrm (root n lam v e0)) in *. assert (0 <= p) by apply nrm_pos. assert (0 <= q) by apply nrm_pos.
      set (g := 2 * cond_rate (mu + damp * damp) (L + damp * damp) ^ k) in *. rewrite G2, <- E2. replace (g ^ 2 * (q * q)) with ((g * q) * (g * q)) by ring. apply Rle_trans with (p * p); [lra|].
      apply Rmult_le_compat; auto.
  Qed.
End Lsqr.

(** every operator that is not zero has such bounds *)
Lemma min_positive n (f : nat -> R) : exists mu, 0 < mu /\ forall i, (i < n)%nat -> 0 < f i -> mu <= f i.
Proof.
  induction n as [|n (mu & P & H)]; [exists 1; split; [lra|intros; lia]|]. destruct (Rlt_dec 0 (f n)) as [Q|Q].
  - exists (Rmin mu (f n)). split; [now apply Rmin_glb_lt|]. intros i Hi Hf. destruct (Nat.eq_dec i n) as [->|]; [apply Rmin_r|]. eapply Rle_trans; [apply Rmin_l|]. apply H; auto. lia.
  - exists mu. split; auto. intros i Hi Hf. destruct (Nat.eq_dec i n) as [->|]; [contradiction|]. apply H; auto. lia.
Qed.
Lemma row_space_bounds n m A T : adjoint_ops n m A T -> exists mu L, 0 < mu <= L /\ forall y, length y = m -> mu * nrm2 (T y) <= nrm2 (A (T y)) <= L * nrm2 (T y).
Proof.
  intros HA. set (S := SimpleOp A T). pose proof (@TA_linear n m S HA) as L1. pose proof (@TA_symmetric n m S HA) as S1. cbn in L1, S1.
  destruct (spectral L1 S1) as (lam & v & EB). destruct (min_positive n lam) as (mu & P & M). destruct (op_bounded HA) as (C & C0 & HC).
  exists mu, (mu + C * C). split; [split; [auto|]; pose proof (Rle_0_sqr C); unfold Rsqr in *; lra|]. intros y Ly.
  assert (LT : length (T y) = n) by now apply HA. assert (LAT : length (A (T y)) = m) by now apply HA.
  assert (Q : nrm2 (A (T y)) = rdot (T y) (T (A (T y)))) by (unfold nrm2; now rewrite (proj2 (proj2 HA))). split.
  - rewrite Q. assert (Q2 := eb_quad L1 S1 EB LT). cbv beta in Q2. rewrite Q2, (eb_nrm2 EB LT), <- rsum_mul_l. apply rsum_le. intros i Hi. pose proof EB as ([FL FO] & EV & _). specialize (FL i Hi).
    assert (En : nrm2 (A (v i)) = lam i). { unfold nrm2. rewrite (proj2 (proj2 HA)) by (auto; now apply HA). rewrite (EV i Hi), rdot_scale_r, FO, Nat.eqb_refl by auto. ring. }
    pose proof (Rle_0_sqr (rdot (T y) (v i))) as Sq. unfold Rsqr in Sq. pose proof (rdot_pos (A (v i))) as [G|G].
    + apply Rmult_le_compat_r; auto. apply M; auto. unfold nrm2 in En. lra.
    + assert (Z : rdot (T y) (v i) = 0). { rewrite rdot_sym, <- (proj2 (proj2 HA)) by auto. assert (AZ : A (v i) = rzero m) by (rewrite <- (proj1 (proj1 HA) (v i)) by auto; now apply rdot_eq0). rewrite AZ. apply rdot_zero_l. }
      rewrite Z. lra.
  - specialize (HC (T y) LT). unfold nrm2. rewrite <- !nrm_sq. pose proof (nrm_pos (A (T y))). pose proof (nrm_pos (T y)). assert (nrm (A (T y)) * nrm (A (T y)) <= (C * nrm (T y)) * (C * nrm (T y))) by (apply Rmult_le_compat; auto). nra.
Qed.
