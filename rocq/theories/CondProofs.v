(** Rates of Krylov methods from the condition number. *)
From Coq Require Import List Arith Bool Lia Reals Lra Psatz.
From Verif Require Import Vec RVec SolverSpec CGProofs EigenSpec EigenProofs ChebProofs CondSpec.
Import ListNotations.
Set Implicit Arguments.
Unset Strict Implicit.
Local Open Scope R_scope.

Lemma rate_range mu L : 0 < mu <= L -> 0 <= cond_rate mu L < 1.
Proof.
  intros H. pose proof (sqrt_lt_R0 mu (proj1 H)). assert (sqrt mu <= sqrt L) by (apply sqrt_le_1_alt; lra). unfold cond_rate. split.
  - apply Rmult_le_pos; [lra|]. left. apply Rinv_0_lt_compat. lra.
  - apply Rmult_lt_reg_r with (sqrt L + sqrt mu); [lra|]. unfold Rdiv. rewrite Rmult_assoc, Rinv_l by lra. lra.
Qed.
Lemma cheb_rate mu L k : 0 < mu < L -> 0 < cheb k ((L + mu) / (L - mu)) /\ / cheb k ((L + mu) / (L - mu)) <= 2 * cond_rate mu L ^ k.
Proof.
  intros H. set (a := sqrt L). set (b := sqrt mu). assert (B0 : 0 < b) by (apply sqrt_lt_R0; lra). assert (AB : b < a) by (apply sqrt_lt_1_alt; lra).
  assert (EA : L = a * a) by (unfold a; rewrite sqrt_sqrt; lra). assert (EB : mu = b * b) by (unfold b; rewrite sqrt_sqrt; lra).
  assert (D : a * a - b * b <> 0). { intros C. assert ((a - b) * (a + b) = 0) by lra. apply Rmult_integral in H0. lra. }
  set (s := (a + b) / (a - b)). assert (S0 : 0 < s) by (apply Rdiv_lt_0_compat; lra).
  replace ((L + mu) / (L - mu)) with ((s + / s) / 2).
  2:{ rewrite EA, EB. unfold s. field. repeat split; try lra. }
  rewrite cheb_joukowski by lra. assert (P : 0 < s ^ k) by (apply pow_lt; auto). assert (P' : 0 < / s ^ k) by now apply Rinv_0_lt_compat.
  split; [lra|]. replace (cond_rate mu L) with (/ s) by (unfold cond_rate; fold a b; unfold s; field; lra). rewrite pow_inv by lra.
  replace (2 * / s ^ k) with (/ (s ^ k / 2)) by (field; lra). apply Rinv_le_contravar; lra.
Qed.

Section Rate.
  Variables (n m : nat) (P0 P : vec -> vec) (r e0 : vec) (mu L shift : R) (sq S : vec -> vec) (lam : nat -> R) (u : nat -> vec).
  Hypothesis LP0 : linear_op n n P0.
  Hypothesis EP : forall x, length x = n -> P x = radd (P0 x) (rscale shift x).
  Hypothesis Le : length e0 = n.
  Hypothesis Er : r = ropp (P e0).
  Hypothesis HL : 0 < mu <= L.
  Hypothesis Lsq : linear_op n m sq.
  Hypothesis LS : linear_op m m S.
  Hypothesis SS : symmetric_op m S.
  Hypothesis EB : eigenbasis m S lam u.
  Hypothesis Com : forall x, length x = n -> sq (P x) = S (sq x).
  Hypothesis Spec : forall i, (i < m)%nat -> mu <= lam i <= L \/ rdot (sq e0) (u i) = 0.
  Let phi := fun i x => rdot (sq x) (u i).
  Lemma sq_len x : length x = n -> length (sq x) = m. Proof. apply Lsq. Qed.
  Lemma phi_add i x y : length x = n -> length y = n -> phi i (radd x y) = phi i x + phi i y.
  Proof. intros Lx Ly. unfold phi. rewrite (proj1 (proj2 Lsq)) by auto. apply rdot_add_l. rewrite !sq_len; auto. Qed.
  Lemma phi_scale i a x : length x = n -> phi i (rscale a x) = a * phi i x.
  Proof. intros Lx. unfold phi. rewrite (proj2 (proj2 Lsq)) by auto. apply rdot_scale_l. Qed.
  Lemma phi_P i : (i < m)%nat -> forall x, length x = n -> phi i (P x) = lam i * phi i x.
  Proof. intros Hi x Lx. unfold phi. rewrite Com by auto. apply (@eb_coord m S lam u); auto. now apply sq_len. Qed.
  Lemma from_coords d g k : length d = n -> 0 <= g -> (forall i, (i < m)%nat -> Rabs (phi i (radd e0 d)) <= g * k * Rabs (phi i e0)) -> 0 <= k -> nrm (sq (radd e0 d)) <= g * k * nrm (sq e0).
  Proof.
    intros Ld Hg H Hk. assert (G : 0 <= g * k) by now apply Rmult_le_pos. unfold nrm. rewrite <- (sqrt_square (g * k)) by auto. rewrite <- sqrt_mult by (try apply rdot_pos; nra). apply sqrt_le_1_alt.
    assert (L1 : length (sq (radd e0 d)) = m) by (apply sq_len; vl). assert (L2 := sq_len Le).
    rewrite (parseval (proj1 EB) L1 L1), (parseval (proj1 EB) L2 L2), <- rsum_mul_l. apply rsum_le. intros i Hi. specialize (H i Hi). unfold phi in H.
    set (a := rdot (sq (radd e0 d)) (u i)) in *. set (b := rdot (sq e0) (u i)) in *.
    assert (E1 : a * a = Rabs a * Rabs a) by (rewrite <- Rabs_mult; symmetry; apply Rabs_pos_eq; nra).
    assert (E2 : b * b = Rabs b * Rabs b) by (rewrite <- Rabs_mult; symmetry; apply Rabs_pos_eq; nra).
    rewrite E1, E2. pose proof (Rabs_pos a). pose proof (Rabs_pos b). replace (g * k * (g * k) * (Rabs b * Rabs b)) with ((g * k * Rabs b) * (g * k * Rabs b)) by ring.
    apply Rmult_le_compat; auto.
  Qed.
  Lemma rate k : exists d, in_span n (krylov P0 r k) d /\ length d = n /\ nrm (sq (radd e0 d)) <= 2 * cond_rate mu L ^ k * nrm (sq e0).
  Proof.
    destruct (Req_dec mu L) as [E|N].
    - assert (R0 : cond_rate mu L = 0) by (unfold cond_rate; rewrite E; unfold Rdiv; ring). destruct k as [|k].
      + exists (rzero n). split; [apply span_zero; intros v []|]. split; [apply rzero_len|]. replace (radd e0 (rzero n)) with e0 by veq. cbn. pose proof (nrm_pos (sq e0)). lra.
      + pose proof (@r_len n P0 P r e0 shift LP0 EP Le Er) as Lr. exists (rscale (/ L) r). split; [apply span_scale; [now apply kry_len|now apply kry_start]|]. split; [vl|].
        rewrite R0, pow_i by lia. apply from_coords; [vl|lra| |lra]. intros i Hi. rewrite phi_add, phi_scale by vl.
        assert (LPe : length (P e0) = n) by (eapply P_len; eauto). assert (Er' : r = rscale (-1) (P e0)) by (rewrite Er; veq).
        rewrite Er', phi_scale, phi_P by auto. destruct (Spec Hi) as [B|B].
        * replace (lam i) with L by lra. replace (phi i e0 + / L * (-1 * (L * phi i e0))) with 0 by (field; lra). rewrite Rabs_R0. ring_simplify. lra.
        * unfold phi. rewrite B. rewrite !Rmult_0_r, Rplus_0_r, Rabs_R0. lra.
    - assert (HL' : mu < L) by lra. destruct (@cheb_rate mu L k ltac:(lra)) as [T0 T1]. exists (@dk n P r mu L k).
      destruct (@dk_span n P0 P r e0 mu L shift LP0 EP Le Er k) as [D1 D2]. split; auto. split; auto. apply from_coords; auto; [lra| |apply pow_le; apply rate_range; lra].
      intros i Hi. rewrite (@dk_phi n P0 P r e0 mu L shift LP0 EP Le Er HL' (phi i) (lam i)); auto; [|intros; now apply phi_add|intros; now apply phi_scale|now apply phi_P|lra].
      rewrite Rabs_mult. destruct (Spec Hi) as [B|B]; [|unfold phi; rewrite B, Rabs_R0; lra]. apply Rmult_le_compat_r; [apply Rabs_pos|]. unfold Rdiv. rewrite Rabs_mult.
      rewrite (Rabs_pos_eq (/ _)) by (left; now apply Rinv_0_lt_compat). eapply Rle_trans; [|exact T1]. match goal with |- _ * ?z <= _ => apply Rle_trans with (1 * z); [|rewrite Rmult_1_l; apply Rle_refl] end.
      apply Rmult_le_compat_r; [left; now apply Rinv_0_lt_compat|]. apply cheb_abs. split.
      + apply Rmult_le_reg_r with (L - mu); [lra|]. unfold Rdiv. rewrite Rmult_assoc, Rinv_l by lra. lra.
      + apply Rmult_le_reg_r with (L - mu); [lra|]. unfold Rdiv. rewrite Rmult_assoc, Rinv_l by lra. lra.
  Qed.
End Rate.
