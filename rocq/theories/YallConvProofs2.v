(** Solutions with dual certificates exist. *)
From Coq Require Import List Arith Bool Lia Reals Lra Psatz ClassicalEpsilon.
From Verif Require Import Vec RVec RMat Loop LoopLemmas XReal SolverSpec SolverLemmas OptProofs FomProofs2 SpglProofs L1RecSpec L1RecProofs CGProofs YallModel YallSpec YallProofs YallProofs2 YallProofs3 SeqSpec SeqProofs SeqProofs2 YallConvProofs.
Import ListNotations.
Set Implicit Arguments.
Unset Strict Implicit.
Local Open Scope R_scope.

(** what the projection on the ball of radius d removes *)
Definition excess (d : R) (r : vec) : vec := if Rle_dec (nrm r) d then rzero (length r) else rscale (1 - d / nrm r) r.
Section Excess.
  Variable d : R.
  Hypothesis Hd : 0 <= d.
  Lemma excess_len r : length (excess d r) = length r.
  Proof. unfold excess. destruct (Rle_dec _ _); vl. Qed.
  Lemma excess_nrm r : nrm (excess d r) = Rmax 0 (nrm r - d).
  Proof.
    unfold excess. destruct (Rle_dec _ _) as [H|H].
    - rewrite nrm_rzero. symmetry. apply Rmax_left. lra.
    - rewrite nrm_scale. assert (0 < nrm r) by lra. rewrite Rabs_right.
      + rewrite Rmax_right by lra. field. lra.
      + assert (d / nrm r <= 1); [|lra]. apply Rmult_le_reg_r with (nrm r); auto. unfold Rdiv. rewrite Rmult_assoc, Rinv_l; lra.
  Qed.
  Lemma excess_dot r : rdot r (excess d r) = d * nrm (excess d r) + nrm2 (excess d r).
  Proof.
    unfold nrm2. rewrite <- nrm_sq. rewrite excess_nrm. unfold excess. destruct (Rle_dec _ _) as [H|H].
    - rewrite rdot_zero_r, Rmax_left by lra. ring.
    - rewrite rdot_scale_r, Rmax_right by lra. assert (0 < nrm r) by lra. rewrite <- nrm_sq. field. lra.
  Qed.
  Lemma excess_in r : nrm (rsub r (excess d r)) <= d.
  Proof.
    unfold excess. destruct (Rle_dec _ _) as [H|H].
    - replace (rsub r (rzero (length r))) with r by veq. auto.
    - assert (0 < nrm r) by lra. replace (rsub r (rscale (1 - d / nrm r) r)) with (rscale (d / nrm r) r) by veq.
      rewrite nrm_scale, Rabs_right; [right; field; lra|]. apply Rle_ge. apply Rmult_le_pos; auto. left. now apply Rinv_0_lt_compat.
  Qed.
  Lemma excess_least r u : length u = length r -> nrm u <= d -> nrm2 (excess d r) <= nrm2 (rsub r u).
  Proof.
    intros Lu Hu. unfold nrm2. rewrite <- !nrm_sq. rewrite excess_nrm. pose proof (@nrm_triang_sub r u ltac:(auto)) as Tr. pose proof (nrm_pos (rsub r u)).
    unfold Rmax. destruct (Rle_dec _ _); nra.
  Qed.
  (** half its squared norm is convex with itself as gradient, of Lipschitz constant one *)
  Lemma excess_below r l : length r = length l -> / 2 * nrm2 (excess d l) <= / 2 * nrm2 (excess d r) + rdot (excess d l) (rsub l r).
  Proof.
    intros L. pose proof (excess_len r) as L1. pose proof (excess_len l) as L2. pose proof (excess_in r) as I. pose proof (excess_dot l) as E.
    set (hl := excess d l) in *. set (hr := excess d r) in *. set (u := rsub r hr) in *. assert (Lu : length u = length r) by (unfold u; vl).
    pose proof (cauchy_le hl u) as C. pose proof (nrm_pos hl). assert (nrm hl * nrm u <= nrm hl * d) by (apply Rmult_le_compat_l; lra).
    assert (Eu : rdot hl u = rdot hl r - rdot hl hr) by (unfold u; rewrite rdot_sub_r by vl; ring).
    pose proof (rdot_pos (rsub hl hr)) as Q. rewrite rdot_sub_l, !rdot_sub_r in Q by vl. rewrite rdot_sub_r by vl.
    unfold nrm2 in *. rewrite (rdot_sym l hl) in E. rewrite (rdot_sym hr hl) in Q. rewrite Eu in C. lra.
  Qed.
  Lemma excess_above r s : length s = length r -> nrm2 (excess d (rsub r s)) <= nrm2 (excess d r) - 2 * rdot (excess d r) s + nrm2 s.
  Proof.
    intros L. pose proof (excess_len r) as L1. eapply Rle_trans; [apply excess_least with (u := rsub r (excess d r)); [vl|apply excess_in]|].
    replace (rsub (rsub r s) (rsub r (excess d r))) with (rsub (excess d r) s) by veq. unfold nrm2. vdot. rewrite (rdot_sym s). lra.
  Qed.
End Excess.
Lemma small_slope a c : (forall t, 0 < t <= 1 -> 0 <= a + t * c) -> 0 <= a.
Proof.
  intros H. apply Rnot_lt_le. intros N. destruct (Rle_dec c 0) as [Hc|Hc]; [specialize (H 1 ltac:(lra)); lra|].
  set (t := Rmin 1 (- a / (2 * c))). assert (Pa : 0 < - a / (2 * c)) by (apply Rdiv_lt_0_compat; lra).
  assert (Pt : 0 < t <= 1) by (unfold t; split; [apply Rmin_glb_lt; lra|apply Rmin_l]). specialize (H t Pt).
  assert (t * c <= - a / (2 * c) * c) by (apply Rmult_le_compat_r; [lra|apply Rmin_r]). replace (- a / (2 * c) * c) with (- a / 2) in H0 by (field; lra). lra.
Qed.
Section Exist.
  Variables (n m : nat) (A T : vec -> vec) (b w : vec) (nonneg : bool).
  Hypothesis Adj : adjoint_ops n m A T.
  Hypothesis Lb : length b = m.
  Hypothesis Lw : length w = n.
  Hypothesis Pw : forall i, (i < n)%nat -> 0 < w@i.
  Let Hw : forall i, (i < n)%nat -> 0 <= w@i. Proof. intros i Hi. left. auto. Qed.
  Let LA x : length x = n -> length (A x) = m. Proof. apply Adj. Qed.
  Let LT y : length y = m -> length (T y) = n. Proof. apply Adj. Qed.
  Notation C := (in_dual_set n nonneg w).
  Notation cand := (candidate n nonneg).
  Lemma wnorm_sum x : length x = n -> wnorm w x = rsum n (fun i => w@i * Rabs (x@i)).
  Proof.
    intros Lx. unfold wnorm. rewrite (@nrm1_sum n) by (rewrite rmul_len; vl). apply rsum_ext. intros i Hi. rewrite rmul_nth by vl. rewrite Rabs_mult, (Rabs_right (w@i)); auto.
    specialize (Pw Hi). lra.
  Qed.
  Lemma least_weight : exists c, 0 < c /\ forall i, (i < n)%nat -> c <= w@i.
  Proof.
    assert (H : forall k, (k <= n)%nat -> exists c, 0 < c /\ forall i, (i < k)%nat -> c <= w@i).
    { induction k as [|k IH]; intros Hk; [exists 1; split; [lra|lia]|]. destruct IH as (c & Pc & Hc); [lia|]. exists (Rmin c (w@k)). split.
      - apply Rmin_glb_lt; auto. all: try (apply Pw; lia).
      - intros i Hi. destruct (Nat.eq_dec i k) as [->|]; [apply Rmin_r|]. eapply Rle_trans; [apply Rmin_l|apply Hc; lia]. }
    apply (H n). lia.
  Qed.
  Lemma wnorm_coercive : exists c, 0 < c /\ forall x, length x = n -> c * nrm x <= wnorm w x.
  Proof.
    destruct least_weight as (c & Pc & Hc). exists c. split; auto. intros x Lx. rewrite wnorm_sum by auto.
    eapply Rle_trans; [apply Rmult_le_compat_l; [lra|apply nrm_le_nrm1]|]. rewrite (@nrm1_sum n) by auto. rewrite <- rsum_mul_l. apply rsum_le. intros i Hi.
    apply Rmult_le_compat_r; [apply Rabs_pos|auto].
  Qed.
  Lemma wnorm_calm x l : length x = n -> length l = n -> wnorm w l <= wnorm w x + nrm1 w * nrm (rsub x l).
  Proof.
    intros Lx Ll. rewrite !wnorm_sum by auto. rewrite (@nrm1_sum n w) by auto. rewrite Rmult_comm, <- rsum_mul_l, <- rsum_add. apply rsum_le. intros i Hi.
    pose proof (entry_nrm (rsub x l) i) as Q. rewrite rsub_nth in Q by vl. specialize (Pw Hi). rewrite (Rabs_right (w@i)) by lra.
    pose proof (Rabs_triang (x@i) (l@i - x@i)) as Tr. replace (x@i + (l@i - x@i)) with (l@i) in Tr by ring. rewrite (Rabs_minus_sym (l@i)) in Tr.
    assert (w@i * Rabs (l@i) <= w@i * (Rabs (x@i) + nrm (rsub x l))) by (apply Rmult_le_compat_l; lra). lra.
  Qed.
  Lemma wnorm_convex x v t : length x = n -> length v = n -> 0 <= t <= 1 -> wnorm w (radd x (rscale t (rsub v x))) <= (1 - t) * wnorm w x + t * wnorm w v.
  Proof.
    intros Lx Lv Ht. rewrite !wnorm_sum by vl. rewrite <- !rsum_mul_l, <- rsum_add. apply rsum_le. intros i Hi.
    rewrite radd_nth, rscale_nth, rsub_nth by vl. replace (x@i + t * (v@i - x@i)) with ((1 - t) * x@i + t * v@i) by ring.
    pose proof (Rabs_triang ((1 - t) * x@i) (t * v@i)) as Tr. rewrite !Rabs_mult, (Rabs_right t), (Rabs_right (1 - t)) in Tr by lra. specialize (Pw Hi).
    assert (w@i * Rabs ((1 - t) * x@i + t * v@i) <= w@i * ((1 - t) * Rabs (x@i) + t * Rabs (v@i))) by (apply Rmult_le_compat_l; lra). lra.
  Qed.
  Lemma wnorm_pos x : 0 <= wnorm w x. Proof. apply nrm1_pos. Qed.
  Section Penalty.
    Variables (d e : R).
    Hypothesis Hd : 0 <= d.
    Hypothesis He : 0 < e.
    Definition penal (x : vec) : R := wnorm w x + / e * (/ 2 * nrm2 (excess d (rsub b (A x)))).
    Let Pe : 0 < / e := Rinv_0_lt_compat e He.
    Lemma penal_calm : calm n penal.
    Proof.
      intros l Ll. exists (nrm1 w + / e * nrm (T (excess d (rsub b (A l))))). split.
      { pose proof (nrm1_pos w). pose proof (Rmult_le_pos (/ e) (nrm (T (excess d (rsub b (A l))))) ltac:(lra) (nrm_pos _)). lra. }
      intros x Lx. unfold penal. pose proof (wnorm_calm Lx Ll) as W. assert (L1 := LA Lx). assert (L2 := LA Ll).
      pose proof (@excess_below d Hd (rsub b (A x)) (rsub b (A l)) ltac:(vl)) as Q. set (h := excess d (rsub b (A l))) in *.
      assert (Lh : length h = m) by (unfold h; rewrite excess_len; vl).
      assert (E : rdot h (rsub (rsub b (A l)) (rsub b (A x))) <= nrm (T h) * nrm (rsub x l)).
      { assert (EA : rsub (rsub b (A l)) (rsub b (A x)) = A (rsub x l)).
        { rewrite (lin_sub _ _ (proj1 Adj)) by auto. veq. }
        rewrite EA.
        rewrite rdot_sym, (proj2 (proj2 Adj)) by vl. rewrite rdot_sym. apply cauchy_le. }
      assert (/ e * (/ 2 * nrm2 h) <= / e * (/ 2 * nrm2 (excess d (rsub b (A x))) + nrm (T h) * nrm (rsub x l))) by (apply Rmult_le_compat_l; lra). lra.
    Qed.
    Lemma cand_closed : closed n cand.
    Proof.
      intros x l L D HC. destruct (cvg_of L HC) as (_ & Ll & H). split; auto. intros Nn i Hi.
      apply (@Rle_cv_lim (fun _ => 0) (fun k => (x k)@i)); [intros k; now apply (proj2 (D k))|apply cv_const|auto].
    Qed.
    Lemma zero_cand : cand (rzero n).
    Proof. split; [vl|]. intros _ i Hi. rewrite rzero_nth. lra. Qed.
    Lemma penal_pos x : wnorm w x <= penal x.
    Proof. unfold penal. pose proof (nrm2_pos (excess d (rsub b (A x)))). assert (0 <= / e * (/ 2 * nrm2 (excess d (rsub b (A x))))) by (apply Rmult_le_pos; lra). lra. Qed.
    Lemma penal_attains : exists q, minimises n cand penal q.
    Proof.
      destruct wnorm_coercive as (c & Pc & Hc).
      apply (@attains n cand penal cand_closed penal_calm (rzero n) 0 (penal (rzero n) / c)); [vl|apply zero_cand| |].
      - intros z _ _. pose proof (penal_pos z). pose proof (wnorm_pos z). lra.
      - intros z Lz _ Hz. specialize (Hc z Lz). pose proof (penal_pos z). apply Rmult_le_reg_l with c; auto. replace (c * (penal (rzero n) / c)) with (penal (rzero n)) by (field; lra). lra.
    Qed.
    (** first order conditions *)
    Lemma penal_kkt x : minimises n cand penal x -> let y := rscale (/ e) (excess d (rsub b (A x))) in
      length y = m /\ C (T y) /\ (forall v, C v -> rdot x v <= rdot x (T y)).
    Proof.
      intros (Lx & Cx & Mx) y. assert (L1 := LA Lx). assert (Lh : length (excess d (rsub b (A x))) = m) by (rewrite excess_len; vl).
      assert (Ly : length y = m) by (unfold y; vl). assert (LTy := LT Ly).
      assert (S : forall v, cand v -> wnorm w x - rdot (T y) x <= wnorm w v - rdot (T y) v).
      { intros v Cv. pose proof Cv as [Lv Pv]. set (dv := rsub v x). assert (Ldv : length dv = n) by (unfold dv; vl). assert (L2 := LA Ldv).
        assert (Q : 0 <= wnorm w v - wnorm w x - rdot (T y) dv); [|unfold dv in Q; rewrite rdot_sub_r in Q by vl; lra].
        apply small_slope with (c := / e * (/ 2 * nrm2 (A dv))). intros t Ht.
        set (z := radd x (rscale t dv)). assert (Lz : length z = n) by (unfold z; vl).
        assert (Cz : cand z). { split; auto. intros Nn i Hi. unfold z, dv. rewrite radd_nth, rscale_nth, rsub_nth by vl. pose proof (proj2 Cx Nn i Hi). pose proof (Pv Nn i Hi).
          replace (x@i + t * (v@i - x@i)) with ((1 - t) * x@i + t * v@i) by ring. assert (0 <= (1 - t) * x@i) by (apply Rmult_le_pos; lra). assert (0 <= t * v@i) by (apply Rmult_le_pos; lra). lra. }
        specialize (Mx z Lz Cz). unfold penal in Mx. pose proof (@wnorm_convex x v t Lx Lv ltac:(lra)) as W. fold dv z in W.
        assert (EA : rsub b (A z) = rsub (rsub b (A x)) (rscale t (A dv))).
        { unfold z. rewrite (proj1 (proj2 (proj1 Adj))) by vl. rewrite (proj2 (proj2 (proj1 Adj))) by vl. veq. }
        pose proof (@excess_above d Hd (rsub b (A x)) (rscale t (A dv)) ltac:(vl)) as X. rewrite <- EA in X.
        rewrite rdot_scale_r in X. replace (nrm2 (rscale t (A dv))) with (t * t * nrm2 (A dv)) in X by (unfold nrm2; vdot; ring).
        assert (ED : rdot (T y) dv = / e * rdot (excess d (rsub b (A x))) (A dv)).
        { rewrite rdot_sym, <- (proj2 (proj2 Adj)) by auto. unfold y. rewrite rdot_scale_r, rdot_sym. ring. }
        rewrite ED. set (h := excess d (rsub b (A x))) in *. set (D := nrm2 (A dv)) in *. set (p := rdot h (A dv)) in *.
        assert (X2 : / e * (/ 2 * nrm2 (excess d (rsub b (A z)))) <= / e * (/ 2 * (nrm2 h - 2 * (t * p) + t * t * D))) by (apply Rmult_le_compat_l; lra).
        apply Rmult_le_reg_l with t; [lra|]. rewrite Rmult_0_r.
        replace (t * (wnorm w v - wnorm w x - / e * p + t * (/ e * (/ 2 * D)))) with (t * wnorm w v - t * wnorm w x - / e * (t * p) + / e * (/ 2 * (t * t * D))) by ring. lra. }
      assert (S0 := S (rzero n) zero_cand). assert (W0 : wnorm w (rzero n) = 0).
      { rewrite wnorm_sum by vl. apply rsum_0'. intros i Hi. rewrite rzero_nth, Rabs_R0. ring. }
      rewrite W0, rdot_zero_r in S0.
      assert (S2 : 0 <= wnorm w x - rdot (T y) x).
      { assert (C2 : cand (rscale 2 x)). { split; [vl|]. intros Nn i Hi. rewrite rscale_nth by vl. pose proof (proj2 Cx Nn i Hi). lra. }
        specialize (S _ C2). assert (W2 : wnorm w (rscale 2 x) = 2 * wnorm w x).
        { rewrite !wnorm_sum by vl. rewrite <- rsum_mul_l. apply rsum_ext. intros i Hi. rewrite rscale_nth by vl. rewrite Rabs_mult, (Rabs_right 2) by lra. ring. }
        rewrite W2, rdot_scale_r in S. lra. }
      assert (SE : rdot x (T y) = wnorm w x) by (rewrite rdot_sym; lra).
      assert (CT : C (T y)).
      { split; auto. intros i Hi. set (ei := coordinate n i). assert (Le : length ei = n) by apply coord_len.
        assert (En : forall j, (j < n)%nat -> ei@j = if Nat.eqb j i then 1 else 0) by (intros j Hj; unfold ei, coordinate; now rewrite nth_tab).
        assert (We : forall c, wnorm w (rscale c ei) = w@i * Rabs c).
        { intros c. rewrite wnorm_sum by vl. rewrite (@rsum_single n i _ Hi).
          - rewrite rscale_nth, En, Nat.eqb_refl by vl. now rewrite Rmult_1_r.
          - intros j Hj Nj. rewrite rscale_nth, En by vl. destruct (Nat.eqb_spec j i); [congruence|]. rewrite Rmult_0_r, Rabs_R0. ring. }
        assert (De : rdot (T y) ei = (T y)@i) by (rewrite rdot_sym; now apply coord_dot).
        assert (C1 : cand (rscale 1 ei)). { split; [vl|]. intros _ j Hj. rewrite rscale_nth, En by vl. destruct (Nat.eqb j i); lra. }
        pose proof (S _ C1) as S1. rewrite We, rdot_scale_r, De, Rabs_R1 in S1. destruct nonneg eqn:En'; [lra|].
        assert (C3 : candidate n false (rscale (-1) ei)) by (split; [vl|discriminate]). rewrite <- En' in C3. rewrite En' in C3.
        pose proof (S _ C3) as S3. rewrite We, rdot_scale_r, De, (Rabs_left (-1)) in S3 by lra. apply Rabs_le. lra. }
      split; auto. split; auto. intros v Cv. rewrite SE. now apply (@pairing_le n nonneg w).
    Qed.
  End Penalty.
  (** the least squares penalty *)
  Lemma excess_0 r : length r = m -> excess 0 r = r.
  Proof.
    intros Lr. unfold excess. destruct (Rle_dec _ _) as [H|H].
    - pose proof (nrm_pos r). assert (Z : nrm r = 0) by lra. apply nrm_eq0 in Z. now rewrite Z at 2.
    - unfold Rdiv. rewrite Rmult_0_l. veq.
  Qed.
  Lemma l1l2_kkt rho : 0 < rho -> exists x y, yall_kkt n m A T b w nonneg (L1L2 rho) x y.
  Proof.
    intros Hr. destruct (@penal_attains 0 rho (Rle_refl 0) Hr) as [x Mx]. destruct (@penal_kkt 0 rho (Rle_refl 0) Hr x Mx) as (Ly & Cy & Ny).
    pose proof Mx as (Lx & _). assert (L1 := LA Lx). exists x, (rscale (/ rho) (excess 0 (rsub b (A x)))). split; auto. split; auto. split; auto. split; auto.
    rewrite excess_0 by vl. apply vec_eq; [vl|]. intros i Hi. rewrite rsub_nth, !rscale_nth, rsub_nth by vl. field. lra.
  Qed.
End Exist.
(** constrained problems: let the penalty grow *)
Section Limit.
  Variables (n m : nat) (A T : vec -> vec) (b w : vec) (d : R).
  Hypothesis Adj : adjoint_ops n m A T.
  Hypothesis Lb : length b = m.
  Hypothesis Lw : length w = n.
  Hypothesis Pw : forall i, (i < n)%nat -> 0 < w@i.
  Hypothesis O : orthonormal_rows m A T.
  Hypothesis Hd : 0 <= d.
  Let LA x : length x = n -> length (A x) = m. Proof. apply Adj. Qed.
  Let LT y : length y = m -> length (T y) = n. Proof. apply Adj. Qed.
  Notation C := (in_dual_set n false w).
  Lemma rows_contract v : length v = n -> nrm (A v) <= nrm v.
  Proof.
    intros Lv. assert (L1 := LA Lv). assert (L2 := LT L1).
    assert (E1 : rdot (T (A v)) (T (A v)) = rdot (A v) (A v)).
    { rewrite <- (proj2 (proj2 Adj) (T (A v)) (A v)) by auto. now rewrite O. }
    assert (E2 : nrm (T (A v)) = nrm (A v)) by (unfold nrm; now rewrite E1).
    pose proof (cauchy_le v (T (A v))) as Q. rewrite <- (proj2 (proj2 Adj)) in Q by auto. rewrite E2, <- nrm_sq in Q.
    pose proof (nrm_pos (A v)). pose proof (nrm_pos v). destruct (Req_dec (nrm (A v)) 0) as [Z|Z]; [lra|].
    apply Rmult_le_reg_r with (nrm (A v)); lra.
  Qed.
  Lemma box_bounded y : length y = m -> C (T y) -> nrm y <= nrm1 w.
  Proof.
    intros Ly [LTy H]. rewrite <- (O Ly) at 1. eapply Rle_trans; [now apply rows_contract|]. eapply Rle_trans; [apply nrm_le_nrm1|].
    rewrite !(@nrm1_sum n) by auto. apply rsum_le. intros i Hi. eapply Rle_trans; [apply (H i Hi)|apply Rle_abs].
  Qed.
  Theorem limit_kkt : exists x y, length x = n /\ length y = m /\ C (T y) /\ (forall v, C v -> rdot x v <= rdot x (T y)) /\
    nrm (rsub b (A x)) <= d /\ rdot (rsub b (A x)) y = d * nrm y.
  Proof.
    pose (e := fun k : nat => / (INR k + 1)).
    assert (Pe : forall k, 0 < e k) by (intros k; unfold e; apply Rinv_0_lt_compat; pose proof (pos_INR k); lra).
    destruct (@wnorm_coercive n m b w Lb Lw Pw) as (c & Pc & Hc).
    assert (X : forall k, exists xy : vec * vec, length (fst xy) = n /\ length (snd xy) = m /\ C (T (snd xy)) /\ (forall v, C v -> rdot (fst xy) v <= rdot (fst xy) (T (snd xy))) /\
      nrm (fst xy) <= wnorm w (T b) / c /\ rscale (e k) (snd xy) = excess d (rsub b (A (fst xy)))).
    { intros k. destruct (@penal_attains n m A T b w false Adj Lb Lw Pw d (e k) Hd (Pe k)) as [x Mx]. destruct (@penal_kkt n m A T b w false Adj Lb Lw Pw d (e k) Hd (Pe k) x Mx) as (Ly & Cy & Ny).
      pose proof Mx as (Lx & _ & Hx). assert (L1 := LA Lx). exists (x, rscale (/ e k) (excess d (rsub b (A x)))). cbn [fst snd]. repeat (split; [assumption|]). split.
      - assert (LTb := LT Lb). specialize (Hx (T b) LTb). pose proof (@penal_pos A b w d (e k) (Pe k) x) as P1. specialize (Hc x Lx).
        assert (Pb : penal A b w d (e k) (T b) = wnorm w (T b)).
        { unfold penal. rewrite O by auto. replace (rsub b b) with (rzero m) by veq. unfold nrm2. rewrite <- nrm_sq, excess_nrm, nrm_rzero, Rmax_left by lra. ring. }
        rewrite Pb in Hx. assert (C0 : candidate n false (T b)) by (split; [auto|discriminate]). specialize (Hx C0).
        apply Rmult_le_reg_l with c; auto. replace (c * (wnorm w (T b) / c)) with (wnorm w (T b)) by (field; lra). lra.
      - assert (Lh : length (excess d (rsub b (A x))) = m) by (rewrite excess_len; vl). specialize (Pe k). apply vec_eq; [vl|]. intros i Hi. rewrite !rscale_nth by vl. field. lra. }
    pose (xy := fun k => proj1_sig (constructive_indefinite_description _ (X k))).
    assert (XY : forall k, length (fst (xy k)) = n /\ length (snd (xy k)) = m /\ C (T (snd (xy k))) /\ (forall v, C v -> rdot (fst (xy k)) v <= rdot (fst (xy k)) (T (snd (xy k)))) /\
      nrm (fst (xy k)) <= wnorm w (T b) / c /\ rscale (e k) (snd (xy k)) = excess d (rsub b (A (fst (xy k))))).
    { intros k. unfold xy. apply (proj2_sig (constructive_indefinite_description _ (X k))). }
    pose proof Adj as (LA' & LT' & Ad). assert (AdjT : adjoint_ops m n T A).
    { split; [exact LT'|]. split; [exact LA'|]. intros x y L1 L2. rewrite rdot_sym. rewrite <- (Ad y x) by auto. apply rdot_sym. }
    destruct (@bw n (fun k => fst (xy k)) (wnorm w (T b) / c)) as (f1 & xl & M1 & C1); [intros k; apply XY|intros k; apply XY|].
    destruct (@bw m (fun k => snd (xy (f1 k))) (nrm1 w)) as (f2 & yl & M2 & C2); [intros k; apply XY|intros k; apply box_bounded; apply XY|].
    pose (f := fun k => f1 (f2 k)).
    assert (Mf : forall k, (f k < f (S k))%nat) by (intros k; unfold f; apply phi_mono; auto).
    assert (X1 : cvg n (fun k => fst (xy (f k))) xl) by (apply cvg_of; [intros k; apply XY|]; apply (converges_subseq M2 C1)).
    assert (Y1 : cvg m (fun k => snd (xy (f k))) yl) by (apply cvg_of; [intros k; apply XY|exact C2]).
    assert (T1 : cvg n (fun k => T (snd (xy (f k)))) (T yl)) by apply (cvg_op AdjT Y1).
    assert (R1 : cvg m (fun k => rsub b (A (fst (xy (f k))))) (rsub b (A xl))) by (apply cvg_sub; [now apply cvg_const|]; apply (cvg_op Adj X1)).
    assert (E1 : Un_cv (fun k => e (f k)) 0).
    { apply cv_subseq; auto. intros eps He. destruct (archimed_cor1 eps He) as (N & HN & N0). exists N. intros k Hk. unfold R_dist. rewrite Rminus_0_r, Rabs_right by (specialize (Pe k); lra).
      unfold e. assert (/ (INR k + 1) <= / INR N). { apply Rinv_le_contravar; [now apply lt_0_INR|]. apply le_INR in Hk. lra. } lra. }
    exists xl, yl. split; [apply X1|]. split; [apply Y1|]. split; [|split; [|split]].
    - apply (dual_closed T1). intros k. apply XY.
    - intros v Cv. apply (@Rle_cv_lim (fun k => rdot (fst (xy (f k))) v) (fun k => rdot (fst (xy (f k))) (T (snd (xy (f k)))))).
      + intros k. apply XY. auto.
      + apply cvg_dot with n; auto. apply cvg_const. apply Cv.
      + apply cvg_dot with n; auto.
    - apply (@Rle_cv_lim (fun k => nrm (rsub b (A (fst (xy (f k)))))) (fun k => d + e (f k) * nrm (snd (xy (f k))))).
      + intros k. destruct (XY (f k)) as (L1 & L2 & _ & _ & _ & E). assert (L3 := LA L1). specialize (Pe (f k)).
        pose proof (excess_nrm Hd (rsub b (A (fst (xy (f k)))))) as Q. rewrite <- E, nrm_scale, Rabs_right in Q by lra. rewrite Q.
        pose proof (Rmax_r 0 (nrm (rsub b (A (fst (xy (f k))))) - d)). lra.
      + now apply cvg_nrm with m.
      + assert (Q : Un_cv (fun k => d + e (f k) * nrm (snd (xy (f k)))) (d + 0 * nrm yl)).
        { apply CV_plus; [apply cv_const|]. apply CV_mult; auto. now apply cvg_nrm with m. }
        rewrite Rmult_0_l, Rplus_0_r in Q. exact Q.
    - apply (@UL_sequence (fun k => rdot (rsub b (A (fst (xy (f k))))) (snd (xy (f k))))); [now apply cvg_dot with m|].
      apply cv_ext with (fun k => d * nrm (snd (xy (f k))) + e (f k) * (nrm (snd (xy (f k))) * nrm (snd (xy (f k))))).
      + intros k. destruct (XY (f k)) as (L1 & L2 & _ & _ & _ & E). specialize (Pe (f k)).
        pose proof (excess_dot Hd (rsub b (A (fst (xy (f k)))))) as Q. unfold nrm2 in Q. rewrite <- nrm_sq, <- E, rdot_scale_r, nrm_scale, Rabs_right in Q by lra.
        apply Rmult_eq_reg_l with (e (f k)); [|lra]. rewrite Q. ring.
      + pose proof (cvg_nrm Y1) as Q.
        assert (Q2 : Un_cv (fun k => d * nrm (snd (xy (f k))) + e (f k) * (nrm (snd (xy (f k))) * nrm (snd (xy (f k))))) (d * nrm yl + 0 * (nrm yl * nrm yl))).
        { apply CV_plus; apply CV_mult; auto; try apply cv_const. now apply CV_mult. }
        rewrite Rmult_0_l, Rplus_0_r in Q2. exact Q2.
  Qed.
End Limit.
Section KKT.
  Variables (n m : nat) (A T : vec -> vec) (b w : vec) (nonneg : bool) (p : yall_problem).
  Hypothesis Adj : adjoint_ops n m A T.
  Hypothesis Lb : length b = m.
  Hypothesis Lw : length w = n.
  Hypothesis Pw : forall i, (i < n)%nat -> 0 < w@i.
  Hypothesis P : problem_ok p.
  Hypothesis O : orthonormal_rows m A T.
  Lemma kkt_exists : nonneg = false \/ (exists rho, p = L1L2 rho) -> exists x y, yall_kkt n m A T b w nonneg p x y.
  Proof.
    intros H. destruct p as [|rho|delta] eqn:Ep.
    - destruct H as [->|[rho H]]; [|discriminate]. destruct (@limit_kkt n m A T b w 0 Adj Lb Lw Pw O (Rle_refl 0)) as (x & y & L1 & L2 & H1 & H2 & H3 & _).
      exists x, y. repeat (split; [assumption|]). cbn. assert (LAx : length (A x) = m) by now apply Adj. pose proof (nrm_pos (rsub b (A x))).
      symmetry. apply (@nrm_sub0 m); auto.
    - now apply l1l2_kkt.
    - destruct H as [->|[rho H]]; [|discriminate]. destruct (@limit_kkt n m A T b w delta Adj Lb Lw Pw O (Rlt_le _ _ P)) as (x & y & L1 & L2 & H1 & H2 & H3 & H4).
      exists x, y. repeat (split; [assumption|]). first [exact H4|split; auto].
  Qed.
End KKT.
