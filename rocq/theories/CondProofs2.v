(** CG, PCG and LSQR: rates from the condition number. *)
From Coq Require Import List Arith Bool Lia Reals Lra Psatz.
From Verif Require Import Vec RVec RMat Loop LoopLemmas XReal SolverSpec SolverLemmas CGModel CGSpec CGProofs SlsModel LsqrModel LsqrSpec LsqrLemmas EigenSpec EigenProofs ChebProofs CondSpec CondProofs.
Import ListNotations.
Set Implicit Arguments.
Unset Strict Implicit.
Local Open Scope R_scope.

(** *** square roots *)
Section Root.
  Variables (n : nat) (A : vec -> vec) (lam : nat -> R) (v : nat -> vec).
  Hypothesis LA : linear_op n n A.
  Hypothesis SA : symmetric_op n A.
  Hypothesis EB : eigenbasis n A lam v.
  Hypothesis PA : forall i, (i < n)%nat -> 0 <= lam i.
  Definition root := eb_fun n lam v sqrt.
  Lemma root_len x : length (root x) = n. Proof. apply eb_fun_len. Qed.
  Lemma root_linear : linear_op n n root. Proof. apply (eb_fun_linear EB). Qed.
  Lemma root_sym : symmetric_op n root. Proof. apply (eb_fun_symmetric EB). Qed.
  Lemma root_root x : length x = n -> root (root x) = A x.
  Proof.
    intros Lx. apply (coords_eq (proj1 EB)); [apply root_len|now apply LA|]. intros i Hi. unfold root. rewrite !(eb_fun_coord EB), (eb_coord SA EB) by auto.
    rewrite <- Rmult_assoc, sqrt_sqrt by auto. ring.
  Qed.
  Lemma root_com x : length x = n -> root (A x) = A (root x).
  Proof.
    intros Lx. apply (coords_eq (proj1 EB)); [apply root_len|apply LA; apply root_len|]. intros i Hi. unfold root. rewrite (eb_fun_coord EB), (eb_coord SA EB), (eb_coord SA EB), (eb_fun_coord EB) by (auto; apply eb_fun_len). ring.
  Qed.
  Lemma root_nrm2 x : length x = n -> rdot (root x) (root x) = rdot x (A x).
  Proof. intros Lx. rewrite <- root_root by auto. apply root_sym; auto. apply root_len. Qed.
  Lemma root_nrm x : length x = n -> nrm (root x) = energy_norm A x.
  Proof. intros Lx. unfold nrm, energy_norm. now rewrite root_nrm2. Qed.
End Root.

Lemma psd_values n A lam v : psd_op n A -> eigenbasis n A lam v -> forall i, (i < n)%nat -> 0 <= lam i.
Proof. intros P EB i Hi. rewrite (eb_value EB Hi). apply P. now apply EB. Qed.
Lemma energy_gap n A b z x : linear_op n n A -> symmetric_op n A -> length x = n -> length z = n -> A z = b ->
  energy A b x - energy A b z = / 2 * rdot (rsub x z) (A (rsub x z)).
Proof.
  intros LA SA Lx Lz <-. unfold energy. assert (L1 : length (A x) = n) by now apply LA. assert (L2 : length (A z) = n) by now apply LA.
  rewrite (@lin_sub n n A x z LA) by auto. rewrite !rdot_sub_l, !rdot_sub_r by vl. rewrite <- (SA x z) by auto. rewrite (rdot_sym (A x) z), (SA z x), (rdot_sym (A z) z) by auto. lra.
Qed.
Lemma energy_norm_le A x y : rdot x (A x) <= rdot y (A y) -> energy_norm A x <= energy_norm A y.
Proof. intros H. unfold energy_norm. now apply sqrt_le_1_alt. Qed.

Lemma reaches_at (S : Type) (cond : S -> bool) body s0 j (s : S) k : reaches cond body s0 j s -> (k < j)%nat -> exists t, reaches cond body s0 k t /\ cond t = true.
Proof.
  induction 1 as [|j s s' H IH C B]; intros Hk; [lia|]. destruct (Nat.eq_dec k j) as [->|N]; [exists s; auto|]. apply IH. lia.
Qed.
Section CG.
  Variables (n : nat) (A : mat) (b x0 z : vec) (mx : option nat) (rtol mu L : R).
  Hypothesis HA : shape n n A.
  Hypothesis SA : symmetric_op n (mv A).
  Hypothesis HL : 0 < mu <= L.
  Hypothesis Bd : forall x, length x = n -> mu * nrm2 x <= rdot x (mv A x) <= L * nrm2 x.
  Hypothesis Lx : length x0 = n.
  Hypothesis Lz : length z = n.
  Hypothesis Ez : mv A z = b.
  Lemma cg_lin : linear_op n n (mv A). Proof. now apply mv_linear. Qed.
  Lemma cg_psd : psd_op n (mv A).
  Proof. intros x Hx. pose proof (Bd Hx). pose proof (rdot_pos x). unfold nrm2 in *. nra. Qed.
  Lemma cg_rate k s : cg_after A b x0 mx rtol k s ->
    energy_norm (mv A) (rsub (cg_x s) z) <= 2 * cond_rate mu L ^ k * energy_norm (mv A) (rsub x0 z).
  Proof.
    intros H. pose proof cg_lin as LA. assert (Lb : length b = n) by (rewrite <- Ez; now apply LA). destruct (spectral LA SA) as (lam & v & EB).
    pose proof (psd_values cg_psd EB) as PV. set (e0 := rsub x0 z). assert (Le : length e0 = n) by (unfold e0; vl).
    assert (LAx : length (mv A x0) = n) by now apply LA.
    destruct (@rate n n (mv A) (mv A) (rsub b (mv A x0)) e0 mu L 0 (root n lam v) (mv A) lam v LA) with (k := k) as (d & D1 & Ld & D2); auto.
    - intros x Hx. assert (length (mv A x) = n) by now apply LA. veq.
    - unfold e0. rewrite (@lin_sub n n (mv A) x0 z LA) by auto. rewrite Ez. veq.
    - now apply root_linear with (mv A).
    - intros x Hx. now apply root_com.
    - intros i Hi. left. now apply (eb_range EB Bd).
    - rewrite !(root_nrm LA SA EB PV) in D2 by vl. eapply Rle_trans; [|exact D2].
      pose proof (@cg_krylov n A b x0 mx rtol HA Lb Lx SA k s cg_psd H d D1) as O.
      assert (Lk : length (cg_x s) = n). { apply (@cg_every n A b x0 mx rtol HA Lb Lx k s H). }
      pose proof (@energy_gap n (mv A) b z (cg_x s) LA SA Lk Lz Ez) as G1. pose proof (@energy_gap n (mv A) b z (radd x0 d) LA SA ltac:(vl) Lz Ez) as G2.
      replace (radd e0 d) with (rsub (radd x0 d) z) by (unfold e0; veq). apply energy_norm_le. lra.
  Qed.
  Lemma image_bounds e : length e = n -> mu * rdot e (mv A e) <= nrm2 (mv A e) <= L * rdot e (mv A e).
  Proof.
    intros Le. pose proof cg_lin as LA. destruct (spectral LA SA) as (lam & v & EB). assert (LAe : length (mv A e) = n) by now apply LA.
    rewrite (eb_quad LA SA EB Le), (eb_nrm2 EB LAe), <- !rsum_mul_l. split; apply rsum_le; intros i Hi; rewrite (eb_coord SA EB) by auto; pose proof (eb_range EB Bd Hi); set (c := rdot e (v i));
      pose proof (Rle_0_sqr c) as Q; unfold Rsqr in Q; assert (0 <= lam i * (c * c)) by (apply Rmult_le_pos; lra); nra.
  Qed.
  Lemma cg_residual_rate k s : cg_after A b x0 mx rtol k s ->
    nrm (rsub b (mv A (cg_x s))) <= 2 * sqrt (L / mu) * cond_rate mu L ^ k * nrm (rsub b (mv A x0)).
  Proof.
    intros H. pose proof cg_lin as LA. assert (Lb : length b = n) by (rewrite <- Ez; now apply LA). pose proof (cg_rate H) as Q.
    assert (Lk : length (cg_x s) = n). { apply (@cg_every n A b x0 mx rtol HA Lb Lx k s H). }
    assert (E : forall x, length x = n -> nrm (rsub b (mv A x)) = nrm (mv A (rsub x z))).
    { intros x Hx. rewrite (@lin_sub n n (mv A) x z LA) by auto. rewrite Ez. apply nrm_sub_sym. rewrite Lb. symmetry. now apply LA. }
    rewrite !E by auto. assert (B1 : nrm (mv A (rsub (cg_x s) z)) <= sqrt L * energy_norm (mv A) (rsub (cg_x s) z)).
    { unfold energy_norm, nrm. assert (Le : length (rsub (cg_x s) z) = n) by vl. rewrite <- sqrt_mult; [|lra|now apply cg_psd]. apply sqrt_le_1_alt. apply (image_bounds Le). }
    assert (B2 : sqrt mu * energy_norm (mv A) (rsub x0 z) <= nrm (mv A (rsub x0 z))).
    { unfold energy_norm, nrm. assert (Le : length (rsub x0 z) = n) by vl. rewrite <- sqrt_mult; [|lra|now apply cg_psd]. apply sqrt_le_1_alt. apply (image_bounds Le). }
    assert (SM : 0 < sqrt mu) by (apply sqrt_lt_R0; lra). rewrite sqrt_div_alt by lra.
    assert (B3 : energy_norm (mv A) (rsub x0 z) <= nrm (mv A (rsub x0 z)) / sqrt mu).
    { apply Rmult_le_reg_l with (sqrt mu); auto. replace (sqrt mu * (nrm (mv A (rsub x0 z)) / sqrt mu)) with (nrm (mv A (rsub x0 z))) by (field; lra). exact B2. }
    pose proof (sqrt_pos L) as SL. assert (RP : 0 <= 2 * cond_rate mu L ^ k). { apply Rmult_le_pos; [lra|]. apply pow_le. now apply rate_range. }
    eapply Rle_trans; [exact B1|]. eapply Rle_trans; [apply Rmult_le_compat_l; [exact SL|exact Q]|].
    eapply Rle_trans; [apply Rmult_le_compat_l; [exact SL|apply Rmult_le_compat_l; [exact RP|exact B3]]|]. right. field. lra.
  Qed.
  Lemma cg_stops k fuel s : 0 <= rtol -> 2 * sqrt (L / mu) * cond_rate mu L ^ k * nrm (rsub b (mv A x0)) <= rtol * nrm b ->
    cg_solve_from A b x0 mx rtol fuel = Done s -> (cg_it s <= k)%nat.
  Proof.
    intros Hr Hk H. pose proof cg_lin as LA. assert (Lb : length b = n) by (rewrite <- Ez; now apply LA). apply while_done in H as [j [_ [H _]]].
    pose proof (@cg_every n A b x0 mx rtol HA Lb Lx j s H) as (_ & _ & _ & ->). destruct (le_lt_dec j k) as [|G]; auto. exfalso.
    destruct (reaches_at H G) as (t & Ht & C). pose proof (cg_residual_rate Ht) as Q. pose proof (@cg_every n A b x0 mx rtol HA Lb Lx k t Ht) as (_ & _ & E & _).
    unfold cg_cond in C. apply andb_true_iff in C as [C _]. apply Rltb_true in C. rewrite E in C. unfold cg_max_rn2, nrm2 in C. rewrite <- !nrm_sq in C.
    set (p := nrm (rsub b (mv A (cg_x t)))) in *. assert (0 <= p) by apply nrm_pos. pose proof (nrm_pos b). assert (p <= rtol * nrm b) by lra.
    assert (0 <= rtol * nrm b) by (apply Rmult_le_pos; auto). nra.
  Qed.
End CG.

Section PCG.
  Variables (n : nat) (A : vec -> vec) (b x0 z : vec) (mx : nat) (tol atol mu L : R) (M : option (vec -> vec)).
  Hypothesis LA : linear_op n n A.
  Hypothesis SA : symmetric_op n A.
  Hypothesis PA : positive_op n A.
  Hypothesis LM : linear_op n n (pcg_M M).
  Hypothesis SM : symmetric_op n (pcg_M M).
  Hypothesis HL : 0 < mu <= L.
  Hypothesis Bd : forall x, length x = n -> mu * rdot x (A x) <= rdot (A x) (pcg_M M (A x)) <= L * rdot x (A x).
  Hypothesis Lx : length x0 = n.
  Hypothesis Lz : length z = n.
  Hypothesis Ez : A z = b.
  Lemma pcg_rate k s : pcg_after A b x0 mx tol atol M k s ->
    energy_norm A (rsub (pcg_x s) z) <= 2 * cond_rate mu L ^ k * energy_norm A (rsub x0 z).
  Proof.
    intros H. assert (Lb : length b = n) by (rewrite <- Ez; now apply LA). destruct (spectral LA SA) as (lam & v & EB). set (W := pcg_M M) in *.
    pose proof (pos_psd LA PA) as PS. pose proof (psd_values PS EB) as PV. set (e0 := rsub x0 z). assert (Le : length e0 = n) by (unfold e0; vl).
    assert (LAx : length (A x0) = n) by now apply LA. set (sq := root n lam v). assert (Lsq : linear_op n n sq) by now apply root_linear with A.
    assert (Ssq : symmetric_op n sq) by now apply root_sym with A. assert (RR : forall x, length x = n -> sq (sq x) = A x) by (intros; now apply root_root).
    assert (RL : forall x, length (sq x) = n) by (intros; apply root_len).
    set (S := fun y => sq (W (sq y))).
    assert (LS : linear_op n n S).
    { split; [intros; apply RL|]. split; intros; unfold S.
      - rewrite (proj1 (proj2 Lsq)), (proj1 (proj2 LM)), (proj1 (proj2 Lsq)) by (auto; now apply LM). reflexivity.
      - rewrite (proj2 (proj2 Lsq)), (proj2 (proj2 LM)), (proj2 (proj2 Lsq)) by (auto; now apply LM). reflexivity. }
    assert (SS : symmetric_op n S). { intros x y Hx Hy. unfold S. rewrite Ssq by (auto; now apply LM). rewrite SM by auto. rewrite Ssq by (auto; now apply LM). reflexivity. }
    assert (VP : forall i, (i < n)%nat -> 0 < lam i).
    { intros i Hi. rewrite (eb_value EB Hi). apply PA; [now apply EB|]. intros C. destruct EB as ([_ FO] & _). specialize (FO i i Hi Hi). rewrite Nat.eqb_refl, C, rdot_zero_l in FO. lra. }
    assert (Sur : forall y, length y = n -> exists x, length x = n /\ sq x = y).
    { intros y Hy. exists (eb_fun n lam v (fun l => / sqrt l) y). split; [apply eb_fun_len|]. apply (coords_eq (proj1 EB)); auto. intros i Hi. unfold sq, root. rewrite !(eb_fun_coord EB) by auto.
      specialize (VP i Hi). apply sqrt_lt_R0 in VP. field. lra. }
    assert (SB : forall y, length y = n -> mu * nrm2 y <= rdot y (S y) <= L * nrm2 y).
    { intros y Hy. destruct (Sur y Hy) as (x & Hx & <-). unfold S, nrm2. rewrite <- (@Ssq (sq x) (W (sq (sq x)))) by (auto; apply LM; auto). rewrite RR by auto. unfold sq. rewrite (root_nrm2 LA SA EB PV Hx). now apply Bd. }
    destruct (spectral LS SS) as (nu & u & EB2).
    destruct (@rate n n (fun x => W (A x)) (fun x => W (A x)) (W (rsub b (A x0))) e0 mu L 0 sq S nu u) with (k := k) as (d & D1 & Ld & D2); auto.
    - split; [intros; apply LM; now apply LA|]. split; intros.
      + rewrite (proj1 (proj2 LA)), (proj1 (proj2 LM)) by (auto; now apply LA). reflexivity.
      + rewrite (proj2 (proj2 LA)), (proj2 (proj2 LM)) by (auto; now apply LA). reflexivity.
    - intros x Hx. assert (length (W (A x)) = n) by (apply LM; now apply LA). veq.
    - assert (Er : rsub b (A x0) = rscale (-1) (A e0)). { unfold e0. rewrite (@lin_sub n n A x0 z LA) by auto. rewrite Ez. veq. }
      assert (LAe : length (A e0) = n) by now apply LA. rewrite Er, (proj2 (proj2 LM)) by auto. fold W. assert (length (W (A e0)) = n) by now apply LM. veq.
    - intros x Hx. unfold S. now rewrite RR.
    - intros i Hi. left. now apply (eb_range EB2 SB).
    - unfold sq in D2. rewrite !(root_nrm LA SA EB PV) in D2 by vl. eapply Rle_trans; [|exact D2].
      pose proof (@pcg_krylov n A M b x0 mx tol atol LA (proj1 LM) Lb Lx SA SM k s PS H d D1) as O.
      assert (Lk : length (pcg_x s) = n). { apply (@pcg_reach_ok n A W b x0 (pcg_is_id M) (pcg_max_gamma b tol atol) mx LA (proj1 LM) Lb Lx k s H). }
      pose proof (@energy_gap n A b z (pcg_x s) LA SA Lk Lz Ez) as G1. pose proof (@energy_gap n A b z (radd x0 d) LA SA ltac:(vl) Lz Ez) as G2.
      replace (radd e0 d) with (rsub (radd x0 d) z) by (unfold e0; veq). apply energy_norm_le. lra.
  Qed.
End PCG.
