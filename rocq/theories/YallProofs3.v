From Coq Require Import List Arith Bool Lia Reals Lra Psatz.
From Verif Require Import Vec RVec RMat Loop LoopLemmas XReal SolverSpec SolverLemmas OptProofs FomProofs2 SpglProofs YallModel YallSpec YallProofs YallProofs2.
Import ListNotations.
Set Implicit Arguments.
Local Open Scope R_scope.


Section Run.
  Variables (n m : nat) (A T : vec -> vec) (b w : vec) (nonneg : bool) (gamma tolerance : R) (max_iters : nat) (p : yall_problem).
  Hypothesis Adj : adjoint_ops n m A T.
  Hypothesis Lb : length b = m.
  Hypothesis Lw : length w = n.
  Hypothesis Hw : forall i, (i < n)%nat -> 0 <= w@i.
  Hypothesis P : problem_ok p.
  Notation C := (in_dual_set n nonneg w).
  Notation mu := (ya_mu b).
  Notation iter := (ya_iteration A T b w nonneg gamma p).
  Notation kkt := (yall_kkt n m A T b w nonneg p).
  Notation value := (yall_value A b w p).
  Notation cond := (ya_cond b tolerance max_iters p).
  Notation double := (ya_double A T b w nonneg gamma p).

  Lemma iterate_len k s s' : length (ya_x s) = n -> length (ya_z s) = n -> ya_iterate iter k s = Some s' -> length (ya_x s') = n /\ length (ya_z s') = n.
  Proof.
    intros Lx Lz. revert s'. induction k as [|k IH]; cbn; intros s'; [intros [= <-]; auto|].
    destruct (ya_iterate iter k s) as [t|]; [|discriminate]. destruct (IH t eq_refl) as [L1 L2]. intros E.
    destruct (@iter_inv n m A T b w nonneg gamma p Adj Lb Lw P t s' L1 L2 E) as (q & y & H). tauto.
  Qed.
  Lemma iterate_normal k s s' : 0 < mu -> gamma = 1 -> length (ya_x s) = n -> length (ya_z s) = n ->
    ya_iterate iter (S k) s = Some s' -> normal n w nonneg s' /\ length (ya_x s') = n.
  Proof.
    intros Hm G Lx Lz E. cbn in E. destruct (ya_iterate iter k s) as [t|] eqn:Et; [|discriminate]. destruct (iterate_len k s Lx Lz Et) as [L1 L2]. split.
    - eapply iter_normal; eauto.
    - destruct (@iter_inv n m A T b w nonneg gamma p Adj Lb Lw P t s' L1 L2 E) as (q & y & H). tauto.
  Qed.
  Lemma dist2_pos x z xs zs : 0 <= dist2 b x z xs zs.
  Proof. unfold dist2. pose proof (nrm2_pos (rsub x xs)). pose proof (nrm2_pos (rsub z zs)). pose proof (Rle_0_sqr mu) as Q. unfold Rsqr in Q. pose proof (Rmult_le_pos _ _ Q H0). lra. Qed.
  Lemma dist2_step_pos x x' z z' : 0 <= nrm2 (rsub x' x) + mu * mu * nrm2 (rsub z' z).
  Proof. apply (dist2_pos x' z' x z). Qed.
  (** squared steps sum to at most the initial squared distance *)
  Lemma steps_sum s s1 xs ys k sk : orthonormal_rows m A T -> gamma = 1 -> 0 < mu -> length (ya_x s) = n -> length (ya_z s) = n ->
    kkt xs ys -> ya_iterate iter 1 s = Some s1 -> ya_iterate iter (S k) s = Some sk -> forall d,
    (forall j t t', (1 <= j <= k)%nat -> ya_iterate iter j s = Some t -> ya_iterate iter (S j) s = Some t' ->
       d <= nrm2 (rsub (ya_x t') (ya_x t)) + mu * mu * nrm2 (rsub (ya_z t') (ya_z t))) ->
    INR k * d + dist2 b (ya_x sk) (ya_z sk) xs (T ys) <= dist2 b (ya_x s1) (ya_z s1) xs (T ys).
  Proof.
    intros O G Hm Lx Lz K E1 Ek d Hd. revert sk Ek Hd. induction k as [|k IH]; intros sk Ek Hd.
    - rewrite Ek in E1. injection E1 as <-. cbn. lra.
    - change (match ya_iterate iter (S k) s with None => None | Some s => iter s end = Some sk) in Ek.
      destruct (ya_iterate iter (S k) s) as [t|] eqn:Et; [|discriminate]. specialize (IH t eq_refl).
      destruct (iterate_normal k s Hm G Lx Lz Et) as [N Lt].
      pose proof (fejer Adj Lb Lw Hw P O G Hm Lt N K Ek) as F.
      assert (D : d <= nrm2 (rsub (ya_x sk) (ya_x t)) + mu * mu * nrm2 (rsub (ya_z sk) (ya_z t))).
      { apply (Hd (S k) t sk); [lia|auto|]. change (match ya_iterate iter (S k) s with None => None | Some s => iter s end = Some sk). now rewrite Et. }
      rewrite S_INR. assert (IH' := IH ltac:(intros j t0 t' Hj; apply Hd; lia)). lra.
  Qed.
  Lemma rate s s1 xs ys k sk : orthonormal_rows m A T -> gamma = 1 -> 0 < mu -> length (ya_x s) = n -> length (ya_z s) = n ->
    kkt xs ys -> ya_iterate iter 1 s = Some s1 -> (0 < k)%nat -> ya_iterate iter (S k) s = Some sk ->
    exists j t t', (1 <= j <= k)%nat /\ ya_iterate iter j s = Some t /\ ya_iterate iter (S j) s = Some t' /\
      INR k * (nrm2 (rsub (ya_x t') (ya_x t)) + mu * mu * nrm2 (rsub (ya_z t') (ya_z t))) <= dist2 b (ya_x s1) (ya_z s1) xs (T ys).
  Proof.
    intros O G Hm Lx Lz K E1 Hk Ek. set (D := dist2 b (ya_x s1) (ya_z s1) xs (T ys)).
    destruct (Classical_Prop.classic (exists j t t', (1 <= j <= k)%nat /\ ya_iterate iter j s = Some t /\ ya_iterate iter (S j) s = Some t' /\
      INR k * (nrm2 (rsub (ya_x t') (ya_x t)) + mu * mu * nrm2 (rsub (ya_z t') (ya_z t))) <= D)) as [Y|N]; auto. exfalso.
    assert (Pk : 0 < INR k) by now apply lt_0_INR.
    assert (F : forall j t t', (1 <= j <= k)%nat -> ya_iterate iter j s = Some t -> ya_iterate iter (S j) s = Some t' ->
      D / INR k < nrm2 (rsub (ya_x t') (ya_x t)) + mu * mu * nrm2 (rsub (ya_z t') (ya_z t))).
    { intros j t t' Hj Et Et'. apply Rnot_le_lt. intros L. apply N. exists j, t, t'. repeat (split; [solve [auto | lia]|]).
      replace D with (INR k * (D / INR k)) by (field; lra). apply Rmult_le_compat_l; lra. }
    (* the last step strictly exceeds the average *)
    destruct k as [|k]; [lia|]. change (match ya_iterate iter (S k) s with None => None | Some s => iter s end = Some sk) in Ek.
    destruct (ya_iterate iter (S k) s) as [t|] eqn:Et; [|discriminate].
    pose proof (@steps_sum s s1 xs ys k t O G Hm Lx Lz K E1 Et (D / INR (S k))
      ltac:(intros j u u' Hj Eu Eu'; left; apply (F j u u'); [lia|auto|auto])) as Q.
    destruct (iterate_normal k s Hm G Lx Lz Et) as [Nt Lt].
    pose proof (fejer Adj Lb Lw Hw P O G Hm Lt Nt K Ek) as Fj.
    assert (L : D / INR (S k) < nrm2 (rsub (ya_x sk) (ya_x t)) + mu * mu * nrm2 (rsub (ya_z sk) (ya_z t))).
    { apply (F (S k) t sk); [lia|auto|]. change (match ya_iterate iter (S k) s with None => None | Some s => iter s end = Some sk). now rewrite Et. }
    pose proof (dist2_pos (ya_x sk) (ya_z sk) xs (T ys)). fold D in Q. rewrite S_INR in *.
    pose proof (pos_INR k). assert (D = INR k * (D / (INR k + 1)) + D / (INR k + 1)) by (field; lra). lra.
  Qed.

  (** *** the loop *)
  Definition ya_inv (k : nat) (s : yall_state) : Prop :=
    length (ya_x s) = n /\ length (ya_z s) = n /\ ya_rp s = rsub b (A (ya_x s)) /\ ya_primal s = value (ya_x s) /\
    ya_iterations s = (2 * k)%nat /\ ya_n_times s = (1 + 4 * k)%nat /\ ya_n_trans s = (1 + 2 * k)%nat /\
    ((0 < k)%nat -> C (ya_z s) /\ exists y, length y = m /\ ya_rd s = rsub (ya_z s) (T y) /\ ya_dual s = ya_dual_objective b p y) /\
    ((0 < k)%nat -> gamma = 1 -> normal n w nonneg s).
  Lemma primal_value x : ya_primal_objective w p x (rsub b (A x)) = value x.
  Proof. unfold ya_primal_objective, yall_value, wnorm. destruct p as [|rho|delta]; auto. unfold nrm2. cbn in P. f_equal. field. lra. Qed.
  Lemma double_inv k s s' : ya_inv k s -> double s = Some s' -> ya_inv (S k) s'.
  Proof.
    intros (Lx & Lz & _ & _ & Ei & Et & Er & _ & _) E. unfold ya_double in E. destruct (iter s) as [t|] eqn:E1; [|discriminate].
    destruct (@iter_inv n m A T b w nonneg gamma p Adj Lb Lw P s t Lx Lz E1) as (q & y & _ & _ & _ & _ & _ & _ & _ & _ & _ & _ & _ & _ & Ei1 & Et1 & Er1 & Lx1 & Lz1).
    destruct (@iter_inv n m A T b w nonneg gamma p Adj Lb Lw P t s' Lx1 Lz1 E) as (q' & y' & _ & _ & Nm & _ & Ly' & _ & Erd & _ & _ & Erp & Epr & Ed & Ei2 & Et2 & Er2 & Lx2 & Lz2).
    split; [auto|]. split; [auto|]. split; [auto|]. split; [rewrite Epr, Erp; apply primal_value|].
    split; [lia|]. split; [lia|]. split; [lia|]. split.
    - intros _. split; [exact (@iter_C n m A T b w nonneg gamma p Adj Lb Lw Hw P t s' Lx1 Lz1 E)|]. exists y'. auto.
    - intros _ G. refine (@iter_normal n m A T b w nonneg gamma p Adj Lb Lw Hw P G t s' _ Lx1 Lz1 E). assert (Hmu : 0 <= mu) by (unfold ya_mu; apply Rmult_le_pos; [apply nrm1_pos|]; destruct (Nat.eq_dec (length b) 0) as [Z|Z]; [rewrite Z; change (INR 0) with 0; rewrite Rinv_0; lra|left; apply Rinv_0_lt_compat, lt_0_INR; lia]). lra.
  Qed.
  Lemma reach_inv x0 z0 k s : length x0 = n -> length z0 = n -> reaches cond double (ya_init A T b w p x0 z0) k s -> ya_inv k s.
  Proof.
    intros Lx Lz H. remember (ya_init A T b w p x0 z0) as s0 eqn:E0. revert E0. induction H as [|k s s' _ IH _ E]; intros E0.
    - subst. unfold ya_inv, ya_init. cbn [ya_x ya_z ya_rd ya_rp ya_primal ya_dual ya_iterations ya_n_times ya_n_trans ya_x_prev].
      rewrite primal_value. repeat (split; [solve [auto | lia]|]). intros; lia.
    - eapply double_inv; eauto.
  Qed.
  Lemma cond_more s : cond s = true -> (ya_iterations s < max_iters)%nat.
  Proof. unfold ya_cond. destruct p; rewrite ?andb_true_iff, ?Nat.ltb_lt; tauto. Qed.
  Lemma run_total x0 z0 fuel : length x0 = n -> length z0 = n -> (forall i, (i < n)%nat -> 0 < w@i) -> b <> rzero m -> (max_iters <= fuel)%nat ->
    exists s, ya_run A T b w nonneg gamma tolerance max_iters p x0 z0 fuel = Done s.
  Proof.
    intros Lx Lz Pw N Hf. apply while_total.
    - intros k s H Hc E. pose proof (@reach_inv x0 z0 k s Lx Lz H) as (L1 & L2 & _). unfold ya_double in E.
      destruct (iter_defined w nonneg gamma p Adj Lb Lw P s Pw N L1 L2) as [t Et]. rewrite Et in E. destruct (@iter_inv n m A T b w nonneg gamma p Adj Lb Lw P s t L1 L2 Et) as (q & y & H'). decompose [and] H'.
      destruct (iter_defined w nonneg gamma p Adj Lb Lw P t Pw N ltac:(auto) ltac:(auto)) as [u Eu]. congruence.
    - intros k s H Hc. pose proof (@reach_inv x0 z0 k s Lx Lz H) as (_ & _ & _ & _ & Ei & _). apply cond_more in Hc. lia.
  Qed.
  Lemma run_done x0 z0 fuel s : length x0 = n -> length z0 = n ->
    ya_run A T b w nonneg gamma tolerance max_iters p x0 z0 fuel = Done s ->
    exists k, ya_inv k s /\ cond s = false /\ (2 * k <= max_iters + 1)%nat.
  Proof.
    intros Lx Lz E. apply while_done in E as [k [_ [H Hc]]]. exists k. split; [apply (@reach_inv x0 z0 k s); auto|]. split; auto.
    destruct k as [|k]; [lia|]. apply reaches_S_inv in H as [t [Ht [Hct _]]]. apply cond_more in Hct. pose proof (@reach_inv x0 z0 k t Lx Lz Ht) as (_ & _ & _ & _ & Ei & _). lia.
  Qed.

  (** *** the certificate at the tests *)
  Lemma xdiv_le a d c : 0 <= a -> 0 <= d -> xgtb (xdiv a d) c = false -> a <= c * d.
  Proof.
    intros Ha Hd. unfold xdiv. destruct (Reqb_spec d 0) as [E|E].
    - subst d. destruct (Reqb_spec a 0); [intros; lra|]. destruct (Rltb_spec 0 a); cbn; [discriminate|]. lra.
    - cbn. destruct (Rltb_spec c (a / d)) as [L|L]; [discriminate|]. intros _. apply Rnot_lt_le in L. apply Rmult_le_compat_r with (r := d) in L; [|lra].
      unfold Rdiv in L. rewrite Rmult_assoc, Rinv_l in L; lra.
  Qed.
  Lemma value_pos x : 0 <= value x.
  Proof.
    unfold yall_value. pose proof (nrm1_pos (rmul w x)). destruct p as [|rho|delta]; cbn in P; unfold wnorm; auto.
    assert (0 <= / (2 * rho) * nrm2 (rsub b (A x))) by (apply Rmult_le_pos; [left; apply Rinv_0_lt_compat; lra|apply nrm2_pos]). lra.
  Qed.
  Lemma weak_duality z y v : C z -> length y = m -> candidate n nonneg v -> yall_feasible A b p v ->
    ya_dual_objective b p y <= value v + nrm v * nrm (rsub z (T y)).
  Proof.
    intros Cz Ly Cv Fv. pose proof Cz as [Lz _]. pose proof Cv as [Lv _]. assert (LTy := LT Adj y Ly). assert (LAv := LA Adj v Lv).
    pose proof (@pairing_le n nonneg w Lw Hw v z Cv Cz) as Q.
    assert (E : rdot (A v) y = rdot v z - rdot v (rsub z (T y))) by (rewrite (AT Adj) by auto; rewrite rdot_sub_r by vl; ring).
    pose proof (cauchy_le (ropp v) (rsub z (T y))) as K. rewrite nrm_opp, rdot_opp_l in K.
    unfold yall_value, ya_dual_objective. destruct p as [|rho|delta]; cbn in P, Fv.
    - rewrite <- Fv. lra.
    - set (r := rsub b (A v)). assert (Lr : length r = m) by (unfold r; vl). assert (Eb : b = radd (A v) r) by (unfold r; veq).
      rewrite Eb, rdot_add_l by vl.
      assert (S : 0 <= / (2 * rho) * nrm2 (rsub r (rscale rho y))) by (apply Rmult_le_pos; [left; apply Rinv_0_lt_compat; lra|apply nrm2_pos]).
      replace (/ (2 * rho) * nrm2 (rsub r (rscale rho y))) with (/ (2 * rho) * nrm2 r - rdot r y + 5 / 10 * rho * rdot y y) in S; [lra|].
      unfold nrm2. rewrite rdot_sub_l, !rdot_sub_r, !rdot_scale_l, !rdot_scale_r by vl. rewrite (rdot_sym y r). field. lra.
    - set (r := rsub b (A v)) in *. assert (Lr : length r = m) by (unfold r; vl). assert (Eb : b = radd (A v) r) by (unfold r; veq).
      rewrite Eb, rdot_add_l by vl. pose proof (cauchy_le r y). pose proof (nrm_pos y). pose proof (Rmult_le_compat_r _ _ _ H0 Fv). lra.
  Qed.
  Lemma stop_tests s : cond s = false -> (ya_iterations s < max_iters)%nat -> xgtb (x_change s) tolerance = true -> 0 <= tolerance -> 
    xgtb (relative_gap s) tolerance = false /\ xgtb (rel_rd s) tolerance = false /\
    match p with BP => nrm (ya_rp s) < tolerance * nrm b | L1L2 _ => True | L1L2con delta => nrm (ya_rp s) <= delta * (1 + tolerance) end.
  Proof.
    intros Hc Hi Hx Ht. assert (Hx' : xgtb (x_change s) (tolerance * (1 - 1 / 10)) = true).
    { destruct (x_change s); cbn in *; auto. destruct (Rltb_spec tolerance r); [|discriminate]. apply Rltb_true. lra. }
    apply Nat.ltb_lt in Hi. unfold ya_cond in Hc. rewrite Hi in Hc. destruct p as [|rho|delta].
    - rewrite Hx', !andb_true_r in Hc. apply orb_false_iff in Hc as [Hc H3]. apply orb_false_iff in Hc as [H1 H2]. repeat split; auto.
      destruct (Rleb_spec (tolerance * nrm b) (nrm (ya_rp s))); [discriminate|lra].
    - rewrite Hx' in Hc. cbn [andb] in Hc. apply orb_false_iff in Hc as [H1 H2]. auto.
    - rewrite Hx, !andb_true_r in Hc. apply orb_false_iff in Hc as [Hc H3]. apply orb_false_iff in Hc as [H1 H2]. repeat split; auto.
      destruct (Rltb_spec (delta * (1 + tolerance)) (nrm (ya_rp s))); [discriminate|lra].
  Qed.
  Lemma certificate x0 z0 fuel s : length x0 = n -> length z0 = n -> 0 <= tolerance ->
    ya_run A T b w nonneg gamma tolerance max_iters p x0 z0 fuel = Done s ->
    (0 < ya_iterations s < max_iters)%nat -> xgtb (x_change s) tolerance = true ->
    match p with BP => nrm (rsub b (A (ya_x s))) < tolerance * nrm b | L1L2 _ => True | L1L2con delta => nrm (rsub b (A (ya_x s))) <= delta * (1 + tolerance) end /\
    forall v, candidate n nonneg v -> yall_feasible A b p v ->
      (1 - tolerance) * value (ya_x s) <= value v + tolerance * nrm (ya_z s) * nrm v.
  Proof.
    intros Lx Lz Ht E Hi Hx. destruct (run_done x0 z0 fuel Lx Lz E) as (k & I_ & Hc & _). destruct I_ as (_ & _ & Erp & Ep & Ei & _ & _ & HC & _).
    destruct (stop_tests s Hc ltac:(lia) Hx Ht) as (Hg & Hr & Hp). split; [rewrite <- Erp; auto|].
    destruct (HC ltac:(lia)) as (Cz & y & Ly & Erd & Ed). intros v Cv Fv. pose proof (@weak_duality (ya_z s) y v Cz Ly Cv Fv) as W. rewrite <- Erd, <- Ed in W.
    apply xdiv_le in Hg; [|apply Rabs_pos|rewrite Ep; apply value_pos]. apply xdiv_le in Hr; [|apply nrm_pos|apply nrm_pos].
    rewrite Ep in Hg. pose proof (Rle_abs (- (ya_dual s - value (ya_x s)))) as Q. rewrite Rabs_Ropp in Q. pose proof (nrm_pos v).
    pose proof (Rmult_le_compat_l _ _ _ H Hr). lra.
  Qed.
End Run.
