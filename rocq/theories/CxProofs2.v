(** The complex setting as an instance of the real one; complex soft thresholding. *)
From Coq Require Import List Arith Bool Lia Reals Lra Psatz.
From Verif Require Import Scalar Vec RVec RMat Loop LoopLemmas XReal SolverSpec SolverLemmas LopModel LopSpec LopProofs2 OptSpec OptModel OptProofs OptProofs2 OptProofs3 OptProofs5 SlsModel SlsSpec SlsProofs SlsLemmas SeqSpec SeqProofs L1RecProofs SpglProofs SpglProofs4 ConvProofs ConvProofs2 CxSpec CxModel CxSpec2 CxProofs.
Import ListNotations.
Set Implicit Arguments.
Unset Strict Implicit.
Local Open Scope R_scope.

Lemma lift_setting n m A B b x0 f step L thr : cprox_gradient_setting n m A B b x0 f step L thr ->
  prox_gradient_setting (2 * n) (2 * m) (lift_op A) (lift_op B) (flat b) (flat x0) (lift_f f) step L (lift_thr thr).
Proof.
  intros (HA & HB & Lb & Lx & Hs & HsL & HL & Cf & Ht). split; [now apply lift_adjoint|]. split; [now apply lift_basis|].
  split; [rewrite flat_len; lia|]. split; [rewrite flat_len; lia|]. split; auto. split; auto. split; [now apply lift_bound|]. split.
  - intros v w s Lv Lw S01. rewrite <- (flat_unflat Lv), <- (flat_unflat Lw), <- !flat_scale, <- flat_add. unfold lift_f. rewrite !unflat_flat.
    apply Cf; auto; now apply unflat_len.
  - intros i a La. rewrite <- (flat_unflat La). unfold lift_thr. rewrite lift_flat. destruct (Ht i (unflat a) (unflat_len La)) as [Lp Q].
    split; [rewrite flat_len; lia|]. split; [exact I|]. intros z Lz _. rewrite <- (flat_unflat Lz). unfold prox_obj, lift_f.
    rewrite !unflat_flat, <- !flat_sub, !flat_nrm2. destruct (Q (unflat z) (unflat_len Lz)) as [Q1 Q2]. split; auto. intros H. f_equal. auto.
Qed.
Lemma cabs_triang a b : cabs (fst a + fst b, snd a + snd b) <= cabs a + cabs b.
Proof.
  pose proof (cabs_pos a). pose proof (cabs_pos b). apply sq_le; [lra|]. rewrite cabs_sq. cbn [fst snd].
  pose proof (cabs_cauchy a b). pose proof (cabs_sq a). pose proof (cabs_sq b). lra.
Qed.
Lemma cl1_add x : forall y, cl1 (vadd x y) <= cl1 x + cl1 y.
Proof.
  unfold cl1. induction x as [|a x IH]; intros [|b y]; unfold vadd; cbn [zipw map rlsum].
  - lra.
  - pose proof (sqrt_pos (Cnsq b)). assert (0 <= rlsum (map (fun z => sqrt (Cnsq z)) y)); [|lra]. clear. induction y as [|c y IH]; cbn [map rlsum]; [lra|]. pose proof (sqrt_pos (Cnsq c)). lra.
  - pose proof (sqrt_pos (Cnsq a)). assert (0 <= rlsum (map (fun z => sqrt (Cnsq z)) x)); [|lra]. clear. induction x as [|c x IH]; cbn [map rlsum]; [lra|]. pose proof (sqrt_pos (Cnsq c)). lra.
  - pose proof (IH y) as I. unfold vadd in I. pose proof (@cabs_triang a b) as T. unfold cabs in T. unfold Cnsq in *. cbn [sadd Cs Cadd fst snd] in *. lra.
Qed.
Lemma cl1_scale c x : 0 <= c -> cl1 (vscale (ofR c : Cs) x) = c * cl1 x.
Proof.
  intros Hc. unfold cl1, vscale. induction x as [|a x IH]; cbn [map rlsum]; [ring|]. rewrite IH, Rmult_plus_distr_l. f_equal.
  pose proof (@cabs_scale c a Hc) as E. unfold cabs in E. change (c * sqrt (Cnsq a)) with (c * sqrt (fst a * fst a + snd a * snd a)). rewrite <- E. f_equal. unfold Cnsq. simpl. ring.
Qed.
Lemma cl1_pos x : 0 <= cl1 x.
Proof. unfold cl1. induction x as [|c x IH]; cbn [map rlsum]; [lra|]. pose proof (sqrt_pos (Cnsq c)). lra. Qed.
Lemma cl1_convex n : cconvex n cl1.
Proof. intros x y s _ _ Hs. eapply Rle_trans; [apply cl1_add|]. rewrite !cl1_scale by lra. lra. Qed.
Lemma cnorm_le_cl1 x : cnorm x <= cl1 x.
Proof.
  pose proof (nrm_le_nrm1 (map (fun z : Cs => sqrt (Cnsq z)) x)) as H.
  assert (E1 : nrm (map (fun z : Cs => sqrt (Cnsq z)) x) = cnorm x).
  { unfold nrm, cnorm. f_equal. unfold cnsq. clear. induction x as [|a x IH]; cbn [map rlsum rdot]; [reflexivity|]. rewrite IH, sqrt_sqrt; auto. unfold Cnsq. nra. }
  assert (E2 : nrm1 (map (fun z : Cs => sqrt (Cnsq z)) x) = cl1 x).
  { unfold cl1. clear. induction x as [|a x IH]; cbn [map rlsum nrm1]; [reflexivity|]. rewrite IH, Rabs_right; auto. apply Rle_ge, sqrt_pos. }
  now rewrite E1, E2 in H.
Qed.
Lemma cl1_le_nrm1 x : cl1 x <= nrm1 (flat x).
Proof.
  unfold cl1. induction x as [|[a b] x IH]; cbn [map rlsum flat nrm1 fst snd]; [lra|].
  assert (sqrt (Cnsq ((a, b) : Cx)) <= Rabs a + Rabs b); [|lra]. pose proof (Rabs_pos a). pose proof (Rabs_pos b).
  apply sq_le; [lra|]. unfold Cnsq. cbn [fst snd]. rewrite sqrt_sqrt by nra.
  assert (Ea : Rabs a * Rabs a = a * a) by (rewrite <- Rabs_mult; apply Rabs_right; nra).
  assert (Eb : Rabs b * Rabs b = b * b) by (rewrite <- Rabs_mult; apply Rabs_right; nra). nra.
Qed.
Lemma cl1_calm n x l : length x = n -> length l = n -> cl1 l <= cl1 x + INR (2 * n) * nrm (rsub (flat x) (flat l)).
Proof.
  intros Lx Ll. set (d := vsub l x). assert (El : l = vadd x d).
  { apply flat_inj. unfold d. rewrite flat_add, flat_sub. pose proof (flat_len x). pose proof (flat_len l). veq. }
  rewrite El at 1. eapply Rle_trans; [apply cl1_add|]. apply Rplus_le_compat_l. eapply Rle_trans; [apply cl1_le_nrm1|].
  assert (Ld : length (flat d) = (2 * n)%nat) by (unfold d; rewrite flat_sub; pose proof (flat_len x); pose proof (flat_len l); vl).
  pose proof (@nrm1_calm (2 * n) (rzero (2 * n)) (flat d) (rzero_len _) Ld) as H. rewrite nrm1_zero, Rplus_0_l in H.
  replace (rsub (flat x) (flat l)) with (rsub (rzero (2 * n)) (flat d)); [exact H|]. unfold d. rewrite flat_sub. pose proof (flat_len x); pose proof (flat_len l). veq.
Qed.
Lemma csoft_setting n m A B b x0 lam step L :
  is_adjoint m n (co_times A) (co_trans A) -> unitary_basis n (co_times B) (co_trans B) -> length b = m -> length x0 = n ->
  0 <= lam -> 0 < step -> step * L <= 1 -> (forall x, length x = n -> cnsq (co_times A x) <= L * cnsq x) ->
  cprox_gradient_setting n m A B b x0 (fun z => lam * cl1 z) step L (fun _ a => soft_threshold_c a (step * lam)).
Proof.
  intros. repeat (split; [assumption|]). split.
  - intros x y s Hx Hy Hs. pose proof (@cl1_convex n x y s Hx Hy Hs) as K. apply (Rmult_le_compat_l lam) in K; lra.
  - intros _ a La. assert (Lp : length (soft_threshold_c a (step * lam)) = n) by (unfold soft_threshold_c; now rewrite map_length).
    split; [exact Lp|]. intros z Lz. assert (K : 0 <= step * lam) by nra.
    pose proof (@csoft_min a (step * lam) z K) as M. cbv zeta in M. specialize (M (eq_trans Lz (eq_sym La))).
    set (p := soft_threshold_c a (step * lam)) in *. unfold cdist2 in M. rewrite <- !cnsq_cdot in M.
    change (csub a p) with (vsub (a : cvec) p) in M. change (csub a z) with (vsub (a : cvec) z) in M. change (csub z p) with (vsub (z : cvec) p) in M.
    change (cnrm1 p) with (cl1 p) in M. change (cnrm1 z) with (cl1 z) in M.
    rewrite (@cnsq_sym n a p La Lp), (@cnsq_sym n a z La Lz) in M. rewrite <- !Rmult_assoc.
    pose proof (nrm2_pos (flat (vsub z p))) as P. rewrite flat_nrm2 in P. split; [lra|]. intros Q. assert (Z : cnsq (vsub z p) = 0) by lra.
    apply flat_inj. rewrite <- flat_nrm2, flat_sub in Z.
    pose proof (eq_trans (flat_len z) (f_equal (Nat.mul 2) Lz)) as L1. pose proof (eq_trans (flat_len p) (f_equal (Nat.mul 2) Lp)) as L2.
    apply vec_eq; [congruence|]. intros i Hi. pose proof (@nrm2_zero (rsub (flat z) (flat p)) (2 * n) ltac:(vl) ltac:(lra)) as E.
    assert (E2 : (rsub (flat z) (flat p))@i = 0) by (rewrite E; apply rzero_nth). rewrite rsub_nth in E2 by congruence. lra.
Qed.
Lemma lift_f_lift f (g : cvec -> cvec) y : lift_f f (lift g y) = f (g (unflat y)).
Proof. unfold lift_f, lift. now rewrite unflat_flat. Qed.
Section L1.
  Variables (n m : nat) (At Aa Bt Ba : cvec -> cvec) (b : cvec) (lam : R).
  Hypothesis HA : is_adjoint m n At Aa.
  Hypothesis HB : unitary_basis n Bt Ba.
  Hypothesis Hb : length b = m.
  Hypothesis Pl : 0 < lam.
  Notation f := (fun z => lam * cl1 z).
  Notation F := (reg_objective (lift At) (lift Ba) (flat b) (lift_f f)).
  Lemma cl1_F_calm : calm (2 * n) F.
  Proof.
    pose proof (lift_adjoint HA) as HA'. pose proof (lift_basis HB) as HB'. assert (Hb' : length (flat b) = (2 * m)%nat) by (rewrite flat_len; lia).
    intros l Ll. exists (nrm (lift Aa (rsub (flat b) (lift At l))) + lam * INR (2 * n)). split.
    { pose proof (nrm_pos (lift Aa (rsub (flat b) (lift At l)))). pose proof (pos_INR (2 * n)). assert (0 <= lam * INR (2 * n)) by (apply Rmult_le_pos; lra). lra. }
    intros x Lx. unfold reg_objective. pose proof (@data_calm _ _ _ _ _ HA' Hb' _ _ Lx Ll) as D. pose proof HB' as [[LB [LBa _]] _].
    assert (La : length (Ba (unflat x)) = n) by (apply HB; now apply unflat_len). assert (Lc : length (Ba (unflat l)) = n) by (apply HB; now apply unflat_len).
    pose proof (@cl1_calm n (Ba (unflat x)) (Ba (unflat l)) La Lc) as N. change (flat (Ba (unflat x))) with (lift Ba x) in N. change (flat (Ba (unflat l))) with (lift Ba l) in N.
    assert (E : nrm (rsub (lift Ba x) (lift Ba l)) = nrm (rsub x l)) by (unfold nrm; f_equal; apply (@B_iso (2 * n) (2 * m) (lift Bt) (lift Ba) (flat b) HB' Hb' x l Lx Ll)). rewrite E in N.
    rewrite !lift_f_lift. apply (Rmult_le_compat_l lam) in N; lra.
  Qed.
  Lemma cl1_F_lower x : 0 <= F x.
  Proof. unfold reg_objective, lift_f. pose proof (nrm2_pos (rsub (flat b) (lift At x))). pose proof (Rmult_le_pos lam (cl1 (unflat (lift Ba x))) ltac:(lra) (cl1_pos _)). lra. Qed.
  Lemma cl1_F_bounded x : length x = (2 * n)%nat -> nrm x <= F x / lam.
  Proof.
    intros Lx. pose proof (lift_basis HB) as [[LB [LBa AB]] [I1 I2]]. assert (E : nrm (lift Ba x) = nrm x).
    { unfold nrm. f_equal. rewrite <- (AB (lift Ba x) x) by (try apply LBa; auto). now rewrite I1. }
    pose proof (cnorm_le_cl1 (Ba (unflat x))) as N. rewrite <- flat_nrm in N. change (flat (Ba (unflat x))) with (lift Ba x) in N. rewrite E in N. apply Rmult_le_reg_l with lam; auto.
    replace (lam * (F x / lam)) with (F x) by (field; lra). unfold reg_objective. pose proof (nrm2_pos (rsub (flat b) (lift At x))).
    rewrite !lift_f_lift. apply (Rmult_le_compat_l lam) in N; lra.
  Qed.
  Lemma cl1_attains : exists q, minimises (2 * n) everywhere F q.
  Proof.
    apply (@attains (2 * n) everywhere F (@all_closed (2 * n)) cl1_F_calm (rzero (2 * n)) 0 (F (rzero (2 * n)) / lam)); try exact I; [vl|intros; now apply cl1_F_lower|].
    intros z Lz _ Hz. eapply Rle_trans; [now apply cl1_F_bounded|]. apply Rmult_le_compat_r; auto. left. now apply Rinv_0_lt_compat.
  Qed.
  Lemma cl1_approach (Rel : nat -> vec -> Prop) g c : (forall q, minimises (2 * n) everywhere F q -> forall k x, Rel k x -> length x = (2 * n)%nat /\ F x <= F q + g q k) ->
    (forall q k, minimises (2 * n) everywhere F q -> g q k <= c q) ->
    (forall q, minimises (2 * n) everywhere F q -> forall eps, 0 < eps -> exists N, forall k, (N <= k)%nat -> g q k <= eps) ->
    forall eps, 0 < eps -> exists N, forall k x, (N <= k)%nat -> Rel k x -> exists p, minimises (2 * n) everywhere F p /\ nrm (rsub x p) < eps.
  Proof.
    intros H1 H2 H3. destruct cl1_attains as [q Mq].
    apply (@approach (2 * n) everywhere F (@all_closed (2 * n)) cl1_F_calm Rel q ((F q + c q) / lam) (g q) Mq); [|now apply H3].
    intros k x Rx. destruct (H1 q Mq k x Rx) as [Lx Fx]. split; auto. split; [exact I|]. split; auto.
    eapply Rle_trans; [now apply cl1_F_bounded|]. apply Rmult_le_compat_r; [left; now apply Rinv_0_lt_compat|]. specialize (H2 q k Mq). lra.
  Qed.
End L1.
Section Soft.
  Variables (n m : nat) (A B : csimple_op) (b x0 : cvec) (lam step L : R).
  Hypothesis HA : is_adjoint m n (co_times A) (co_trans A).
  Hypothesis HB : unitary_basis n (co_times B) (co_trans B).
  Hypothesis Hb : length b = m.
  Hypothesis Hx : length x0 = n.
  Hypothesis Pl : 0 < lam.
  Hypothesis Hs : 0 < step.
  Hypothesis HsL : step * L <= 1.
  Hypothesis HL : forall x, length x = n -> cnsq (co_times A x) <= L * cnsq x.
  Notation F := (creg_objective (co_times A) (co_trans B) b (fun z => lam * cl1 z)).
  Notation thr := (fun _ a => soft_threshold_c a (step * lam)).
  Let HS := lift_setting (csoft_setting HA HB Hb Hx (Rlt_le _ _ Pl) Hs HsL HL).
  Lemma csoft_converges : exists xs, cminimises n F xs /\
    forall eps, 0 < eps -> exists N, forall rtol xtol mx k s, (N <= k)%nat -> cista_after A b x0 step thr B rtol xtol mx k s -> cnorm (vsub (ci_x s) xs) < eps.
  Proof.
    destruct (cl1_attains HA HB Hb Pl) as [q Mq]. destruct (X_converges_min HS Mq) as (xs & Mx & Lx & C). exists (unflat xs). split; [now apply unlift_minimises|].
    intros eps He. destruct (C eps He) as [N Q]. exists N. intros rtol xtol mx k s Hk H. apply fl_ista_after in H. specialize (Q k Hk). rewrite <- (run_iterate HS H) in Q.
    rewrite <- flat_nrm, flat_sub, (flat_unflat Lx). exact Q.
  Qed.
  Lemma csoft_fista_approaches eps : 0 < eps -> exists N, forall rtol xtol mx k s, (N <= k)%nat -> cfista_after A b x0 step thr B rtol xtol mx k s ->
    exists xs, cminimises n F xs /\ cnorm (vsub (cf_x s) xs) < eps.
  Proof.
    intros He.
    destruct (@cl1_approach n m (co_times A) (co_trans A) (co_times B) (co_trans B) b lam HA HB Hb Pl
      (fun k x => (0 < k)%nat /\ exists rtol xtol mx s, cfista_after A b x0 step thr B rtol xtol mx k s /\ x = flat (cf_x s))
      (fun q k => 2 * nrm2 (rsub (flat x0) q) / (step * ((INR k + 1) * (INR k + 1)))) (fun q => 2 * nrm2 (rsub (flat x0) q) / step)) with (eps := eps) as [N Q]; auto.
    - intros q (Lq & _ & _) k x (Hk & rtol & xtol & mx & s & H & ->). apply fl_fista_after in H. split.
      + assert (K : length (fs_x (fl_fista s)) = (2 * n)%nat /\ length (fs_z (fl_fista s)) = (2 * n)%nat); [|apply K].
        pose proof HS as (HA' & HB' & Hb' & Hx' & _).
        refine (@fista_len _ _ _ _ step rtol xtol _ mx (2 * n) (2 * m) _ HA' HB' Hb' Hx' (setting_strong HS) k _ H).
      + pose proof (set_fista_rate HS q Lq Hk H) as R. cbn [fs_x fl_fista lift_op so_times so_trans] in R. lra.
    - intros q k _. pose proof (nrm2_pos (rsub (flat x0) q)). pose proof (pos_INR k). unfold Rdiv. apply Rmult_le_compat_l; [lra|].
      apply Rinv_le_contravar; auto. rewrite <- (Rmult_1_r step) at 1. apply Rmult_le_compat_l; nra.
    - intros q _ e E. pose proof (nrm2_pos (rsub (flat x0) q)) as P1. set (c := 2 * nrm2 (rsub (flat x0) q)) in *. assert (Pc : 0 <= c) by (unfold c; lra).
      assert (Pe : 0 < step * e / (c + 1)). { apply Rmult_lt_0_compat; [nra|]. apply Rinv_0_lt_compat. lra. }
      destruct (archimed_cor1 _ Pe) as (N & HN & N0). exists N. intros k Hk. pose proof (lt_0_INR N N0). apply le_INR in Hk.
      assert (K1 : c + 1 <= step * e * INR N).
      { apply Rmult_le_reg_r with (/ INR N * / (c + 1)). { apply Rmult_lt_0_compat; apply Rinv_0_lt_compat; lra. }
        replace ((c + 1) * (/ INR N * / (c + 1))) with (/ INR N) by (field; split; lra).
        replace (step * e * INR N * (/ INR N * / (c + 1))) with (step * e / (c + 1)) by (field; split; lra). lra. }
      apply Rmult_le_reg_r with (step * ((INR k + 1) * (INR k + 1))); [nra|].
      unfold Rdiv. rewrite Rmult_assoc, Rinv_l by nra. assert (step * e * INR N <= step * e * ((INR k + 1) * (INR k + 1))) by (apply Rmult_le_compat_l; nra). lra.
    - exists (S N). intros rtol xtol mx k s Hk H. destruct (Q k (flat (cf_x s)) ltac:(lia)) as (p & Mp & Np); [split; [lia|]; eauto 10|].
      exists (unflat p). split; [now apply unlift_minimises|]. rewrite <- flat_nrm, flat_sub, flat_unflat with (n := n) by apply Mp. exact Np.
  Qed.
End Soft.
