(** Convergence of ISTA and FISTA: the solvers' runs. *)
From Coq Require Import List Arith Bool Lia Reals Lra Psatz.
From Verif Require Import Scalar Vec RVec RMat Loop XReal OptSpec OptModel OptProofs OptProofs2 OptProofs3 OptLemmas SolverSpec LoopLemmas CGModel CGProofs SlsModel SlsSpec SlsProofs SlsLemmas SeqSpec SeqProofs ConvProofs L1RecProofs.
Import ListNotations.
Set Implicit Arguments.
Unset Strict Implicit.
Local Open Scope R_scope.

Section Run.
  Variables (n m : nat) (A B : simple_op) (b x0 : vec) (f : vec -> R) (step L : R) (thr : nat -> vec -> vec).
  Hypothesis HS : prox_gradient_setting n m A B b x0 f step L thr.
  Notation F := (reg_objective (so_times A) (so_trans B) b f).
  Notation P := (stepmap (so_times A) (so_trans A) (so_times B) (so_trans B) b step (thr O)).
  Notation X := (iterate (so_times A) (so_trans A) (so_times B) (so_trans B) b step (thr O) x0).
  Lemma thr_same i a : length a = n -> thr i a = thr O a.
  Proof.
    intros La. destruct HS as [_ [_ [_ [_ [_ [_ [_ [_ HT]]]]]]]]. destruct (HT i a La) as [L1 [_ M1]]. destruct (HT O a La) as [L2 [_ M2]].
    apply (proj2 (M2 _ L1 I)). apply (M1 _ L2 I).
  Qed.
  Lemma run_iterate rtol xtol mx k s : ista_after A b x0 step thr B rtol xtol mx k s -> is_x s = X k.
  Proof.
    pose proof HS as [HA [HB [Hb [Hx [Hs [HsL [HL [Cf HT]]]]]]]].
    induction 1 as [|k s s' H IH C E]; [reflexivity|].
    destruct (ista_step H E) as [-> _]. rewrite IH. change (X (S k)) with (P (X k)). unfold stepmap, pg_step. f_equal. apply thr_same.
    assert (Lk : length (X k) = n).
    { rewrite <- IH. eapply ista_len with (m := m); eauto. apply (setting_strong HS). }
    apply HB. pose proof (proj1 (proj1 HA) _ Lk). assert (length (so_trans A (rsub b (so_times A (X k)))) = n) by (apply HA; vl). vl.
  Qed.
  Lemma run_change rtol xtol mx k s : ista_after A b x0 step thr B rtol xtol mx (S k) s -> is_change s = nrm (rsub (X (S k)) (X k)).
  Proof.
    intros H. rewrite <- (run_iterate H). destruct (reaches_S_inv H) as [s1 [H1 [C E]]]. rewrite <- (run_iterate H1). now destruct (ista_step H1 E).
  Qed.
  Lemma X_len k : length (X k) = n.
  Proof. destruct HS as [HA [HB [Hb [Hx [Hs [HsL [HL [Cf HT]]]]]]]]. eapply iterate_len; eauto. apply (setting_strong HS). Qed.
  Lemma X_converges c Bd : (forall x, length x = n -> c <= F x) -> (forall k, nrm (X k) <= Bd) ->
    exists xs, minimises n everywhere F xs /\ converges n X xs.
  Proof.
    destruct HS as [HA [HB [Hb [Hx [Hs [HsL [HL [Cf HT]]]]]]]]. intros H1 H2.
    refine (@iterates_converge n m _ _ _ _ b f step L (thr O) HA HB Hb Hs HL HsL (setting_strong HS O) x0 Hx c Bd H1 H2).
  Qed.
  Lemma X_converges_min q : minimises n everywhere F q -> exists xs, minimises n everywhere F xs /\ converges n X xs.
  Proof.
    destruct HS as [HA [HB [Hb [Hx [Hs [HsL [HL [Cf HT]]]]]]]]. intros H1.
    refine (@iterates_converge_min n m _ _ _ _ b f step L (thr O) HA HB Hb Hs HL HsL (setting_strong HS O) x0 Hx q H1).
  Qed.
  Lemma X_descent k : F (X (S k)) <= F (X k).
  Proof.
    destruct HS as [HA [HB [Hb [Hx [Hs [HsL [HL [Cf HT]]]]]]]].
    pose proof (@iterate_descent n m _ _ _ _ b f step L (thr O) HA HB Hb Hs HL HsL (setting_strong HS O) x0 Hx k) as D. pose proof (nrm2_pos (rsub (X (S k)) (X k))).
    apply Rmult_le_reg_l with (2 * step); lra.
  Qed.
  Lemma X_vanish c : (forall x, length x = n -> c <= F x) -> forall eps, 0 < eps -> exists N, forall k, (N <= k)%nat -> nrm (rsub (X (S k)) (X k)) < eps.
  Proof.
    destruct HS as [HA [HB [Hb [Hx [Hs [HsL [HL [Cf HT]]]]]]]]. intros H1.
    exact (@steps_vanish n m _ _ _ _ b f step L (thr O) HA HB Hb Hs HL HsL (setting_strong HS O) x0 Hx c H1).
  Qed.
  (** ISTA stops by itself *)
  Lemma ista_stops c : (forall x, length x = n -> c <= F x) -> forall xtol, 0 < xtol ->
    exists N, forall rtol mx fuel s, ista A b x0 step thr B rtol xtol mx fuel = Done s -> (is_it s <= N)%nat.
  Proof.
    intros Hc xtol Hx. destruct (X_vanish Hc Hx) as [N Q]. exists (S N). intros rtol mx fuel s E.
    apply while_done in E as [k [_ [H _]]]. pose proof (ista_every H) as [_ [_ ->]].
    destruct (le_lt_dec k (S N)) as [|Hk]; auto. exfalso. destruct k as [|k]; [lia|]. destruct (reaches_S_inv H) as [s1 [H1 [C _]]].
    destruct k as [|k]; [lia|]. pose proof (run_change H1) as E1. specialize (Q k ltac:(lia)).
    unfold ista_cond in C. apply andb_true_iff in C as [_ C]. apply andb_true_iff in C as [C _]. apply Rltb_true in C. lra.
  Qed.
End Run.

(** *** the l1 regularised problem *)
Lemma nrm1_calm n x l : length x = n -> length l = n -> nrm1 l <= nrm1 x + INR n * nrm (rsub x l).
Proof.
  intros Lx Ll. rewrite !(@nrm1_sum n) by auto. rewrite Rmult_comm.
  assert (E : forall c, rsum n (fun _ => c) = c * INR n).
  { intros c. clear. induction n as [|k IH]; cbn [rsum]; [cbn; ring|]. rewrite IH, S_INR. ring. }
  rewrite <- E, <- rsum_add. apply rsum_le. intros i Hi.
  pose proof (entry_nrm (rsub x l) i) as Q. rewrite rsub_nth in Q by vl.
  pose proof (Rabs_triang (x@i) (l@i - x@i)) as T. replace (x@i + (l@i - x@i)) with (l@i) in T by ring. rewrite (Rabs_minus_sym (l@i)) in T. lra.
Qed.
Section L1.
  Variables (n m : nat) (At Aa Bt Ba : vec -> vec) (b : vec) (lam : R).
  Hypothesis HA : adjoint_ops n m At Aa.
  Hypothesis HB : orthonormal_basis n Bt Ba.
  Hypothesis Hb : length b = m.
  Hypothesis Pl : 0 < lam.
  Notation F := (reg_objective At Ba b (fun z => lam * nrm1 z)).
  Lemma data_calm x l : length x = n -> length l = n -> / 2 * nrm2 (rsub b (At l)) <= / 2 * nrm2 (rsub b (At x)) + nrm (Aa (rsub b (At l))) * nrm (rsub x l).
  Proof.
    intros Lx Ll. set (d := rsub x l). assert (Ld : length d = n) by (unfold d; vl).
    replace x with (radd l d) by (unfold d; veq).
    pose proof (@data_expand n m At Aa b HA Hb l d Ll Ld) as E. rewrite E. pose proof (nrm2_pos (At d)).
    pose proof (cauchy_le d (Aa (rsub b (At l)))). lra.
  Qed.
  Lemma l1_calm : calm n F.
  Proof.
    intros l Ll. exists (nrm (Aa (rsub b (At l))) + lam * INR n). split.
    { pose proof (nrm_pos (Aa (rsub b (At l)))). pose proof (pos_INR n). assert (0 <= lam * INR n) by (apply Rmult_le_pos; lra). lra. }
    intros x Lx. unfold reg_objective. pose proof (data_calm Lx Ll) as D. destruct HB as [[LB [LBa _]] _].
    pose proof (@nrm1_calm n (Ba x) (Ba l) (proj1 LBa x Lx) (proj1 LBa l Ll)) as N.
    assert (E : nrm (rsub (Ba x) (Ba l)) = nrm (rsub x l)) by (unfold nrm; f_equal; apply (@B_iso n m Bt Ba b HB Hb x l Lx Ll)). rewrite E in N.
    apply (Rmult_le_compat_l lam) in N; lra.
  Qed.
  Lemma all_closed : closed n everywhere.
  Proof. intros x l _ _ _. exact I. Qed.
  Lemma l1_lower x : length x = n -> 0 <= F x.
  Proof. intros Lx. unfold reg_objective. pose proof (nrm2_pos (rsub b (At x))). pose proof (Rmult_le_pos lam (nrm1 (Ba x)) ltac:(lra) (nrm1_pos _)). lra. Qed.
  Lemma l1_bounded x : length x = n -> nrm x <= F x / lam.
  Proof.
    intros Lx. destruct HB as [[LB [LBa AB]] [I1 I2]]. assert (E : nrm (Ba x) = nrm x).
    { unfold nrm. f_equal. rewrite <- (AB (Ba x) x) by (try apply LBa; auto). now rewrite I1. }
    pose proof (nrm_le_nrm1 (Ba x)) as N. rewrite E in N. apply Rmult_le_reg_l with lam; auto.
    replace (lam * (F x / lam)) with (F x) by (field; lra). unfold reg_objective. pose proof (nrm2_pos (rsub b (At x))).
    apply (Rmult_le_compat_l lam) in N; lra.
  Qed.
  Lemma l1_attains : exists q, minimises n everywhere F q.
  Proof.
    apply (@attains n everywhere F all_closed l1_calm (rzero n) 0 (F (rzero n) / lam)); try exact I; [vl|intros; now apply l1_lower|].
    intros z Lz _ Hz. eapply Rle_trans; [now apply l1_bounded|]. apply Rmult_le_compat_r; auto. left. now apply Rinv_0_lt_compat.
  Qed.
  Lemma l1_approach (Rel : nat -> vec -> Prop) g c : (forall q, minimises n everywhere F q -> forall k x, Rel k x -> length x = n /\ F x <= F q + g q k) ->
    (forall q k, minimises n everywhere F q -> g q k <= c q) ->
    (forall q, minimises n everywhere F q -> forall eps, 0 < eps -> exists N, forall k, (N <= k)%nat -> g q k <= eps) ->
    forall eps, 0 < eps -> exists N, forall k x, (N <= k)%nat -> Rel k x -> exists p, minimises n everywhere F p /\ nrm (rsub x p) < eps.
  Proof.
    intros H1 H2 H3. destruct l1_attains as [q Mq].
    apply (@approach n everywhere F all_closed l1_calm Rel q ((F q + c q) / lam) (g q) Mq); [|now apply H3].
    intros k x Rx. destruct (H1 q Mq k x Rx) as [Lx Fx]. split; auto. split; [exact I|]. split; auto.
    eapply Rle_trans; [now apply l1_bounded|]. apply Rmult_le_compat_r; [left; now apply Rinv_0_lt_compat|]. specialize (H2 q k Mq). lra.
  Qed.
End L1.
Section Soft.
  Variables (n m : nat) (A B : simple_op) (b x0 : vec) (lam step L : R).
  Hypothesis HA : adjoint_ops n m (so_times A) (so_trans A).
  Hypothesis HB : orthonormal_basis n (so_times B) (so_trans B).
  Hypothesis Hb : length b = m.
  Hypothesis Hx : length x0 = n.
  Hypothesis Pl : 0 < lam.
  Hypothesis Hs : 0 < step.
  Hypothesis HsL : step * L <= 1.
  Hypothesis HL : forall x, length x = n -> nrm2 (so_times A x) <= L * nrm2 x.
  Notation F := (reg_objective (so_times A) (so_trans B) b (fun z => lam * nrm1 z)).
  Notation thr := (fun _ a => soft_threshold a (step * lam)).
  Let HS : prox_gradient_setting n m A B b x0 (fun z => lam * nrm1 z) step L thr := @soft_setting n m A B b x0 lam step L HA HB Hb Hx (Rlt_le _ _ Pl) Hs HsL HL.
  Lemma soft_converges : exists xs, minimises n everywhere F xs /\
    forall eps, 0 < eps -> exists N, forall rtol xtol mx k s, (N <= k)%nat -> ista_after A b x0 step thr B rtol xtol mx k s -> nrm (rsub (is_x s) xs) < eps.
  Proof.
    destruct (l1_attains HA HB Hb Pl) as [q Mq]. destruct (X_converges_min HS Mq) as (xs & Mx & Lx & C). exists xs. split; auto.
    intros eps He. destruct (C eps He) as [N Q]. exists N. intros rtol xtol mx k s Hk H. rewrite (run_iterate HS H). now apply Q.
  Qed.
  Lemma soft_fista_approaches eps : 0 < eps -> exists N, forall rtol xtol mx k s, (N <= k)%nat -> fista_after A b x0 step thr B rtol xtol mx k s ->
    exists xs, minimises n everywhere F xs /\ nrm (rsub (fs_x s) xs) < eps.
  Proof.
    intros He.
    destruct (@l1_approach n m (so_times A) (so_trans A) (so_times B) (so_trans B) b lam HA HB Hb Pl
      (fun k x => (0 < k)%nat /\ exists rtol xtol mx s, fista_after A b x0 step thr B rtol xtol mx k s /\ x = fs_x s)
      (fun q k => 2 * nrm2 (rsub x0 q) / (step * ((INR k + 1) * (INR k + 1)))) (fun q => 2 * nrm2 (rsub x0 q) / step)) with (eps := eps) as [N Q]; auto.
    - intros q (Lq & _ & _) k x (Hk & rtol & xtol & mx & s & H & ->). split.
      + assert (K : length (fs_x s) = n /\ length (fs_z s) = n); [|apply K]. refine (@fista_len A B b x0 step rtol xtol thr mx n m (fun z => lam * nrm1 z) HA HB Hb Hx (setting_strong HS) k s H).
      + pose proof (set_fista_rate HS q Lq Hk H). lra.
    - intros q k _. pose proof (nrm2_pos (rsub x0 q)). pose proof (pos_INR k). unfold Rdiv. apply Rmult_le_compat_l; [lra|].
      apply Rinv_le_contravar; auto. rewrite <- (Rmult_1_r step) at 1. apply Rmult_le_compat_l; nra.
    - intros q _ e E. pose proof (nrm2_pos (rsub x0 q)) as P1. set (c := 2 * nrm2 (rsub x0 q)) in *. assert (Pc : 0 <= c) by (unfold c; lra).
      assert (Pe : 0 < step * e / (c + 1)). { apply Rmult_lt_0_compat; [nra|]. apply Rinv_0_lt_compat. lra. }
      destruct (archimed_cor1 _ Pe) as (N & HN & N0). exists N. intros k Hk. pose proof (lt_0_INR N N0). apply le_INR in Hk.
      assert (K1 : c + 1 <= step * e * INR N).
      { apply Rmult_le_reg_r with (/ INR N * / (c + 1)). { apply Rmult_lt_0_compat; apply Rinv_0_lt_compat; lra. }
        replace ((c + 1) * (/ INR N * / (c + 1))) with (/ INR N) by (field; split; lra).
        replace (step * e * INR N * (/ INR N * / (c + 1))) with (step * e / (c + 1)) by (field; split; lra). lra. }
      apply Rmult_le_reg_r with (step * ((INR k + 1) * (INR k + 1))); [nra|].
      unfold Rdiv. rewrite Rmult_assoc, Rinv_l by nra. assert (step * e * INR N <= step * e * ((INR k + 1) * (INR k + 1))) by (apply Rmult_le_compat_l; nra). lra.
    - exists (S N). intros rtol xtol mx k s Hk H. apply (Q k (fs_x s) ltac:(lia)). split; [lia|]. eauto 10.
  Qed.
End Soft.
