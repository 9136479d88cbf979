(** Convergence of the iterates of ISTA, and of the iterates of FISTA to the set of solutions. *)
From Coq Require Import List Arith Bool Lia Reals Lra Psatz.
From Verif Require Import Scalar Vec RVec RMat Loop XReal OptSpec OptModel OptProofs OptProofs2 OptProofs3 OptLemmas SolverSpec LoopLemmas CGModel CGProofs SlsModel SlsSpec SlsProofs SlsLemmas SeqSpec SeqProofs.
Import ListNotations.
Set Implicit Arguments.
Unset Strict Implicit.
Local Open Scope R_scope.

Lemma nrm_le_of_sq u v : nrm2 u <= nrm2 v -> nrm u <= nrm v.
Proof. intros H. unfold nrm, nrm2 in *. now apply sqrt_le_1_alt. Qed.
Section Step.
  Variables (n m : nat) (At Aa Bt Ba : vec -> vec) (b : vec) (f : vec -> R) (step L : R) (T : vec -> vec).
  Hypothesis HA : adjoint_ops n m At Aa.
  Hypothesis HB : orthonormal_basis n Bt Ba.
  Hypothesis Hb : length b = m.
  Hypothesis Hs : 0 < step.
  Hypothesis HL : forall x, length x = n -> nrm2 (At x) <= L * nrm2 x.
  Hypothesis HsL : step * L <= 1.
  Hypothesis HT : forall a, length a = n -> strong n everywhere f step a (T a).
  Notation F := (reg_objective At Ba b f).
  Definition stepmap (y : vec) : vec := pg_step Aa Bt Ba step T y (rsub b (At y)).
  Lemma stepmap_len y : length y = n -> length (stepmap y) = n.
  Proof.
    intros Ly. apply (@pg_len n m At Aa Bt Ba b f step T HA HB Hb HT); auto. pose proof (proj1 (proj1 HA) y Ly). vl.
  Qed.
  Lemma trans_small r : length r = m -> step * nrm2 (Aa r) <= nrm2 r.
  Proof.
    intros Lr. destruct HA as [LA [LAa Adj]]. pose proof (proj1 LAa r Lr) as L1. pose proof (HL L1) as H1.
    pose proof (cauchy_sq (At (Aa r)) r) as C. rewrite (Adj _ _ L1 Lr) in C. fold (nrm2 (Aa r)) in C. fold (nrm2 (At (Aa r))) (nrm2 r) in C.
    pose proof (nrm2_pos (Aa r)) as P1. pose proof (nrm2_pos r) as P2. set (a := nrm2 (Aa r)) in *. set (c := nrm2 r) in *.
    destruct (Req_dec a 0) as [Ha|Ha]; [rewrite Ha, Rmult_0_r; exact P2|]. assert (0 < a) by lra.
    assert (nrm2 (At (Aa r)) * c <= L * a * c) by (apply Rmult_le_compat_r; auto).
    apply Rmult_le_reg_l with a; auto.
    assert (step * (a * a) <= step * (L * a * c)) by (apply Rmult_le_compat_l; lra).
    assert (step * L * (a * c) <= 1 * (a * c)) by (apply Rmult_le_compat_r; [apply Rmult_le_pos; lra|lra]). lra.
  Qed.
  Lemma stepmap_nonexpansive u v : length u = n -> length v = n -> nrm (rsub (stepmap u) (stepmap v)) <= nrm (rsub u v).
  Proof.
    intros Lu Lv. pose proof HA as [LA [LAa Adj]]. pose proof HB as [[LB [LBa AdjB]] [I1 I2]].
    pose proof (proj1 LA u Lu) as Lau. pose proof (proj1 LA v Lv) as Lav.
    assert (Lr : forall w, length w = n -> length (Aa (rsub b (At w))) = n).
    { intros w Lw. apply LAa. pose proof (proj1 LA w Lw). vl. }
    pose proof (Lr u Lu) as L1. pose proof (Lr v Lv) as L2.
    apply nrm_le_of_sq. unfold stepmap, pg_step.
    set (gu := radd u (rscale step (Aa (rsub b (At u))))). set (gv := radd v (rscale step (Aa (rsub b (At v))))).
    assert (Lgu : length gu = n) by (unfold gu; vl). assert (Lgv : length gv = n) by (unfold gv; vl).
    pose proof (proj1 LBa gu Lgu) as L3. pose proof (proj1 LBa gv Lgv) as L4.
    destruct (HT L3) as [L5 _]. destruct (HT L4) as [L6 _].
    assert (E1 : nrm2 (rsub (Bt (T (Ba gu))) (Bt (T (Ba gv)))) = nrm2 (rsub (T (Ba gu)) (T (Ba gv)))).
    { rewrite <- (@B_iso n m Bt Ba b HB Hb (Bt (T (Ba gu))) (Bt (T (Ba gv)))) by (apply LB; auto). now rewrite !I2 by auto. }
    rewrite E1. pose proof (@strong_nonexpansive n everywhere f step T (fun x Lx => HT Lx) (Ba gu) (Ba gv) L3 L4) as N.
    unfold dist in N. assert (N2 : nrm2 (rsub (T (Ba gu)) (T (Ba gv))) <= nrm2 (rsub (Ba gu) (Ba gv))).
    { unfold nrm in N. apply sqrt_le_0 in N; [exact N|apply rdot_pos|apply rdot_pos]. }
    eapply Rle_trans; [exact N2|]. rewrite (@B_iso n m Bt Ba b HB Hb gu gv Lgu Lgv).
    set (w := rsub u v). assert (Lw : length w = n) by (unfold w; vl).
    assert (E2 : rsub gu gv = rsub w (rscale step (Aa (At w)))).
    { assert (E3 : Aa (At w) = rsub (Aa (rsub b (At v))) (Aa (rsub b (At u)))).
      { rewrite <- (lin_sub _ _ LAa) by vl. f_equal. unfold w. rewrite (lin_sub _ _ LA) by auto. veq. }
      rewrite E3. unfold gu, gv, w. veq. }
    rewrite E2. pose proof (proj1 LA w Lw) as Law. pose proof (proj1 LAa _ Law) as Laa.
    assert (E4 : nrm2 (rsub w (rscale step (Aa (At w)))) = nrm2 w - 2 * step * rdot w (Aa (At w)) + step * (step * nrm2 (Aa (At w)))).
    { unfold nrm2. vdot. rewrite (rdot_sym (Aa (At w)) w). ring. }
    rewrite E4. rewrite <- (Adj w (At w) Lw Law). fold (nrm2 (At w)). pose proof (trans_small Law) as TS. pose proof (nrm2_pos (At w)).
    assert (step * (step * nrm2 (Aa (At w))) <= step * nrm2 (At w)) by (apply Rmult_le_compat_l; lra).
    assert (0 <= step * nrm2 (At w)) by (apply Rmult_le_pos; lra). lra.
  Qed.
  Variable x0 : vec.
  Hypothesis L0 : length x0 = n.
  Definition iterate (k : nat) : vec := Nat.iter k stepmap x0.
  Lemma iterate_len k : length (iterate k) = n.
  Proof. induction k; auto. cbn [iterate Nat.iter]. now apply stepmap_len. Qed.
  Lemma iterate_descent k : 2 * step * F (iterate (S k)) <= 2 * step * F (iterate k) - nrm2 (rsub (iterate (S k)) (iterate k)).
  Proof. exact (@pg_descent n m At Aa Bt Ba b f step L T HA HB Hb Hs HL HsL HT (iterate k) (iterate_len k)). Qed.
  Lemma steps_vanish c : (forall x, length x = n -> c <= F x) ->
    forall eps, 0 < eps -> exists N, forall k, (N <= k)%nat -> nrm (rsub (iterate (S k)) (iterate k)) < eps.
  Proof.
    intros Hc eps He. destruct (@decrements (fun k => 2 * step * F (iterate k)) (fun k => nrm2 (rsub (iterate (S k)) (iterate k))) (2 * step * c)) with (eps := eps * eps) as [N Q].
    - intros k. apply nrm2_pos.
    - apply iterate_descent.
    - intros k. apply Rmult_le_compat_l; [lra|]. apply Hc. apply iterate_len.
    - nra.
    - exists N. intros k Hk. specialize (Q k Hk). unfold nrm. rewrite <- (sqrt_square eps) by lra. apply sqrt_lt_1_alt. split; [apply rdot_pos|exact Q].
  Qed.
  Lemma fixed_minimises l : length l = n -> stepmap l = l -> minimises n everywhere F l.
  Proof.
    intros Ll E. split; auto. split; [exact I|]. intros z Lz _.
    pose proof (@pg_key n m At Aa Bt Ba b f step L T HA HB Hb Hs HL HsL HT l z Ll Lz) as K. cbn zeta in K. fold (stepmap l) in K. rewrite E in K. nra.
  Qed.
  Lemma iterates_converge c B : (forall x, length x = n -> c <= F x) -> (forall k, nrm (iterate k) <= B) ->
    exists xs, minimises n everywhere F xs /\ converges n iterate xs.
  Proof.
    intros Hc HBd. destruct (@orbit_converges n stepmap iterate stepmap_len stepmap_nonexpansive L0 (fun k => eq_refl) B HBd (steps_vanish Hc)) as (l & Ll & El & Cl).
    exists l. split; auto. now apply fixed_minimises.
  Qed.
  Lemma minimiser_fixed q : minimises n everywhere F q -> stepmap q = q.
  Proof.
    intros (Lq & _ & Mq). pose proof (stepmap_len Lq) as Lp.
    pose proof (@pg_key n m At Aa Bt Ba b f step L T HA HB Hb Hs HL HsL HT q q Lq Lq) as K. cbn zeta in K. fold (stepmap q) in K.
    specialize (Mq (stepmap q) Lp I). assert (Z : nrm2 (rsub q q) = 0) by (unfold nrm2; vdot; ring). rewrite Z in K.
    apply rdot_sub_eq0; [congruence|]. pose proof (rdot_pos (rsub (stepmap q) q)). unfold nrm2 in *.
    assert (2 * step * F q <= 2 * step * F (stepmap q)) by (apply Rmult_le_compat_l; lra). lra.
  Qed.
  Lemma iterates_converge_min q : minimises n everywhere F q -> exists xs, minimises n everywhere F xs /\ converges n iterate xs.
  Proof.
    intros Mq. pose proof Mq as (Lq & _ & Hq). pose proof (minimiser_fixed Mq) as Eq.
    apply iterates_converge with (c := F q) (B := nrm (rsub x0 q) + nrm q).
    - intros x Lx. now apply Hq.
    - intros k. pose proof (@orbit_fejer n stepmap iterate stepmap_len stepmap_nonexpansive L0 (fun k => eq_refl) q Lq Eq O k ltac:(lia)) as H.
      change (iterate 0) with x0 in H. pose proof (iterate_len k) as Lk.
      replace (iterate k) with (radd (rsub (iterate k) q) q) at 1 by veq. eapply Rle_trans; [apply nrm_triang; vl|]. lra.
  Qed.
End Step.
