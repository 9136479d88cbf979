(** Power iterations, ISTA and FISTA. *)
From Coq Require Import List Arith Bool Lia Reals Lra Psatz.
From Verif Require Import Scalar Vec RVec RMat Loop XReal OptSpec OptModel OptProofs OptProofs2 OptProofs3 SolverSpec LoopLemmas CGModel CGProofs SlsModel.
Import ListNotations.
Set Implicit Arguments.
Local Open Scope R_scope.

Section ProxGrad.
  Variables (n m : nat) (At Aa Bt Ba : vec -> vec) (b : vec) (f : vec -> R) (step L : R) (T : vec -> vec).
  Hypothesis HA : adjoint_ops n m At Aa.
  Hypothesis HB : orthonormal_basis n Bt Ba.
  Hypothesis Hb : length b = m.
  Hypothesis Hs : 0 < step.
  Hypothesis HL : forall x, length x = n -> nrm2 (At x) <= L * nrm2 x.
  Hypothesis HsL : step * L <= 1.
  Hypothesis HT : forall a, length a = n -> strong n everywhere f step a (T a).
  Definition pg_step (y r : vec) : vec := Bt (T (Ba (radd y (rscale step (Aa r))))).
  Notation F := (reg_objective At Ba b f).
  Lemma B_iso x y : length x = n -> length y = n -> nrm2 (rsub (Ba x) (Ba y)) = nrm2 (rsub x y).
  Proof.
    intros Hx Hy. destruct HB as [[LB [LBa Adj]] [I1 I2]]. unfold nrm2.
    rewrite <- (lin_sub x y LBa Hx Hy). rewrite <- Adj by (try apply LBa; vl).
    now rewrite I1 by vl.
  Qed.
  Lemma pg_len y r : length y = n -> length r = m -> length (pg_step y r) = n.
  Proof.
    intros Hy Hr. destruct HB as [[LB [LBa Adj]] _]. destruct HA as [_ [LAa _]]. unfold pg_step.
    apply LB. apply HT. apply LBa. pose proof (proj1 LAa r Hr). vl.
  Qed.
  Lemma data_expand y d : length y = n -> length d = n ->
    nrm2 (rsub b (At (radd y d))) = nrm2 (rsub b (At y)) - 2 * rdot d (Aa (rsub b (At y))) + nrm2 (At d).
  Proof.
    intros Hy Hd. destruct HA as [[L1 [A1 _]] [LAa Adj]]. pose proof (L1 y Hy). pose proof (L1 d Hd).
    rewrite A1 by auto. unfold nrm2. rewrite <- Adj by vl.
    replace (rsub b (radd (At y) (At d))) with (rsub (rsub b (At y)) (At d)) by veq.
    set (r := rsub b (At y)). assert (length r = m) by (unfold r; vl). vdot. rewrite (rdot_sym (At d) r). ring.
  Qed.
  Theorem pg_key y q : length y = n -> length q = n ->
    let p := pg_step y (rsub b (At y)) in
    2 * step * F p <= 2 * step * F q + nrm2 (rsub y q) - nrm2 (rsub p q).
  Proof.
    intros Hy Hq p. pose proof HB as [[LB [LBa AdjB]] [I1 I2]]. pose proof HA as [LA [LAa AdjA]].
    assert (Lr : length (rsub b (At y)) = m) by (pose proof (proj1 LA y Hy); vl).
    set (r := rsub b (At y)) in *. pose proof (proj1 LAa r Lr) as Lar.
    set (g := radd y (rscale step (Aa r))). assert (Lg : length g = n) by (unfold g; vl).
    assert (Lp : length p = n) by now apply pg_len.
    destruct (HT _ (proj1 LBa g Lg)) as [La [_ HS]]. set (a := T (Ba g)) in *.
    assert (Ea : Ba p = a) by (unfold p, pg_step; fold g a; now apply I2).
    specialize (HS (Ba q) (proj1 LBa q Hq) I). unfold prox_obj in HS.
    rewrite <- Ea in HS. rewrite !B_iso in HS by auto. rewrite Ea in HS.
    (* expand everything around y *)
    assert (Ep : p = radd y (rsub p y)) by veq. assert (Eq : q = radd y (rsub q y)) by veq.
    assert (G1 : nrm2 (rsub p g) = nrm2 (rsub p y) - 2 * step * rdot (rsub p y) (Aa r) + step * step * nrm2 (Aa r)).
    { replace (rsub p g) with (rsub (rsub p y) (rscale step (Aa r))) by (unfold g; veq). unfold nrm2.
      set (d := rsub p y). assert (length d = n) by (unfold d; vl). vdot. rewrite (rdot_sym (Aa r) d). ring. }
    assert (G2 : nrm2 (rsub q g) = nrm2 (rsub q y) - 2 * step * rdot (rsub q y) (Aa r) + step * step * nrm2 (Aa r)).
    { replace (rsub q g) with (rsub (rsub q y) (rscale step (Aa r))) by (unfold g; veq). unfold nrm2.
      set (d := rsub q y). assert (length d = n) by (unfold d; vl). vdot. rewrite (rdot_sym (Aa r) d). ring. }
    rewrite G1, G2 in HS.
    assert (D1 : nrm2 (rsub b (At p)) = nrm2 r - 2 * rdot (rsub p y) (Aa r) + nrm2 (At (rsub p y))).
    { rewrite Ep at 1. rewrite data_expand by vl. reflexivity. }
    assert (D2 : nrm2 (rsub b (At q)) = nrm2 r - 2 * rdot (rsub q y) (Aa r) + nrm2 (At (rsub q y))).
    { rewrite Eq at 1. rewrite data_expand by vl. reflexivity. }
    pose proof (HL (rsub p y) ltac:(vl)) as B1. pose proof (nrm2_pos (At (rsub q y))) as B2.
    unfold reg_objective. rewrite D1, D2, Ea.
    assert (N1 : nrm2 (rsub y q) = nrm2 (rsub q y)) by (unfold nrm2; vdot; ring).
    assert (N2 : nrm2 (rsub p q) = nrm2 (rsub q p)) by (unfold nrm2; vdot; ring).
    rewrite N1, N2. pose proof (nrm2_pos (rsub p y)) as B3.
    assert (B4 : step * nrm2 (At (rsub p y)) <= nrm2 (rsub p y)).
    { apply Rle_trans with (step * (L * nrm2 (rsub p y))); [apply Rmult_le_compat_l; lra|]. nra. }
    assert (B5 : 0 <= step * nrm2 (At (rsub q y))) by (apply Rmult_le_pos; lra).
    lra.
  Qed.
  Lemma pg_descent y : length y = n ->
    let p := pg_step y (rsub b (At y)) in 2 * step * F p <= 2 * step * F y - nrm2 (rsub p y).
  Proof.
    intros Hy p. pose proof (pg_key y y Hy Hy) as H. fold p in H. replace (nrm2 (rsub y y)) with 0 in H; [lra|].
    unfold nrm2. vdot. ring.
  Qed.
End ProxGrad.

(** *** ISTA *)
Section Ista.
  Variables (A B : simple_op) (b x0 : vec) (step rtol xtol : R) (thr : nat -> vec -> vec) (mx : nat).
  Notation cond := (ista_cond b rtol xtol mx).
  Notation body := (ista_body A b step thr B).
  Notation Rch := (reaches cond body (ista_init A b x0)).
  Lemma ista_every k s : Rch k s ->
    is_r s = rsub b (so_times A (is_x s)) /\ is_rn2 s = nrm2 (rsub b (so_times A (is_x s))) /\ is_it s = k.
  Proof.
    induction 1 as [|k s s' H [E1 [E2 E3]] C Hb]; [repeat split; reflexivity|].
    unfold ista_body in Hb. injection Hb as <-. cbn. repeat split; auto.
  Qed.
  Lemma ista_lim k s : Rch k s -> (k <= mx)%nat.
  Proof.
    intros H. destruct H as [|k s s' H C Hb]; [lia|]. apply ista_every in H as [_ [_ E]].
    unfold ista_cond in C. apply andb_true_iff in C as [C _]. apply Nat.ltb_lt in C. lia.
  Qed.
  Lemma ista_exit fuel s : ista A b x0 step thr B rtol xtol mx fuel = Done s ->
    is_r s = rsub b (so_times A (is_x s)) /\ is_rn2 s = nrm2 (rsub b (so_times A (is_x s))) /\ (is_it s <= mx)%nat /\
    (is_it s = mx \/ is_change s <= xtol \/ nrm2 (rsub b (so_times A (is_x s))) <= rtol * rtol * nrm2 b).
  Proof.
    intros H. apply while_done in H as [k [_ [H C]]]. pose proof (ista_lim H). pose proof (ista_every H) as [E1 [E2 E3]].
    repeat split; auto; [lia|]. unfold ista_cond in C.
    apply andb_false_iff in C as [C|C]; [apply Nat.ltb_ge in C; left; lia|right].
    apply andb_false_iff in C as [C|C]; apply Rltb_false in C; [now left|right]. rewrite <- E2. lra.
  Qed.
  Lemma ista_total fuel : (mx <= fuel)%nat -> exists s, ista A b x0 step thr B rtol xtol mx fuel = Done s.
  Proof.
    intros Hf. apply while_total; [intros k s _ _; discriminate|]. intros k s H C. apply ista_every in H as [_ [_ E]].
    unfold ista_cond in C. apply andb_true_iff in C as [C _]. apply Nat.ltb_lt in C. lia.
  Qed.
  Variables (n m : nat) (f : vec -> R) (L : R).
  Hypothesis HA : adjoint_ops n m (so_times A) (so_trans A).
  Hypothesis HB : orthonormal_basis n (so_times B) (so_trans B).
  Hypothesis Hb : length b = m.
  Hypothesis Hx0 : length x0 = n.
  Hypothesis Hs : 0 < step.
  Hypothesis HL : forall x, length x = n -> nrm2 (so_times A x) <= L * nrm2 x.
  Hypothesis HsL : step * L <= 1.
  Hypothesis HT : forall i a, length a = n -> strong n everywhere f step a (thr i a).
  Notation F := (reg_objective (so_times A) (so_trans B) b f).
  Lemma ista_step k s s' : Rch k s -> body s = Some s' ->
    is_x s' = pg_step (so_trans A) (so_times B) (so_trans B) step (thr (is_it s)) (is_x s) (rsub b (so_times A (is_x s))) /\
    is_change s' = nrm (rsub (is_x s') (is_x s)).
  Proof.
    intros H E. apply ista_every in H as [E1 _]. unfold ista_body in E. injection E as <-. cbn. rewrite E1. split; reflexivity.
  Qed.
  Lemma ista_len k s : Rch k s -> length (is_x s) = n.
  Proof.
    induction 1 as [|k s s' H IH C E]; [exact Hx0|]. destruct (ista_step H E) as [-> _].
    apply (@pg_len n m (so_times A) (so_trans A) (so_times B) (so_trans B) b f step (thr (is_it s)) HA HB Hb (HT (is_it s)) (is_x s)); auto. pose proof (proj1 (proj1 HA) _ IH). vl.
  Qed.
  Lemma ista_key k s s' q : Rch k s -> body s = Some s' -> length q = n ->
    2 * step * F (is_x s') <= 2 * step * F q + nrm2 (rsub (is_x s) q) - nrm2 (rsub (is_x s') q).
  Proof.
    intros H E Hq. destruct (ista_step H E) as [-> _].
    exact (@pg_key n m (so_times A) (so_trans A) (so_times B) (so_trans B) b f step L (thr (is_it s)) HA HB Hb Hs HL HsL (HT (is_it s)) (is_x s) q (ista_len H) Hq).
  Qed.
  Lemma ista_monotone k s s' : Rch k s -> body s = Some s' ->
    F (is_x s') <= F (is_x s) - nrm2 (rsub (is_x s') (is_x s)) / (2 * step).
  Proof.
    intros H E. pose proof (ista_key (is_x s) H E (ista_len H)) as K.
    replace (nrm2 (rsub (is_x s) (is_x s))) with 0 in K by (unfold nrm2; vdot; ring).
    apply Rmult_le_reg_l with (2 * step); [lra|]. rewrite Rmult_minus_distr_l. 
    replace (2 * step * (nrm2 (rsub (is_x s') (is_x s)) / (2 * step))) with (nrm2 (rsub (is_x s') (is_x s))) by (field; lra). lra.
  Qed.
  Lemma ista_rate q : length q = n -> forall k s, Rch k s ->
    INR k * (2 * step * (F (is_x s) - F q)) <= nrm2 (rsub x0 q) - nrm2 (rsub (is_x s) q).
  Proof.
    intros Hq k s H. induction H as [|k s s' H IH C E]; [cbn [INR is_x ista_init]; lra|].
    pose proof (ista_key q H E Hq) as K1. pose proof (ista_monotone H E) as K2.
    assert (0 <= nrm2 (rsub (is_x s') (is_x s)) / (2 * step)).
    { apply Rmult_le_pos; [apply nrm2_pos|]. left. apply Rinv_0_lt_compat. lra. }
    assert (K3 : 2 * step * F (is_x s') <= 2 * step * F (is_x s)) by (apply Rmult_le_compat_l; lra).
    rewrite S_INR. pose proof (pos_INR k).
    assert (INR k * (2 * step * (F (is_x s') - F q)) <= INR k * (2 * step * (F (is_x s) - F q))) by (apply Rmult_le_compat_l; lra).
    lra.
  Qed.
  (** a fixed point is a minimiser *)
  Lemma ista_fixed k s : Rch (S k) s -> is_change s = 0 -> forall q, length q = n -> F (is_x s) <= F q.
  Proof.
    intros H E q Hq. destruct (reaches_S_inv H) as [s1 [H1 [C Bd]]]. destruct (ista_step H1 Bd) as [_ Ec].
    rewrite E in Ec. symmetry in Ec. apply nrm_eq0 in Ec.
    pose proof (ista_len H) as L1. pose proof (ista_len H1) as L2.
    assert (is_x s = is_x s1).
    { apply rdot_sub_eq0; [congruence|]. rewrite Ec. apply rdot_zero_l. }
    pose proof (ista_key q H1 Bd Hq) as K. rewrite <- H0 in K. nra.
  Qed.
End Ista.

(** *** FISTA *)
Section Fista.
  Variables (A B : simple_op) (b x0 : vec) (step rtol xtol : R) (thr : nat -> vec -> vec) (mx : nat).
  Notation cond := (fista_cond b rtol xtol mx).
  Notation body := (fista_body A b step thr B).
  Notation Rch := (reaches cond body (fista_init A b x0)).
  Definition tnext (t : R) : R := (1 + sqrt (1 + 4 * (t * t))) / 2.
  Lemma tnext_sq t : tnext t * tnext t - tnext t = t * t.
  Proof.
    unfold tnext. assert (H : 0 <= 1 + 4 * (t * t)) by (pose proof (Rle_0_sqr t); unfold Rsqr in *; lra).
    pose proof (sqrt_sqrt _ H). set (q := sqrt _) in *. nra.
  Qed.
  Lemma tnext_ge t : 0 <= t -> t + / 2 <= tnext t.
  Proof.
    intros Ht. unfold tnext. assert (2 * t <= sqrt (1 + 4 * (t * t))); [|lra].
    apply sq_le; [apply sqrt_pos|]. rewrite sqrt_sqrt by nra. lra.
  Qed.
  Lemma fista_every k s : Rch k s ->
    fs_r s = rsub b (so_times A (fs_z s)) /\ fs_rn2 s = nrm2 (rsub b (so_times A (fs_z s))) /\ fs_it s = k /\
    (INR k + 2) / 2 <= fs_t s.
  Proof.
    induction 1 as [|k s s' H [E1 [E2 [E3 E4]]] C Hb]; [repeat split; try reflexivity; cbn; lra|].
    unfold fista_body in Hb. injection Hb as <-. cbn [fs_r fs_z fs_rn2 fs_it fs_t]. repeat split; auto.
    rewrite S_INR. pose proof (pos_INR k). pose proof (@tnext_ge (fs_t s)). unfold tnext in *. lra.
  Qed.
  Lemma fista_t_mono k s s' : Rch k s -> body s = Some s' -> fs_t s <= fs_t s'.
  Proof.
    intros H Hb. apply fista_every in H as [_ [_ [_ H]]]. unfold fista_body in Hb. injection Hb as <-. cbn [fs_t].
    pose proof (pos_INR k). pose proof (@tnext_ge (fs_t s)). unfold tnext in *. lra.
  Qed.
  Lemma fista_lim k s : Rch k s -> (k <= mx)%nat.
  Proof.
    intros H. destruct H as [|k s s' H C Hb]; [lia|]. apply fista_every in H as [_ [_ [E _]]].
    unfold fista_cond in C. apply andb_true_iff in C as [C _]. apply Nat.ltb_lt in C. lia.
  Qed.
  Lemma fista_exit fuel s : fista A b x0 step thr B rtol xtol mx fuel = Done s ->
    fs_r s = rsub b (so_times A (fs_z s)) /\ fs_rn2 s = nrm2 (rsub b (so_times A (fs_z s))) /\ (fs_it s <= mx)%nat /\
    (fs_it s = mx \/ fs_change s <= xtol \/ nrm2 (rsub b (so_times A (fs_z s))) <= rtol * rtol * nrm2 b).
  Proof.
    intros H. apply while_done in H as [k [_ [H C]]]. pose proof (fista_lim H). pose proof (fista_every H) as [E1 [E2 [E3 _]]].
    repeat split; auto; [lia|]. unfold fista_cond in C.
    apply andb_false_iff in C as [C|C]; [apply Nat.ltb_ge in C; left; lia|right].
    apply andb_false_iff in C as [C|C]; apply Rltb_false in C; [now left|right]. rewrite <- E2. lra.
  Qed.
  Lemma fista_total fuel : (mx <= fuel)%nat -> exists s, fista A b x0 step thr B rtol xtol mx fuel = Done s.
  Proof.
    intros Hf. apply while_total; [intros k s _ _; discriminate|]. intros k s H C. apply fista_every in H as [_ [_ [E _]]].
    unfold fista_cond in C. apply andb_true_iff in C as [C _]. apply Nat.ltb_lt in C. lia.
  Qed.
  Variables (n m : nat) (f : vec -> R) (L : R).
  Hypothesis HA : adjoint_ops n m (so_times A) (so_trans A).
  Hypothesis HB : orthonormal_basis n (so_times B) (so_trans B).
  Hypothesis Hb : length b = m.
  Hypothesis Hx0 : length x0 = n.
  Hypothesis Hs : 0 < step.
  Hypothesis HL : forall x, length x = n -> nrm2 (so_times A x) <= L * nrm2 x.
  Hypothesis HsL : step * L <= 1.
  Hypothesis HT : forall i a, length a = n -> strong n everywhere f step a (thr i a).
  Notation F := (reg_objective (so_times A) (so_trans B) b f).
  Lemma fista_len k s : Rch k s -> length (fs_x s) = n /\ length (fs_z s) = n.
  Proof.
    induction 1 as [|k s s' H [IH1 IH2] C E]; [split; exact Hx0|].
    assert (Lx : length (fs_x s') = n).
    { pose proof (fista_every H) as [Er _]. unfold fista_body in E. injection E as <-. cbn [fs_x].
      rewrite Er. eapply (@pg_len n m (so_times A) (so_trans A) (so_times B) (so_trans B) b f step (thr (fs_it s)) HA HB Hb (HT (fs_it s)) (fs_z s)); auto.
      pose proof (proj1 (proj1 HA) _ IH2). vl. }
    split; auto. unfold fista_body in E. injection E as <-. cbn [fs_x fs_z] in *. vl.
  Qed.
  Theorem fista_inv q : length q = n -> forall k s, Rch k s ->
    2 * step * (fs_t s * fs_t s - fs_t s) * (F (fs_x s) - F q)
    + nrm2 (rsub (rsub (rscale (fs_t s) (fs_z s)) (rscale (fs_t s - 1) (fs_x s))) q) <= nrm2 (rsub x0 q).
  Proof.
    intros Hq k s H. induction H as [|k s s' H IH C E].
    - cbn [fs_t fs_z fs_x fista_init]. replace (rsub (rsub (rscale 1 x0) (rscale (1 - 1) x0)) q) with (rsub x0 q) by veq. lra.
    - pose proof (fista_len H) as [Lx Lz]. pose proof (fista_every H) as [Er [_ [_ Et]]].
      pose proof (fista_len (@reach_S _ _ _ _ _ _ _ H C E)) as [Lx' Lz'].
      pose proof (pos_INR k) as Hk. set (t := fs_t s) in *. set (x := fs_x s) in *. set (z := fs_z s) in *.
      assert (Ht : 1 <= t) by lra.
      assert (Ep : fs_x s' = pg_step (so_trans A) (so_times B) (so_trans B) step (thr (fs_it s)) z (rsub b (so_times A z))).
      { unfold fista_body in E. injection E as <-. cbn [fs_x]. rewrite Er. reflexivity. }
      assert (Et' : fs_t s' = tnext t) by (unfold fista_body in E; injection E as <-; reflexivity).
      assert (Ez' : fs_z s' = radd (fs_x s') (rscale ((t - 1) / tnext t) (rsub (fs_x s') x))).
      { unfold fista_body in E. injection E as <-. reflexivity. }
      pose proof (tnext_ge (t:=t) ltac:(lra)) as Hn. pose proof (tnext_sq t) as Hq2.
      set (x' := fs_x s') in *.
      assert (K : forall u, length u = n -> 2 * step * F x' <= 2 * step * F u + nrm2 (rsub z u) - nrm2 (rsub x' u)).
      { intros u Hu. rewrite Ep. apply (@pg_key n m (so_times A) (so_trans A) (so_times B) (so_trans B) b f step L (thr (fs_it s)) HA HB Hb Hs HL HsL (HT (fs_it s)) z u Lz Hu). }
      pose proof (K x Lx) as K1. pose proof (K q Hq) as K2.
      rewrite Et'. rewrite Hq2. 
      replace (rsub (rsub (rscale (tnext t) (fs_z s')) (rscale (tnext t - 1) x')) q)
        with (rsub (rsub (rscale t x') (rscale (t - 1) x)) q).
      2:{ rewrite Ez'. veq. field. lra. }
      assert (ID : forall w, length w = n -> t * ((t - 1) * nrm2 (rsub w x) + nrm2 (rsub w q))
         = nrm2 (rsub (rsub (rscale t w) (rscale (t - 1) x)) q) + t * ((t - 1) * nrm2 x + nrm2 q) - nrm2 (radd (rscale (t - 1) x) q)).
      { intros w Hw. unfold nrm2. vdot. rewrite (rdot_sym x w), (rdot_sym q w), (rdot_sym q x). ring. }
      pose proof (ID z Lz) as I1. pose proof (ID x' Lx') as I2.
      assert (K3 : t * ((t - 1) * (2 * step * F x')) <= t * ((t - 1) * (2 * step * F x + nrm2 (rsub z x) - nrm2 (rsub x' x)))).
      { apply Rmult_le_compat_l; [lra|]. apply Rmult_le_compat_l; [lra|auto]. }
      assert (K4 : t * (2 * step * F x') <= t * (2 * step * F q + nrm2 (rsub z q) - nrm2 (rsub x' q))) by (apply Rmult_le_compat_l; lra).
      fold t x z in IH. 
      set (Nz := nrm2 (rsub (rsub (rscale t z) (rscale (t - 1) x)) q)) in *.
      set (Nx := nrm2 (rsub (rsub (rscale t x') (rscale (t - 1) x)) q)) in *.
      set (f1 := F x') in *. set (f0 := F x) in *. set (fq := F q) in *.
      nra.
  Qed.
  Lemma fista_tt k s : Rch (S k) s -> (INR k + 2) / 2 * ((INR k + 2) / 2) <= fs_t s * fs_t s - fs_t s.
  Proof.
    intros H. destruct (reaches_S_inv H) as [s1 [H1 [C E]]]. apply fista_every in H1 as [_ [_ [_ Ht]]].
    unfold fista_body in E. injection E as <-. cbn [fs_t]. fold (tnext (fs_t s1)). rewrite tnext_sq.
    pose proof (pos_INR k). apply Rmult_le_compat; lra.
  Qed.
  Theorem fista_rate q : length q = n -> forall k s, (0 < k)%nat -> Rch k s ->
    F (fs_x s) - F q <= 2 * nrm2 (rsub x0 q) / (step * ((INR k + 1) * (INR k + 1))).
  Proof.
    intros Hq [|k] s Hk H; [lia|]. pose proof (fista_inv q Hq H) as IV. pose proof (fista_tt H) as T2.
    pose proof (nrm2_pos (rsub (rsub (rscale (fs_t s) (fs_z s)) (rscale (fs_t s - 1) (fs_x s))) q)) as P.
    pose proof (nrm2_pos (rsub x0 q)) as P0. pose proof (pos_INR k) as Pk. rewrite S_INR.
    set (T := fs_t s * fs_t s - fs_t s) in *. set (v := F (fs_x s) - F q) in *. set (D := nrm2 (rsub x0 q)) in *.
    set (a := (INR k + 2) / 2) in *.
    assert (Hden : 0 < step * ((INR k + 1 + 1) * (INR k + 1 + 1))).
    { apply Rmult_lt_0_compat; auto. apply Rmult_lt_0_compat; lra. }
    apply Rmult_le_reg_r with (step * ((INR k + 1 + 1) * (INR k + 1 + 1))); auto.
    unfold Rdiv. rewrite (Rmult_assoc (2 * D)), Rinv_l, Rmult_1_r by lra.
    replace (v * (step * ((INR k + 1 + 1) * (INR k + 1 + 1)))) with (2 * (2 * step * (a * a) * v)) by (unfold a; field).
    assert (2 * step * (a * a) * v <= D); [|lra].
    destruct (Rle_or_lt v 0) as [Hv|Hv].
    - assert (0 <= 2 * step * (a * a)).
      { apply Rmult_le_pos; [lra|]. unfold a. apply Rmult_le_pos; lra. }
      nra.
    - apply Rle_trans with (2 * step * T * v); [|lra]. apply Rmult_le_compat_r; [lra|]. apply Rmult_le_compat_l; lra.
  Qed.
End Fista.

(** *** power iterations *)
Lemma normalize_some v u : normalize v = Some u -> nrm2 u = 1 /\ u = rscale (/ nrm v) v /\ nrm v <> 0 /\ length u = length v.
Proof.
  unfold normalize. destruct (Reqb (nrm v) 0) eqn:E; [discriminate|]. intros H. injection H as <-.
  apply Reqb_false in E. repeat split; auto; [|vl]. unfold nrm2. rewrite rdot_scale_l, rdot_scale_r.
  rewrite <- (nrm_sq v). field. auto.
Qed.
Lemma normalize_none v : normalize v = None -> nrm v = 0.
Proof. unfold normalize. destruct (Reqb (nrm v) 0) eqn:E; [|discriminate]. intros _. now apply Reqb_true in E. Qed.
Lemma psd_cauchy n A x y : linear_op n n A -> symmetric_op n A -> psd_op n A -> length x = n -> length y = n ->
  rdot x (A y) * rdot x (A y) <= rdot x (A x) * rdot y (A y).
Proof.
  intros [L1 [L2 L3]] SA PA Hx Hy.
  assert (Q : forall t, 0 <= rdot x (A x) + 2 * t * rdot x (A y) + t * t * rdot y (A y)).
  { intros t. pose proof (PA (radd x (rscale t y)) ltac:(vl)) as H.
    rewrite L2, L3 in H by vl. pose proof (L1 x Hx). pose proof (L1 y Hy). revert H. vdot.
    replace (rdot y (A x)) with (rdot x (A y)) by (rewrite (rdot_sym y), SA; auto).
    intros H. replace (rdot x (A x) + 2 * t * rdot x (A y) + t * t * rdot y (A y)) with (rdot x (A x) + t * rdot x (A y) + t * (rdot x (A y) + t * rdot y (A y))) by ring. lra. }
  pose proof (PA x Hx) as P1. pose proof (PA y Hy) as P2.
  set (a := rdot x (A x)) in *. set (c := rdot y (A y)) in *. set (d := rdot x (A y)) in *.
  destruct (Req_dec c 0) as [E|E].
  - rewrite E in *. rewrite Rmult_0_r. destruct (Req_dec d 0) as [D|D]; [rewrite D; lra|].
    specialize (Q (- (a + 1) / (2 * d))). replace (2 * (- (a + 1) / (2 * d)) * d) with (- (a + 1)) in Q by (field; auto). lra.
  - specialize (Q (- d / c)).
    replace (a + 2 * (- d / c) * d + - d / c * (- d / c) * c) with ((a * c - d * d) / c) in Q by (field; auto).
    assert (0 <= (a * c - d * d) / c * c) by (apply Rmult_le_pos; lra).
    replace ((a * c - d * d) / c * c) with (a * c - d * d) in H by (field; auto). lra.
Qed.
Section Power.
  Variables (n : nat) (A : vec -> vec) (b : vec) (mx : nat) (tol : R).
  Hypothesis LA : linear_op n n A.
  Hypothesis Hb : length b = n.
  Notation cond := (power_cond mx tol).
  Notation body := (power_body A).
  Notation Rch := (reaches cond body (power_init b)).
  Lemma power_len k s : Rch k s -> length (pw_v s) = n /\ pw_it s = k.
  Proof.
    induction 1 as [|k s s' H [IH IHk] C E]; [now split|]. unfold power_body in E.
    destruct (normalize (pw_v s)) as [u|] eqn:En; [|discriminate]. injection E as <-. cbn.
    split; [|congruence]. apply LA. apply normalize_some in En as [_ [_ [_ ->]]]. auto.
  Qed.
  Lemma power_lim k s : Rch k s -> (k <= mx)%nat.
  Proof.
    intros H. destruct H as [|k s s' H C Hb']; [lia|]. apply power_len in H as [_ E].
    unfold power_cond in C. apply andb_true_iff in C as [C _]. apply Nat.ltb_lt in C. lia.
  Qed.
  Lemma power_every k s : Rch (S k) s -> exists u, length u = n /\ nrm2 u = 1 /\ pw_new s = rdot u (A u) /\ pw_v s = A u.
  Proof.
    intros H. destruct (reaches_S_inv H) as [s1 [H1 [C E]]]. unfold power_body in E.
    destruct (normalize (pw_v s1)) as [u|] eqn:En; [|discriminate]. injection E as <-. exists u. cbn.
    apply normalize_some in En as [E1 [_ [_ E2]]]. apply power_len in H1 as [H1 _]. repeat split; auto. congruence.
  Qed.
  Lemma power_step k s s' : Rch (S k) s -> body s = Some s' ->
    exists u, length u = n /\ nrm2 u = 1 /\ pw_new s = rdot u (A u) /\ pw_v s = A u /\ 0 < nrm2 (A u) /\
      pw_new s' = rdot (A u) (A (A u)) / nrm2 (A u) /\ pw_v s' = rscale (/ nrm (A u)) (A (A u)).
  Proof.
    intros H E. destruct (power_every H) as [u [Lu [Nu [E1 E2]]]]. exists u.
    unfold power_body in E. destruct (normalize (pw_v s)) as [u2|] eqn:En; [|discriminate]. injection E as <-.
    apply normalize_some in En as [_ [Eu [Nz _]]]. rewrite E2 in *. cbn [pw_new pw_v].
    assert (LAu : length (A u) = n) by now apply LA.
    assert (EA : A u2 = rscale (/ nrm (A u)) (A (A u))) by (rewrite Eu; now apply LA).
    rewrite EA. repeat split; auto.
    - unfold nrm2. rewrite <- (nrm_sq (A u)). pose proof (nrm_pos (A u)). apply Rmult_lt_0_compat; lra.
    - rewrite Eu, rdot_scale_l, rdot_scale_r. unfold nrm2. rewrite <- (nrm_sq (A u)). field. auto.
  Qed.
  Lemma power_mono : symmetric_op n A -> psd_op n A -> forall k s s', Rch (S k) s -> body s = Some s' -> pw_new s <= pw_new s'.
  Proof.
    intros SA PA k s s' H E. destruct (power_step H E) as [u [Lu [Nu [E1 [_ [Np [E2 _]]]]]]]. rewrite E1, E2.
    assert (LAu : length (A u) = n) by now apply LA.
    pose proof (cauchy_sq u (A u)) as C1. fold (nrm2 u) (nrm2 (A u)) in C1. rewrite Nu in C1.
    pose proof (psd_cauchy u (A u) LA SA PA Lu LAu) as C2.
    rewrite <- (SA u (A u) Lu LAu) in C2. fold (nrm2 (A u)) in C2.
    pose proof (PA u Lu) as P1. pose proof (PA (A u) LAu) as P3.
    set (m1 := rdot u (A u)) in *. set (m2 := nrm2 (A u)) in *. set (m3 := rdot (A u) (A (A u))) in *.
    apply Rmult_le_reg_r with m2; auto. unfold Rdiv. rewrite Rmult_assoc, Rinv_l, Rmult_1_r by lra.
    apply Rmult_le_reg_r with m2; auto.
    destruct (Rle_lt_or_eq_dec 0 m1 P1) as [Hp|Hz]; [|rewrite <- Hz; nra].
    apply Rle_trans with (m1 * (m1 * m3)); [|].
    - replace (m1 * m2 * m2) with (m1 * (m2 * m2)) by ring. apply Rmult_le_compat_l; lra.
    - replace (m1 * (m1 * m3)) with (m1 * m1 * m3) by ring. rewrite (Rmult_comm m3). apply Rmult_le_compat_r; lra.
  Qed.
  Lemma power_norm_mono : symmetric_op n A -> forall k s s', Rch (S k) s -> body s = Some s' -> nrm (pw_v s) <= nrm (pw_v s').
  Proof.
    intros SA k s s' H E. destruct (power_step H E) as [u [Lu [Nu [_ [E1 [Np [_ E2]]]]]]]. rewrite E1, E2.
    assert (LAu : length (A u) = n) by now apply LA. assert (LAAu : length (A (A u)) = n) by now apply LA.
    assert (P : 0 < nrm (A u)).
    { pose proof (nrm_pos (A u)) as N0. destruct (Rle_lt_or_eq_dec _ _ N0); auto. unfold nrm2 in Np. rewrite <- (nrm_sq (A u)) in Np. nra. }
    rewrite nrm_scale, Rabs_right by (apply Rle_ge, Rlt_le, Rinv_0_lt_compat; auto).
    apply Rmult_le_reg_l with (nrm (A u)); auto. rewrite <- Rmult_assoc, Rinv_r, Rmult_1_l by lra. rewrite nrm_sq.
    unfold nrm2. rewrite SA by auto. eapply Rle_trans; [apply cauchy_le|].
    assert (nrm u = 1) by (unfold nrm; fold (nrm2 u); rewrite Nu; apply sqrt_1). rewrite H0. lra.
  Qed.
  Lemma power_final fuel sol : power_iterations A b mx tol fuel = Done sol ->
    nrm (ps_v sol) = 1 /\ length (ps_v sol) = n /\ (ps_it sol <= mx)%nat /\
    ((0 < ps_it sol)%nat -> exists u, length u = n /\ nrm2 u = 1 /\ ps_s sol = rdot u (A u) /\ ps_v sol = rscale (/ nrm (A u)) (A u)).
  Proof.
    unfold power_iterations. destruct (while_ _ _ _ _) as [s| |] eqn:W; try discriminate.
    destruct (normalize (pw_v s)) as [v|] eqn:En; [|discriminate]. intros H. injection H as <-. cbn [ps_v ps_s ps_it].
    apply while_done in W as [k [_ [W C]]]. pose proof (power_len W) as [Ls Ek]. pose proof (power_lim W).
    apply normalize_some in En as [N1 [Ev [_ Lv]]].
    split; [unfold nrm; fold (nrm2 v); rewrite N1; apply sqrt_1|]. split; [congruence|]. split; [lia|].
    intros Hk. destruct k as [|k]; [lia|]. destruct (power_every W) as [u [Lu [Nu [E1 E2]]]].
    exists u. rewrite E2 in Ev. auto.
  Qed.
  Lemma power_stop fuel sol : power_iterations A b mx tol fuel = Done sol -> (2 <= ps_it sol < mx)%nat ->
    exists u1 u2, length u1 = n /\ nrm2 u1 = 1 /\ u2 = rscale (/ nrm (A u1)) (A u1) /\ nrm2 u2 = 1 /\
      ps_s sol = rdot u2 (A u2) /\ Rabs (rdot u2 (A u2) - rdot u1 (A u1)) <= tol * Rabs (rdot u1 (A u1)).
  Proof.
    unfold power_iterations. destruct (while_ _ _ _ _) as [s| |] eqn:W; try discriminate.
    destruct (normalize (pw_v s)) as [v|] eqn:En; [|discriminate]. intros H. injection H as <-. cbn [ps_v ps_s ps_it].
    apply while_done in W as [k [_ [W C]]]. pose proof (power_len W) as [Ls Ek]. intros Hk. rewrite Ek in Hk. destruct k as [|[|k]]; [lia|lia|].
    destruct (reaches_S_inv W) as [s1 [W1 [_ E]]]. destruct (power_every W1) as [u1 [Lu1 [Nu1 [E1 E2]]]].
    unfold power_body in E. destruct (normalize (pw_v s1)) as [u2|] eqn:En1; [|discriminate]. injection E as <-. cbn [pw_new pw_old pw_it pw_v] in *.
    apply normalize_some in En1 as [N1 [Ev [_ Lv]]]. rewrite E2 in Ev. exists u1, u2. repeat (split; [auto; fail|]).
    unfold power_cond in C. cbn [pw_new pw_old pw_it] in C. apply andb_false_iff in C as [C|C]; [apply Nat.ltb_ge in C; lia|].
    rewrite E1 in C. set (r1 := rdot u1 (A u1)) in *. set (r2 := rdot u2 (A u2)) in *. destruct (Reqb_spec r1 0) as [Z|Z].
    - destruct (Reqb_spec (r2 - r1) 0) as [Q|Q]; [|discriminate]. rewrite Q, Z, Rabs_R0. lra.
    - apply Rltb_false in C. assert (P : 0 < Rabs r1) by now apply Rabs_pos_lt. unfold Rdiv in C. rewrite Rabs_mult, Rabs_inv in C.
      apply Rmult_le_reg_r with (/ Rabs r1); [now apply Rinv_0_lt_compat|]. rewrite (Rmult_assoc tol), Rinv_r by lra. lra.
  Qed.
  Lemma power_total fuel : (forall x, length x = n -> x <> rzero n -> A x <> rzero n) -> b <> rzero n -> (mx <= fuel)%nat ->
    exists sol, power_iterations A b mx tol fuel = Done sol.
  Proof.
    intros Inj Hb0 Hf.
    assert (NZ : forall k s, Rch k s -> pw_v s <> rzero n).
    { intros k s H. destruct k.
      - inversion H; subst; auto.
      - destruct (power_every H) as [u [Lu [Nu [_ ->]]]]. apply Inj; auto. intros ->.
        unfold nrm2 in Nu. rewrite rdot_zero_l in Nu. lra. }
    assert (NN : forall k s, Rch k s -> normalize (pw_v s) <> None).
    { intros k s H E. apply normalize_none in E. apply nrm_eq0 in E. apply (NZ k s H). rewrite E at 1. f_equal. now apply power_len in H. }
    unfold power_iterations.
    destruct (@while_total _ cond body (power_init b) fuel) as [s W].
    - intros k s H C. unfold power_body. specialize (NN k s H). destruct (normalize (pw_v s)); congruence.
    - intros k s H C. apply power_len in H as [_ E].
      unfold power_cond in C. apply andb_true_iff in C as [C _]. apply Nat.ltb_lt in C. lia.
    - rewrite W. apply while_done in W as [k [_ [W _]]]. specialize (NN k s W). destruct (normalize (pw_v s)); [eauto|congruence].
  Qed.
End Power.
Lemma power_zero_iters A b tol fuel v : normalize b = Some v -> power_iterations A b 0 tol (S fuel) = Done (PowerSolution v (10 ^ 20) 0).
Proof. intros H. unfold power_iterations. cbn [while_]. unfold power_cond at 1. cbn [power_init pw_it Nat.ltb Nat.leb andb pw_v pw_new]. now rewrite H. Qed.
