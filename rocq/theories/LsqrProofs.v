(** LSQR: Golub-Kahan orthonormality, exact residual, optimality and norm
    estimates. *)
From Coq Require Import List Arith Bool Lia Reals Lra Psatz.
From Verif Require Import Scalar Vec RVec Loop OptProofs OptProofs2 SolverSpec LoopLemmas LinDep CGModel CGProofs SlsModel SlsProofs LsqrModel.
Import ListNotations.
Set Implicit Arguments.
Local Open Scope R_scope.

Lemma nrm_pair a b : nrm [a; b] * nrm [a; b] = a * a + b * b.
Proof. rewrite nrm_sq. cbn [rdot]. ring. Qed.
Lemma nrm_pair_pos a b : a <> 0 -> 0 < nrm [a; b].
Proof.
  intros H. pose proof (nrm_pos [a; b]) as P. pose proof (nrm_pair a b) as E.
  assert (0 < a * a) by nra. pose proof (Rle_0_sqr b). unfold Rsqr in *.
  destruct (Rle_lt_or_eq_dec _ _ P) as [|Z]; auto. rewrite <- Z in E. lra.
Qed.
Lemma unit_scaled u : u = rscale (nrm u) (unit_if_pos u (nrm u)) /\ length (unit_if_pos u (nrm u)) = length u /\
  (0 < nrm u -> nrm2 (unit_if_pos u (nrm u)) = 1) /\ (nrm u = 0 -> unit_if_pos u (nrm u) = rzero (length u)).
Proof.
  unfold unit_if_pos. pose proof (nrm_pos u) as P. destruct (Rltb_spec 0 (nrm u)) as [H|H].
  - repeat split; try vl; try lra.
    + veq. rewrite <- Rmult_assoc, Rinv_r by lra. ring.
    + intros _. unfold nrm2. rewrite rdot_scale_l, rdot_scale_r, <- (nrm_sq u). field. lra.
  - assert (Z : nrm u = 0) by lra. repeat split; try lra.
    + rewrite Z at 1. apply nrm_eq0 in Z. rewrite Z. veq. 
    + intros _. now apply nrm_eq0.
Qed.
Lemma fdiv_inv a b c : fdiv a b = Some c -> b <> 0 /\ c = a / b.
Proof. unfold fdiv. destruct (Reqb_spec b 0); [discriminate|]. intros H. injection H as <-. auto. Qed.
Lemma fdiv_def a b : b <> 0 -> fdiv a b = Some (a / b).
Proof. unfold fdiv. destruct (Reqb_spec b 0); congruence. Qed.

Lemma id_linear n : linear_op n n (fun x => x).
Proof. repeat split; auto. Qed.
(** what one iteration does *)
Lemma lsqr_body_inv A damp s s' : lsqr_body A damp s = Some s' ->
  exists rb1 rho cs1 sn1 cs sn irho,
    rb1 = nrm [lq_rho_bar s; damp] /\ 0 < rb1 /\ 0 < rho /\ rho = nrm [rb1; lq_beta s'] /\
    lq_rho_bar s = cs1 * rb1 /\ damp = sn1 * rb1 /\ sn1 * sn1 = 1 - cs1 * cs1 /\
    rb1 = cs * rho /\ lq_beta s' = sn * rho /\ sn * sn = 1 - cs * cs /\ irho * rho = 1 /\
    lq_beta s' = nrm (rsub (so_times A (lq_v s)) (rscale (lq_alpha s) (lq_u s))) /\
    lq_u s' = unit_if_pos (rsub (so_times A (lq_v s)) (rscale (lq_alpha s) (lq_u s))) (lq_beta s') /\
    lq_alpha s' = nrm (rsub (so_trans A (lq_u s')) (rscale (lq_beta s') (lq_v s))) /\
    lq_v s' = unit_if_pos (rsub (so_trans A (lq_u s')) (rscale (lq_beta s') (lq_v s))) (lq_alpha s') /\
    lq_rho_bar s' = - cs * lq_alpha s' /\ lq_phi_bar s' = sn * (cs1 * lq_phi_bar s) /\
    lq_x s' = radd (lq_x s) (rscale (cs * (cs1 * lq_phi_bar s) * irho) (lq_w s)) /\
    lq_w s' = radd (lq_v s') (rscale (- (sn * lq_alpha s') * irho) (lq_w s)) /\
    lq_cum_psi_sqr s' = lq_cum_psi_sqr s + sn1 * lq_phi_bar s * (sn1 * lq_phi_bar s) /\
    lq_r_norm s' = sqrt (lq_phi_bar s' * lq_phi_bar s' + lq_cum_psi_sqr s') /\
    lq_atr_norm s' = lq_alpha s' * Rabs (sn * (cs * (cs1 * lq_phi_bar s))) /\
    (exists icg igam zb, lq_cs2 s <> 0 /\ icg * lq_cs2 s = 1 /\ igam <> 0 /\
      zb = icg * (lq_sn2 s * lq_z s - cs * (cs1 * lq_phi_bar s) * irho) /\
      lq_cs2 s' = - lq_cs2 s * rho * igam /\ lq_sn2 s' = sn * lq_alpha s' * igam /\
      lq_sn2 s' * lq_sn2 s' = 1 - lq_cs2 s' * lq_cs2 s' /\
      lq_z s' = lq_cs2 s' * zb /\ lq_cum_z_sqr s' = lq_cum_z_sqr s + lq_z s' * lq_z s' /\
      lq_x_norm s' = sqrt (lq_cum_z_sqr s + zb * zb)) /\
    lq_it s' = S (lq_it s) /\ lq_n_times s' = S (lq_n_times s) /\ lq_n_trans s' = S (lq_n_trans s).
Proof.
  unfold lsqr_body. intros H.
  set (u1 := rsub (so_times A (lq_v s)) (rscale (lq_alpha s) (lq_u s))) in *.
  set (be := nrm u1) in *. set (u2 := unit_if_pos u1 be) in *.
  set (v1 := rsub (so_trans A u2) (rscale be (lq_v s))) in *. set (al := nrm v1) in *.
  set (v2 := unit_if_pos v1 al) in *. set (rb1 := nrm [lq_rho_bar s; damp]) in *. cbv zeta in H.
  destruct (fdiv (lq_rho_bar s) rb1) as [cs1|] eqn:E1; [|discriminate].
  destruct (fdiv damp rb1) as [sn1|] eqn:E2; [|discriminate].
  set (rho := nrm [rb1; be]) in *.
  destruct (fdiv rb1 rho) as [cs|] eqn:E3; [|discriminate].
  destruct (fdiv be rho) as [sn|] eqn:E4; [|discriminate].
  destruct (fdiv (cs * (cs1 * lq_phi_bar s)) rho) as [t1|] eqn:E5; [|discriminate].
  destruct (fdiv (- (sn * al)) rho) as [t2|] eqn:E6; [|discriminate].
  set (gb := - lq_cs2 s * rho) in *.
  destruct (fdiv _ gb) as [zb|] eqn:E7; [|discriminate].
  set (gam := nrm [gb; sn * al]) in *.
  destruct (fdiv gb gam) as [cs2|] eqn:E8; [|discriminate].
  destruct (fdiv (sn * al) gam) as [sn2|] eqn:E9; [|discriminate].
  destruct (fdiv (cs * (cs1 * lq_phi_bar s) - lq_sn2 s * rho * lq_z s) gam) as [z|] eqn:E10; [|discriminate].
  injection H as <-. cbn [lq_x lq_w lq_u lq_v lq_alpha lq_beta lq_rho_bar lq_phi_bar lq_z lq_cs2 lq_sn2 lq_cum_z_sqr lq_cum_psi_sqr lq_x_norm lq_r_norm lq_atr_norm lq_it lq_n_times lq_n_trans].
  apply fdiv_inv in E1 as [N1 ->], E2 as [_ ->], E3 as [N2 ->], E4 as [_ ->], E5 as [_ ->], E6 as [_ ->], E7 as [N3 ->], E8 as [N4 ->], E9 as [_ ->], E10 as [_ ->].
  pose proof (nrm_pos [lq_rho_bar s; damp]) as P1. fold rb1 in P1. pose proof (nrm_pos [rb1; be]) as P2. fold rho in P2.
  pose proof (nrm_pair (lq_rho_bar s) damp) as Q1. fold rb1 in Q1. pose proof (nrm_pair rb1 be) as Q2. fold rho in Q2.
  set (sn := be / rho) in *. set (cs := rb1 / rho) in *.
  pose proof (nrm_pair gb (sn * al)) as Q3. fold gam in Q3.
  exists rb1, rho, (lq_rho_bar s / rb1), (damp / rb1), cs, sn, (/ rho).
  assert (C2 : lq_cs2 s <> 0) by (intros Z; apply N3; unfold gb; rewrite Z; ring).
  split; [reflexivity|]. split; [lra|]. split; [lra|]. split; [reflexivity|]. split; [now field|]. split; [now field|].
  split; [field_simplify_eq; auto; lra|]. split; [unfold cs; now field|]. split; [unfold sn; now field|].
  split; [unfold cs, sn; field_simplify_eq; auto; lra|]. split; [now field|]. do 4 (split; [reflexivity|]).
  split; [reflexivity|]. split; [reflexivity|]. split; [reflexivity|]. split; [reflexivity|]. split; [ring|].
  split; [f_equal; ring|]. split; [reflexivity|]. split; [|repeat split; reflexivity].
  exists (/ lq_cs2 s), (/ gam), ((lq_sn2 s * lq_z s - cs * (lq_rho_bar s / rb1 * lq_phi_bar s) * / rho) * / lq_cs2 s).
  split; [auto|]. split; [now field|]. split; [now apply Rinv_neq_0_compat|]. split; [ring|]. split; [reflexivity|]. split; [reflexivity|].
    split; [field_simplify_eq; auto; lra|].
    assert (Z : (cs * (lq_rho_bar s / rb1 * lq_phi_bar s) - lq_sn2 s * rho * lq_z s) / gb
      = (lq_sn2 s * lq_z s - cs * (lq_rho_bar s / rb1 * lq_phi_bar s) * / rho) * / lq_cs2 s) by (unfold gb; field; repeat split; auto).
    split; [rewrite <- Z; field; split; auto|]. split; [ring|]. rewrite Z. f_equal. ring.
Qed.
Lemma lsqr_body_some A damp s : lq_rho_bar s <> 0 -> lq_cs2 s <> 0 -> lsqr_body A damp s <> None.
Proof.
  intros H1 H2. unfold lsqr_body. cbv zeta.
  set (u1 := rsub (so_times A (lq_v s)) (rscale (lq_alpha s) (lq_u s))).
  set (be := nrm u1). set (u2 := unit_if_pos u1 be).
  set (v1 := rsub (so_trans A u2) (rscale be (lq_v s))). set (al := nrm v1).
  pose proof (nrm_pair_pos damp H1) as P1. set (rb1 := nrm [lq_rho_bar s; damp]) in *.
  rewrite !(@fdiv_def _ rb1) by lra.
  assert (P2 : 0 < nrm [rb1; be]) by (apply nrm_pair_pos; lra). set (rho := nrm [rb1; be]) in *.
  rewrite !(@fdiv_def _ rho) by lra.
  assert (P3 : - lq_cs2 s * rho <> 0) by (apply Rmult_integral_contrapositive; split; lra).
  rewrite (@fdiv_def _ (- lq_cs2 s * rho)) by auto.
  pose proof (nrm_pair_pos (be / rho * al) P3) as P4.
  rewrite !(@fdiv_def _ (nrm [- lq_cs2 s * rho; be / rho * al])) by lra. discriminate.
Qed.

Section Lsqr.
  Variables (n m : nat) (A : simple_op) (b x0 : vec) (damp atol btol conlim : R) (mx : nat).
  Hypothesis HA : adjoint_ops n m (so_times A) (so_trans A).
  Hypothesis Hb : length b = m.
  Hypothesis Hx0 : length x0 = n.
  Notation T := (so_times A).
  Notation T' := (so_trans A).
  Notation init := (lsqr_init A b x0).
  Notation cond := (lsqr_cond A b x0 atol btol conlim mx).
  Notation body := (lsqr_body A damp).
  Notation Rch := (reaches cond body init).
  Lemma lsqr_counts k s : Rch k s -> lq_it s = S k /\ lq_n_times s = S k /\ lq_n_trans s = S k.
  Proof.
    induction 1 as [|k s s' H [I1 [I2 I3]] C E]; [repeat split|].
    destruct (lsqr_body_inv _ _ _ E) as (rb1 & rho & cs1 & sn1 & cs & sn & irho & F). decompose [and] F. repeat split; congruence.
  Qed.
  Lemma lsqr_cond_true s : cond s = true -> lq_r_norm init <> 0 /\ lq_atr_norm init <> 0 /\ (lq_it s < mx)%nat /\ 0 < lq_atr_norm s / lq_atr_norm init.
  Proof.
    unfold lsqr_cond. cbv zeta. intros C.
    destruct (Reqb_spec (lq_r_norm init) 0); [discriminate|]. destruct (Reqb_spec (lq_atr_norm init) 0); [discriminate|].
    cbn [orb] in C. rewrite !andb_true_iff in C. destruct C as [[[[[[C1 C2] C3] C4] C5] C6] C7].
    apply Nat.ltb_lt in C1. apply Rltb_true in C3. repeat split; auto. lra.
  Qed.
  Lemma atr_init_pos : 0 <= lq_atr_norm init.
  Proof. cbn [lsqr_init lq_atr_norm]. apply Rmult_le_pos; apply nrm_pos. Qed.
  Lemma lsqr_alpha_pos k s : Rch k s -> 0 <= lq_alpha s /\ 0 <= lq_beta s.
  Proof.
    intros H. destruct H as [|k s s' H C E]; [split; apply nrm_pos|].
    destruct (lsqr_body_inv _ _ _ E) as (rb1 & rho & cs1 & sn1 & cs & sn & irho & F). decompose [and] F. clear F.
    match goal with H : lq_alpha s' = _ |- _ => rewrite H end. match goal with H : lq_beta s' = nrm _ |- _ => rewrite H end.
    split; apply nrm_pos.
  Qed.
  Lemma lsqr_good k s : Rch k s -> cond s = true -> 0 < lq_alpha s /\ 0 < lq_beta s.
  Proof.
    intros H C. pose proof (lsqr_alpha_pos H) as [P1 P2]. destruct (lsqr_cond_true _ C) as [N1 [N2 [_ Q]]].
    assert (QQ : lq_alpha s <> 0 /\ lq_beta s <> 0).
    { assert (Z : lq_atr_norm s <> 0) by (intros Z; rewrite Z in Q; unfold Rdiv in Q; rewrite Rmult_0_l in Q; lra).
      destruct H as [|k s s' H C' E].
      - split; intros Z0; apply Z; cbn [lsqr_init lq_atr_norm lq_alpha lq_beta] in *; rewrite Z0; ring.
      - destruct (lsqr_body_inv _ _ _ E) as (rb1 & rho & cs1 & sn1 & cs & sn & irho & F). decompose [and] F. clear F.
        assert (Ea : lq_atr_norm s' = lq_alpha s' * Rabs (sn * (cs * (cs1 * lq_phi_bar s)))) by auto.
        assert (Eb : lq_beta s' = sn * rho) by auto. assert (0 < rho) by auto.
        split; intros Z0; apply Z; rewrite Ea; [rewrite Z0; ring|].
        rewrite Z0 in Eb. assert (sn = 0) by (destruct (Rmult_integral sn rho (eq_sym Eb)); lra). subst sn.
        rewrite Rmult_0_l, Rabs_R0. ring. }
    lra.
  Qed.
  Lemma lsqr_rest k s : Rch k s -> length (lq_u s) = m /\ length (lq_v s) = n /\ length (lq_x s) = n /\ length (lq_w s) = n.
  Proof.
    destruct HA as [[LT _] [[LT' _] _]].
    induction 1 as [|k s s' H [I1 [I2 [I3 I4]]] C E].
    - cbn [lsqr_init lq_u lq_v lq_x lq_w]. pose proof (LT x0 Hx0).
      assert (length (unit_if_pos (rsub b (T x0)) (nrm (rsub b (T x0)))) = m) by (rewrite (proj1 (proj2 (unit_scaled _))); vl).
      assert (length (unit_if_pos (T' (unit_if_pos (rsub b (T x0)) (nrm (rsub b (T x0))))) (nrm (T' (unit_if_pos (rsub b (T x0)) (nrm (rsub b (T x0))))))) = n).
      { rewrite (proj1 (proj2 (unit_scaled _))). now apply LT'. }
      auto.
    - destruct (lsqr_body_inv _ _ _ E) as (rb1 & rho & cs1 & sn1 & cs & sn & irho & F). decompose [and] F. clear F.
      assert (Lu : length (lq_u s') = m).
      { match goal with H : lq_u s' = _ |- _ => rewrite H end. match goal with H : lq_beta s' = nrm _ |- _ => rewrite H end.
        rewrite (proj1 (proj2 (unit_scaled _))). pose proof (LT _ I2). vl. }
      assert (Lv : length (lq_v s') = n).
      { match goal with H : lq_v s' = _ |- _ => rewrite H end. match goal with H : lq_alpha s' = nrm _ |- _ => rewrite H end.
        rewrite (proj1 (proj2 (unit_scaled _))). pose proof (LT' _ Lu). vl. }
      repeat split; auto.
      + match goal with H : lq_x s' = _ |- _ => rewrite H end. vl.
      + match goal with H : lq_w s' = _ |- _ => rewrite H end. vl.
  Qed.
  (** the bidiagonalisation relations *)
  Lemma gk_init : nrm (rsub b (T x0)) = lq_beta init /\ rsub b (T x0) = rscale (lq_beta init) (lq_u init) /\ T' (lq_u init) = rscale (lq_alpha init) (lq_v init) /\
    (0 < lq_beta init -> nrm2 (lq_u init) = 1) /\ (0 < lq_alpha init -> nrm2 (lq_v init) = 1) /\ (lq_alpha init = 0 -> lq_v init = rzero n).
  Proof.
    cbn [lsqr_init lq_u lq_v lq_alpha lq_beta]. set (r := rsub b (T x0)).
    destruct (unit_scaled r) as [E1 [E2 [E3 E4]]]. set (u := unit_if_pos r (nrm r)) in *.
    destruct (unit_scaled (T' u)) as [F1 [F2 [F3 F4]]]. repeat split; auto.
    intros Z. rewrite F4 by auto. f_equal. apply HA. rewrite E2. pose proof (proj1 (proj1 HA) x0 Hx0). unfold r. vl.
  Qed.
  Lemma gk_step k s s' : Rch k s -> body s = Some s' ->
    T (lq_v s) = radd (rscale (lq_alpha s) (lq_u s)) (rscale (lq_beta s') (lq_u s')) /\
    T' (lq_u s') = radd (rscale (lq_beta s') (lq_v s)) (rscale (lq_alpha s') (lq_v s')) /\
    (0 < lq_beta s' -> nrm2 (lq_u s') = 1) /\ (0 < lq_alpha s' -> nrm2 (lq_v s') = 1) /\
    (lq_beta s' = 0 -> lq_u s' = rzero m) /\ (lq_alpha s' = 0 -> lq_v s' = rzero n).
  Proof.
    intros H E. destruct (lsqr_rest H) as [Lu [Lv [Lx Lw]]]. pose proof HA as [[LT _] [[LT' _] _]]. pose proof (LT _ Lv) as LTv.
    destruct (lsqr_body_inv _ _ _ E) as (rb1 & rho & cs1 & sn1 & cs & sn & irho & F). decompose [and] F. clear F.
    assert (Eb : lq_beta s' = nrm (rsub (T (lq_v s)) (rscale (lq_alpha s) (lq_u s)))) by auto.
    assert (Eu : lq_u s' = unit_if_pos (rsub (T (lq_v s)) (rscale (lq_alpha s) (lq_u s))) (lq_beta s')) by auto.
    assert (Ea : lq_alpha s' = nrm (rsub (T' (lq_u s')) (rscale (lq_beta s') (lq_v s)))) by auto.
    assert (Ev : lq_v s' = unit_if_pos (rsub (T' (lq_u s')) (rscale (lq_beta s') (lq_v s))) (lq_alpha s')) by auto.
    set (u1 := rsub (T (lq_v s)) (rscale (lq_alpha s) (lq_u s))) in *.
    destruct (unit_scaled u1) as [E1 [E2 [E3 E4]]]. rewrite <- Eb, <- Eu in *.
    assert (L1 : length u1 = m) by (unfold u1; vl).
    set (v1 := rsub (T' (lq_u s')) (rscale (lq_beta s') (lq_v s))) in *.
    destruct (unit_scaled v1) as [F1 [F2 [F3 F4]]]. rewrite <- Ea, <- Ev in *.
    assert (Lu' : length (lq_u s') = m) by congruence. pose proof (LT' _ Lu').
    assert (L2 : length v1 = n) by (unfold v1; vl).
    repeat split; auto.
    - rewrite <- E1. unfold u1. veq.
    - rewrite <- F1. unfold v1. veq.
    - intros Z. rewrite E4 by auto. now rewrite L1.
    - intros Z. rewrite F4 by auto. now rewrite L2.
  Qed.
  Section Run.
    Variables (K : nat) (sK : lsqr_state).
    Hypothesis HK : Rch K sK.
    Let S_ := traj cond body init.
    Let U j := lq_u (S_ j). Let V j := lq_v (S_ j). Let al j := lq_alpha (S_ j). Let be j := lq_beta (S_ j).
    Let rch j : (j <= K)%nat -> Rch j (S_ j). Proof. intros H. apply (traj_reaches HK). auto. Qed.
    Let stp j : (j < K)%nat -> cond (S_ j) = true /\ body (S_ j) = Some (S_ (S j)). Proof. intros H. apply (traj_step HK). auto. Qed.
    Let good j : (j < K)%nat -> 0 < al j /\ 0 < be j.
    Proof. intros H. apply (lsqr_good (rch (Nat.lt_le_incl _ _ H))). now apply stp. Qed.
    Let LU j : (j <= K)%nat -> length (U j) = m. Proof. intros H. apply (lsqr_rest (rch H)). Qed.
    Let LV j : (j <= K)%nat -> length (V j) = n. Proof. intros H. apply (lsqr_rest (rch H)). Qed.
    Let gT j : (j < K)%nat -> T (V j) = radd (rscale (al j) (U j)) (rscale (be (S j)) (U (S j))).
    Proof. intros H. apply (gk_step (rch (Nat.lt_le_incl _ _ H)) (proj2 (stp H))). Qed.
    Let gT' j : (j < K)%nat -> T' (U (S j)) = radd (rscale (be (S j)) (V j)) (rscale (al (S j)) (V (S j))).
    Proof. intros H. apply (gk_step (rch (Nat.lt_le_incl _ _ H)) (proj2 (stp H))). Qed.
    Let gT0 : T' (U 0%nat) = rscale (al 0%nat) (V 0%nat). Proof. apply gk_init. Qed.
    Let nU j : (j <= K)%nat -> 0 < be j -> nrm2 (U j) = 1.
    Proof.
      intros H. destruct j; [apply gk_init|]. apply (gk_step (k:=j) (s:=S_ j)); [apply rch; lia|apply stp; lia].
    Qed.
    Let nV j : (j <= K)%nat -> 0 < al j -> nrm2 (V j) = 1.
    Proof.
      intros H. destruct j; [apply gk_init|]. apply (gk_step (k:=j) (s:=S_ j)); [apply rch; lia|apply stp; lia].
    Qed.
    Let zU j : (j < K)%nat -> be (S j) = 0 -> U (S j) = rzero m.
    Proof. intros H. apply (gk_step (rch (Nat.lt_le_incl _ _ H)) (proj2 (stp H))). Qed.
    Let zV j : (j < K)%nat -> al (S j) = 0 -> V (S j) = rzero n.
    Proof. intros H. apply (gk_step (rch (Nat.lt_le_incl _ _ H)) (proj2 (stp H))). Qed.
    Lemma gk_orth k : (k <= K)%nat -> forall i j, (i < j <= k)%nat -> rdot (U i) (U j) = 0 /\ rdot (V i) (V j) = 0.
    Proof.
      destruct HA as [[LT _] [[LT' _] Adj]].
      induction k as [|k IH]; intros Hk i j Hij; [lia|].
      destruct (Nat.eq_dec j (S k)) as [->|]; [|apply IH; lia].
      assert (IH' := IH ltac:(lia)). clear IH.
      (* orthogonality below, with unit norms *)
      assert (UU : forall i, (i <= k)%nat -> rdot (U i) (U k) = if Nat.eq_dec i k then 1 else 0).
      { intros a Ha. destruct (Nat.eq_dec a k) as [->|]; [|apply IH'; lia]. apply nU; [lia|]. apply good. lia. }
      assert (VV : forall i, (i <= k)%nat -> rdot (V i) (V k) = if Nat.eq_dec i k then 1 else 0).
      { intros a Ha. destruct (Nat.eq_dec a k) as [->|]; [|apply IH'; lia]. apply nV; [lia|]. apply good. lia. }
      assert (PU : forall i, (i <= k)%nat -> rdot (U i) (U (S k)) = 0).
      { intros a Ha. destruct (Req_dec (be (S k)) 0) as [Z|Z].
        - rewrite zU by (auto; lia). apply rdot_zero_r.
        - assert (E : be (S k) * rdot (U a) (U (S k)) = 0); [|apply Rmult_integral in E as [|]; [lra|auto]].
          assert (E : rdot (U a) (T (V k)) = al k * rdot (U a) (U k) + be (S k) * rdot (U a) (U (S k))).
          { rewrite gT by lia. pose proof (LU (j:=a) ltac:(lia)). pose proof (LU (j:=k) ltac:(lia)). pose proof (LU (j:=S k) ltac:(lia)). vdot. ring. }
          assert (E2 : rdot (U a) (T (V k)) = if Nat.eq_dec a k then al k else 0).
          { rewrite rdot_sym, Adj by (try apply LU; try apply LV; lia). rewrite rdot_sym. destruct a as [|a].
            - rewrite gT0, rdot_scale_l, VV by lia. destruct (Nat.eq_dec 0 k) as [<-|]; ring.
            - rewrite gT' by lia. pose proof (LV (j:=a) ltac:(lia)). pose proof (LV (j:=S a) ltac:(lia)). pose proof (LV (j:=k) ltac:(lia)).
              vdot. rewrite (VV a), (VV (S a)) by lia. destruct (Nat.eq_dec a k); [lia|]. destruct (Nat.eq_dec (S a) k) as [<-|]; ring. }
          rewrite UU in E by lia. destruct (Nat.eq_dec a k); lra. }
      split; [apply PU; lia|].
      destruct (Req_dec (al (S k)) 0) as [Z|Z].
      - rewrite zV by (auto; lia). apply rdot_zero_r.
      - assert (E : al (S k) * rdot (V i) (V (S k)) = 0); [|apply Rmult_integral in E as [|]; [lra|auto]].
        assert (E : rdot (V i) (T' (U (S k))) = be (S k) * rdot (V i) (V k) + al (S k) * rdot (V i) (V (S k))).
        { rewrite gT' by lia. pose proof (LV (j:=i) ltac:(lia)). pose proof (LV (j:=k) ltac:(lia)). pose proof (LV (j:=S k) ltac:(lia)). vdot. ring. }
        assert (E2 : rdot (V i) (T' (U (S k))) = if Nat.eq_dec i k then be (S k) else 0).
        { rewrite <- Adj by (try apply LU; try apply LV; lia). rewrite gT by lia.
          pose proof (LU (j:=i) ltac:(lia)). pose proof (LU (j:=S i) ltac:(lia)). pose proof (LU (j:=S k) ltac:(lia)). vdot.
          rewrite (PU i) by lia. destruct (Nat.eq_dec i k) as [->|].
          - destruct (Req_dec (be (S k)) 0) as [Zb|Zb]; [rewrite Zb; ring|].
            fold (nrm2 (U (S k))). rewrite nU; [ring|lia|]. pose proof (lsqr_alpha_pos (rch (j:=S k) ltac:(lia))) as [_ P]. unfold be in *. lra.
          - rewrite (PU (S i)) by lia. ring. }
        rewrite VV in E by lia. destruct (Nat.eq_dec i k); lra.
    Qed.
    Let O j k : (j < k <= K)%nat -> rdot (U j) (U k) = 0. Proof. intros H. apply (gk_orth (k:=k) ltac:(lia)). lia. Qed.
    Let OV j k : (j < k <= K)%nat -> rdot (V j) (V k) = 0. Proof. intros H. apply (gk_orth (k:=k) ltac:(lia)). lia. Qed.
    (** residual part of the invariant *)
    Definition res_inv (k : nat) : Prop := exists Gu Gv eu ev, 
      length Gu = m /\ length eu = m /\ length Gv = n /\ length ev = n /\ T (lq_x (S_ k)) = rsub b (radd (rscale (lq_phi_bar (S_ k)) Gu) eu) /\ rscale damp (rsub x0 (lq_x (S_ k))) = radd (rscale (lq_phi_bar (S_ k)) Gv) ev /\ T (lq_w (S_ k)) = radd (rscale (lq_rho_bar (S_ k)) Gu) (rsub (T (V k)) (rscale (al k) (U k))) /\ rscale damp (lq_w (S_ k)) = radd (rscale (lq_rho_bar (S_ k)) Gv) (rscale damp (V k)) /\ radd (T' Gu) (rscale damp Gv) = rscale (lq_rho_bar (S_ k)) (V k) /\ radd (T' eu) (rscale damp ev) = rzero n /\ (be k = 0 \/ nrm2 Gu + nrm2 Gv = 1) /\ rdot Gu eu + rdot Gv ev = 0 /\ nrm2 eu + nrm2 ev = lq_cum_psi_sqr (S_ k) /\ (forall j, (k < j <= K)%nat -> rdot Gu (U j) = 0 /\ rdot eu (U j) = 0) /\ (forall j, (k <= j <= K)%nat -> rdot Gv (V j) = 0 /\ rdot ev (V j) = 0) /\ (be k = 0 -> lq_phi_bar (S_ k) = 0) /\ (al k <> 0 -> lq_rho_bar (S_ k) <> 0) /\ lq_r_norm (S_ k) = sqrt (lq_phi_bar (S_ k) * lq_phi_bar (S_ k) + lq_cum_psi_sqr (S_ k)) /\ lq_atr_norm (S_ k) = Rabs (lq_phi_bar (S_ k) * lq_rho_bar (S_ k)).
    Lemma res_inv_all k : (k <= K)%nat -> res_inv k.
    Proof.
      pose proof HA as [[LT [AT ST]] [[LT' [AT' ST']] Adj]].
      induction k as [|k IH]; intros Hk.
      - exists (U 0%nat), (rzero n), (rzero m), (rzero n). unfold U, V, al, be, S_. rewrite traj_0.
        pose proof gk_init as [Ebn [Er [Et [N1 [N2 N3]]]]].
        destruct (lsqr_rest (reach_0 cond body init)) as [L1 [L2 [L3 L4]]].
        pose proof (LT x0 Hx0) as LTx.
        change (lq_x init) with x0. change (lq_w init) with (lq_v init). change (lq_rho_bar init) with (lq_alpha init).
        change (lq_phi_bar init) with (lq_beta init). change (lq_cum_psi_sqr init) with 0.
        change (lq_r_norm init) with (lq_beta init). change (lq_atr_norm init) with (lq_alpha init * lq_beta init).
        pose proof (LT _ L2). pose proof (LT' _ L1).
        pose proof (lsqr_alpha_pos (reach_0 cond body init)) as [P1 P2].
        split; [auto|]. split; [vl|]. split; [vl|]. split; [vl|].
        split; [rewrite <- Er; veq|]. split; [veq|]. split; [veq|]. split; [veq|]. split; [rewrite Et; veq|].
        split. { replace (T' (rzero m)) with (rzero n); [veq|]. symmetry. apply (@lin_zero m n T'). split; auto. }
        split. { destruct (Rle_lt_or_eq_dec _ _ P2) as [P|P]; [right|left; auto]. rewrite N1 by auto. unfold nrm2. rewrite rdot_zero_l. ring. }
        split; [rewrite rdot_zero_r, rdot_zero_l; ring|]. split; [unfold nrm2; rewrite !rdot_zero_l; ring|].
        split. { intros j Hj. split; [|apply rdot_zero_l]. apply (@O 0%nat j). lia. }
        split; [intros j Hj; rewrite !rdot_zero_l; auto|]. split; [auto|]. split; [auto|]. split.
        { rewrite Rplus_0_r, sqrt_square; auto. }
        rewrite Rabs_right; [ring|]. apply Rle_ge. now apply Rmult_le_pos.
      - destruct (IH ltac:(lia)) as (Gu & Gv & eu & ev & L1 & L2 & L3 & L4 & I1 & I2 & I3 & I4 & I5 & I6 & I7 & I8 & I9 & I10 & I11 & I12 & I13 & I14 & I15). clear IH.
        assert (Hk' : (k < K)%nat) by lia.
        destruct (stp Hk') as [C E]. destruct (good Hk') as [Pa Pb]. assert (Nb : nrm2 Gu + nrm2 Gv = 1) by (destruct I7; [lra|auto]).
        pose proof (gT Hk') as G1. pose proof (gT' Hk') as G2.
        pose proof (LU (j:=k) ltac:(lia)) as LUk. pose proof (LU Hk) as LUk'. pose proof (LV (j:=k) ltac:(lia)) as LVk. pose proof (LV Hk) as LVk'.
        destruct (lsqr_rest (rch (j:=k) ltac:(lia))) as [_ [_ [Lx Lw]]].
        destruct (lsqr_body_inv _ _ _ E) as (rb1 & rho & cs1 & sn1 & cs & sn & irho & F).
        destruct F as (_ & Prb & Prho & _ & Erb & Ed & R1 & Erb1 & Ebe & R2 & Ir & _ & _ & _ & _ & Erb' & Eph & Ex & Ew & Ecp & Ern & Eat & _ & _).
        fold (be (S k)) in Ebe. fold (al (S k)) in Erb', Ew, Eat. fold (V (S k)) in Ew.
        set (phb := lq_phi_bar (S_ k)) in *. set (rb := lq_rho_bar (S_ k)) in *.
        assert (Nv : nrm2 (V k) = 1) by (apply nV; auto; lia).
        (* Gu1 = cs1 Gu, Gv1 = cs1 Gv + sn1 v ; E = sn1 G - cs1 (0, v) *)
        exists (rsub (rscale (sn * cs1) Gu) (rscale cs (U (S k)))), (rscale sn (radd (rscale cs1 Gv) (rscale sn1 (V k)))),
          (radd eu (rscale (sn1 * phb * sn1) Gu)), (radd ev (rscale (sn1 * phb) (rsub (rscale sn1 Gv) (rscale cs1 (V k))))).
        split; [vl|]. split; [vl|]. split; [vl|]. split; [vl|].
        pose proof (LT _ Lx) as LTx. pose proof (LT _ Lw) as LTw. pose proof (LT' _ L1) as LTG. pose proof (LT' _ L2) as LTe. pose proof (LT' _ LUk') as LTU.
        assert (I3' : T (lq_w (S_ k)) = radd (rscale rb Gu) (rscale (be (S k)) (U (S k)))) by (rewrite I3, G1; veq).
        rewrite Erb', Eph, Ex.
        split.
        { rewrite AT, ST, I1, I3' by vl. rewrite Erb, Ebe, Erb1. veq; ring [R1 R2 Ir]. }
        split.
        { assert (D1 : rscale damp (rsub x0 (radd (lq_x (S_ k)) (rscale (cs * (cs1 * phb) * irho) (lq_w (S_ k))))) =
            rsub (rscale damp (rsub x0 (lq_x (S_ k)))) (rscale (cs * (cs1 * phb) * irho) (rscale damp (lq_w (S_ k))))) by veq.
          rewrite D1, I2, I4. rewrite Erb, Ed, Erb1. veq; ring [R1 R2 Ir]. }
        split.
        { rewrite Ew, AT, ST, I3' by vl. pose proof (LT _ LVk'). rewrite Erb, Ebe, Erb1. veq; ring [R1 R2 Ir]. }
        split.
        { rewrite Ew. assert (D1 : rscale damp (radd (V (S k)) (rscale (- (sn * al (S k)) * irho) (lq_w (S_ k)))) =
            radd (rscale damp (V (S k))) (rscale (- (sn * al (S k)) * irho) (rscale damp (lq_w (S_ k))))) by veq.
          rewrite D1, I4. rewrite Erb, Ed, Erb1. veq; ring [R1 R2 Ir]. }
        assert (TGe : T' Gu = rsub (rscale rb (V k)) (rscale damp Gv)) by (rewrite <- I5; veq).
        assert (Tee : T' eu = rscale (-1) (rscale damp ev)).
        { assert (Z : rsub (radd (T' eu) (rscale damp ev)) (rscale damp ev) = rsub (rzero n) (rscale damp ev)) by now rewrite I6.
          transitivity (rsub (radd (T' eu) (rscale damp ev)) (rscale damp ev)); [veq|]. rewrite Z. veq. }
        split.
        { assert (D : T' (rsub (rscale (sn * cs1) Gu) (rscale cs (U (S k)))) = rsub (rscale (sn * cs1) (T' Gu)) (rscale cs (T' (U (S k))))).
          { rewrite (@lin_sub m n T') by (try (split; auto); vl). now rewrite !ST' by auto. }
          rewrite D, TGe, G2. rewrite Erb, Ebe, Ed, Erb1. veq; ring [R1 R2 Ir]. }
        split.
        { rewrite AT', ST', TGe, Tee by vl. rewrite Erb, Ed, Erb1. veq; ring [R1 R2 Ir]. }
        destruct (I11 k ltac:(lia)) as [Q1 Q2]. destruct (I10 (S k) ltac:(lia)) as [Q3 Q4].
        unfold nrm2 in Nb, Nv, I9.
        split.
        { destruct (Req_dec (be (S k)) 0) as [Z|Z]; [now left|right].
          assert (Nu : rdot (U (S k)) (U (S k)) = 1).
          { apply nU; auto. pose proof (lsqr_alpha_pos (rch Hk)) as [_ P]. unfold be in *. lra. }
          unfold nrm2. vdot. rewrite (rdot_sym (U (S k)) Gu), Q3, Nu, (rdot_sym (V k) Gv), Q1, Nv.
          assert (Z1 : rdot Gu Gu = 1 - rdot Gv Gv) by lra. rewrite Z1. ring [R1 R2]. }
        split.
        { vdot. rewrite (rdot_sym (U (S k)) Gu), (rdot_sym (U (S k)) eu), Q3, Q4, (rdot_sym (V k) Gv), (rdot_sym (V k) ev), Q1, Q2, Nv.
          assert (Z1 : rdot Gu Gu = 1 - rdot Gv Gv) by lra. assert (Z2 : rdot Gu eu = - rdot Gv ev) by lra. rewrite Z1, Z2. ring [R1 R2]. }
        split.
        { unfold nrm2. vdot. rewrite Ecp, <- I9. rewrite (rdot_sym eu Gu), (rdot_sym (V k) Gv), (rdot_sym (V k) ev), (rdot_sym ev Gv), Q1, Q2, Nv.
          assert (Z1 : rdot Gu Gu = 1 - rdot Gv Gv) by lra. assert (Z2 : rdot Gu eu = - rdot Gv ev) by lra. rewrite Z1, Z2. ring [R1 R2]. }
        split.
        { intros j Hj. destruct (I10 j ltac:(lia)) as [W1 W2]. pose proof (LU (j:=j) ltac:(lia)). vdot. rewrite W1, W2, (@O (S k) j) by lia. split; ring. }
        split.
        { intros j Hj. destruct (I11 j ltac:(lia)) as [W1 W2]. pose proof (LV (j:=j) ltac:(lia)). vdot. rewrite W1, W2, (@OV k j) by lia. split; ring. }
        split.
        { intros Z. rewrite Z in Ebe. assert (sn = 0) by (symmetry in Ebe; apply Rmult_integral in Ebe as [|]; lra). subst sn. ring. }
        split.
        { intros Z Z2. assert (cs <> 0) by (intros Z3; rewrite Z3 in Erb1; lra). apply Rmult_integral in Z2 as [|]; lra. }
        split; [rewrite Ern, Eph; reflexivity|].
        rewrite Eat. replace (sn * (cs1 * phb) * (- cs * al (S k))) with (- (al (S k) * (sn * (cs * (cs1 * phb))))) by ring.
        rewrite Rabs_Ropp, (Rabs_mult (al (S k))), (Rabs_right (al (S k))); [reflexivity|]. apply Rle_ge. apply (lsqr_alpha_pos (rch Hk)).
    Qed.
    (** norm of x - x0 *)
    Definition x_inv (k : nat) : Prop := exists p, length p = n /\
      rsub (lq_x (S_ k)) x0 = rsub p (rscale (lq_sn2 (S_ k) * lq_z (S_ k)) (lq_w (S_ k))) /\
      lq_cs2 (S_ k) <> 0 /\ nrm2 p = lq_cum_z_sqr (S_ k) /\ rdot p (lq_w (S_ k)) = 0 /\
      (al k = 0 \/ lq_cs2 (S_ k) * lq_cs2 (S_ k) * nrm2 (lq_w (S_ k)) = 1) /\
      (forall j, (k < j <= K)%nat -> rdot p (V j) = 0 /\ rdot (lq_w (S_ k)) (V j) = 0) /\
      ((0 < k)%nat -> lq_x_norm (S_ k) = nrm (rsub (lq_x (S_ k)) x0)).
    Lemma x_inv_all k : (k <= K)%nat -> x_inv k.
    Proof.
      induction k as [|k IH]; intros Hk.
      - exists (rzero n). unfold S_, al. rewrite traj_0. cbn [lsqr_init lq_x lq_w lq_sn2 lq_z lq_cs2 lq_cum_z_sqr].
        pose proof gk_init as [_ [_ [_ [_ [N2 _]]]]]. destruct (lsqr_rest (reach_0 cond body init)) as [_ [L2 _]].
        pose proof (lsqr_alpha_pos (reach_0 cond body init)) as [P1 _].
        change (lq_v (S_ 0)) with (lq_v init). fold S_.
        split; [vl|]. split.
        { cbn [lsqr_init lq_v] in L2. veq. }
        split; [lra|]. split; [unfold nrm2; apply rdot_zero_l|]. split; [apply rdot_zero_l|]. split.
        { destruct (Rle_lt_or_eq_dec _ _ P1) as [P|P]; [right|left; auto]. specialize (N2 P). cbn [lsqr_init lq_v] in N2. rewrite N2. ring. }
        split; [|lia]. intros j Hj. split; [apply rdot_zero_l|]. exact (@OV 0%nat j ltac:(lia)).
      - destruct (IH ltac:(lia)) as (p & Lp & I1 & I2 & I3 & I4 & I5 & I6 & _). clear IH.
        assert (Hk' : (k < K)%nat) by lia.
        destruct (stp Hk') as [C E]. destruct (good Hk') as [Pa Pb].
        assert (Nw : lq_cs2 (S_ k) * lq_cs2 (S_ k) * nrm2 (lq_w (S_ k)) = 1) by (destruct I5; [lra|auto]).
        pose proof (LV Hk) as LVk'. destruct (lsqr_rest (rch (j:=k) ltac:(lia))) as [_ [_ [Lx Lw]]].
        destruct (lsqr_body_inv _ _ _ E) as (rb1 & rho & cs1 & sn1 & cs & sn & irho & F).
        destruct F as (_ & Prb & Prho & _ & Erb & Ed & R1 & Erb1 & Ebe & R2 & Ir & _ & _ & _ & _ & Erb' & Eph & Ex & Ew & Ecp & Ern & Eat & Fx & _).
        destruct Fx as (icg & igam & zb & C0 & Hicg & Hig & Ezb & Ecs2 & Esn2 & R3 & Ez & Ecum & Exn).
        fold (al (S k)) in Ew, Esn2. fold (V (S k)) in Ew.
        set (c2 := lq_cs2 (S_ k)) in *. set (c2' := lq_cs2 (S_ (S k))) in *. set (s2' := lq_sn2 (S_ (S k))) in *. set (w := lq_w (S_ k)) in *.
        set (c := sn * al (S k) * irho) in *. set (t := cs * (cs1 * lq_phi_bar (S_ k)) * irho) in *.
        assert (Key : c2' * c = - c2 * s2') by (rewrite Ecs2, Esn2; unfold c; ring [Ir]).
        assert (Ew' : lq_w (S_ (S k)) = rsub (V (S k)) (rscale c w)) by (rewrite Ew; unfold c; veq).
        assert (Xn : rsub (lq_x (S_ (S k))) x0 = rsub p (rscale (c2 * zb) w)).
        { rewrite Ex. transitivity (radd (rsub (lq_x (S_ k)) x0) (rscale t w)); [veq|]. rewrite I1, Ezb. veq. ring [Hicg]. }
        destruct (I6 (S k) ltac:(lia)) as [O1 O2].
        assert (Dz : al (S k) = 0 \/ nrm2 (V (S k)) = 1).
        { destruct (Req_dec (al (S k)) 0) as [|Z]; auto. right. apply nV; auto. pose proof (lsqr_alpha_pos (rch Hk)) as [P _]. unfold al in *. lra. }
        unfold x_inv. fold c2' s2'.
        exists (radd p (rscale (lq_z (S_ (S k))) (rsub (rscale s2' (V (S k))) (rscale (c2' * c2) w)))).
        split; [vl|]. split.
        { rewrite Xn, Ew', Ez. veq.
          assert (Kz : c2' * zb * (c2' * c2) - s2' * (c2' * zb) * c = c2 * zb).
          { replace (s2' * (c2' * zb) * c) with (s2' * zb * (c2' * c)) by ring. rewrite Key. ring [R3]. }
          match goal with |- _ = _ + c2' * zb * (_ * ?v - _ * ?ww) - _ => replace (c2 * zb * ww) with ((c2' * zb * (c2' * c2) - s2' * (c2' * zb) * c) * ww) by (rewrite Kz; reflexivity) end. fold s2'. ring. }
        split. { rewrite Ecs2. intros Z. apply Rmult_integral in Z as [Z|Z]; [|auto]. apply Rmult_integral in Z as [Z|Z]; lra. }
        unfold nrm2 in Nw, I3, Dz.
        assert (W2 : c2 * c2 * rdot w w = 1) by exact Nw.
        split.
        { unfold nrm2. vdot. rewrite (rdot_sym (V (S k)) p), (rdot_sym w p), (rdot_sym (V (S k)) w), O1, O2, I4, Ecum, <- I3.
          transitivity (rdot p p + lq_z (S_ (S k)) * lq_z (S_ (S k)) * (s2' * s2' * rdot (V (S k)) (V (S k)) + c2' * c2' * (c2 * c2 * rdot w w))); [ring|].
          rewrite W2. destruct Dz as [Z|Z].
          - assert (Z2 : s2' = 0) by (rewrite Esn2, Z; ring). replace (c2' * c2') with (1 - s2' * s2') by lra. rewrite Z2. ring.
          - rewrite Z, R3. ring. }
        split.
        { rewrite Ew'. vdot. rewrite (rdot_sym w (V (S k))), (rdot_sym (V (S k)) w), O1, O2, I4.
          destruct Dz as [Z|Z].
          - assert (s2' = 0) by (rewrite Esn2, Z; ring). assert (c = 0) by (unfold c; rewrite Z; ring). rewrite H, H0. ring.
          - rewrite Z. transitivity (lq_z (S_ (S k)) * (s2' + c2 * (c2' * c) * rdot w w)); [ring|]. rewrite Key.
            transitivity (lq_z (S_ (S k)) * (s2' - s2' * (c2 * c2 * rdot w w))); [ring|]. rewrite W2. ring. }
        split.
        { destruct Dz as [Z|Z]; [now left|right]. rewrite Ew'. unfold nrm2. vdot. rewrite (rdot_sym (V (S k)) w), O2, Z.
          transitivity (c2' * c2' + c2' * c * (c2' * c) * rdot w w); [ring|]. rewrite Key.
          replace (- c2 * s2' * (- c2 * s2') * rdot w w) with (s2' * s2' * (c2 * c2 * rdot w w)) by ring. rewrite W2. ring [R3]. }
        split.
        { intros j Hj. destruct (I6 j ltac:(lia)) as [W3 W4]. pose proof (LV (j:=j) ltac:(lia)). rewrite Ew'. vdot. rewrite W3, W4, (@OV (S k) j) by lia. split; ring. }
        intros _. rewrite Exn, Xn. unfold nrm. f_equal. vdot. rewrite (rdot_sym w p), I4, I3.
        transitivity (lq_cum_z_sqr (S_ k) + zb * zb * (c2 * c2 * rdot w w)); [rewrite W2; ring|ring].
    Qed.
    Lemma lsqr_never_none s : (K <= K)%nat -> cond sK = true -> s = sK -> body s <> None.
    Proof.
      intros _ C ->. pose proof (reaches_traj HK) as E. fold S_ in E.
      destruct (res_inv_all (le_n K)) as (Gu & Gv & eu & ev & F). destruct (x_inv_all (le_n K)) as (p & _ & _ & Hc & _).
      unfold al, be in F. rewrite E in *. apply lsqr_body_some; auto.
      destruct F as (_ & _ & _ & _ & _ & _ & _ & _ & _ & _ & _ & _ & _ & _ & _ & _ & H & _). apply H.
      apply Rgt_not_eq. now apply (lsqr_good HK).
    Qed.
    (** Krylov orthogonality *)
    Lemma krylov_orth i : (i < K)%nat -> forall y, length y = n -> (forall j, (j <= i)%nat -> rdot y (V j) = 0) ->
      rdot y (Nat.iter i (fun z => T' (T z)) (T' (rsub b (T x0)))) = 0 /\ length (Nat.iter i (fun z => T' (T z)) (T' (rsub b (T x0)))) = n.
    Proof.
      pose proof HA as [[LT [AT ST]] [[LT' [AT' ST']] Adj]].
      assert (L0 : forall i, length (Nat.iter i (fun z => T' (T z)) (T' (rsub b (T x0)))) = n).
      { induction i0; cbn [Nat.iter]; [apply LT'; pose proof (LT x0 Hx0); vl|]. now apply LT', LT. }
      induction i as [|i IH]; intros Hi y Ly Hy; split; auto; cbn [Nat.iter nat_rect].
      - pose proof gk_init as [_ [Er [Et _]]]. rewrite Er, ST' by (apply (lsqr_rest (reach_0 cond body init))).
        rewrite Et, !rdot_scale_r. specialize (Hy 0%nat (le_n _)). unfold V, S_ in Hy. rewrite traj_0 in Hy. rewrite Hy. ring.
      - fold (Nat.iter i (fun z => T' (T z)) (T' (rsub b (T x0)))).
        rewrite rdot_sym, (rdot_sym _ y), <- Adj, rdot_sym, Adj by (auto; now apply LT). rewrite rdot_sym.
        apply IH; [lia|now apply LT', LT|]. intros j Hj.
        rewrite rdot_sym, <- Adj, rdot_sym, Adj by (try apply LV; auto; try lia; now apply LT, LV; lia).
        rewrite gT by lia. pose proof (LU (j:=j) ltac:(lia)) as LUj. pose proof (LU (j:=S j) ltac:(lia)) as LUSj.
        rewrite AT', !ST' by vl. rewrite gT' by lia. pose proof (LV (j:=j) ltac:(lia)) as LVj. pose proof (LV (j:=S j) ltac:(lia)) as LVSj.
        pose proof (LT' _ LUj). vdot. rewrite (Hy j), (Hy (S j)) by lia. destruct j as [|j].
        + rewrite gT0, rdot_scale_r, (Hy 0%nat) by lia. ring.
        + rewrite gT' by lia. pose proof (LV (j:=j) ltac:(lia)). vdot. rewrite (Hy j), (Hy (S j)) by lia. ring.
    Qed.
    Let SK : S_ K = sK. Proof. exact (reaches_traj HK). Qed.
    Lemma run_r : nrm2 (rsub b (T (lq_x sK))) + damp * damp * nrm2 (rsub (lq_x sK) x0) = lq_phi_bar sK * lq_phi_bar sK + lq_cum_psi_sqr sK /\
      lq_r_norm sK = sqrt (nrm2 (rsub b (T (lq_x sK))) + damp * damp * nrm2 (rsub (lq_x sK) x0)).
    Proof.
      destruct (res_inv_all (le_n K)) as (Gu & Gv & eu & ev & L1 & L2 & L3 & L4 & I1 & I2 & I3 & I4 & I5 & I6 & I7 & I8 & I9 & I10 & I11 & I12 & I13 & I14 & I15).
      destruct (lsqr_rest HK) as [_ [_ [Lx _]]].
      rewrite SK in *. assert (E1 : rsub b (T (lq_x sK)) = radd (rscale (lq_phi_bar sK) Gu) eu) by (rewrite I1; veq).
      assert (E : nrm2 (rsub b (T (lq_x sK))) + damp * damp * nrm2 (rsub (lq_x sK) x0) = lq_phi_bar sK * lq_phi_bar sK + lq_cum_psi_sqr sK).
      { assert (E2 : damp * damp * nrm2 (rsub (lq_x sK) x0) = nrm2 (radd (rscale (lq_phi_bar sK) Gv) ev)).
        { rewrite <- I2. unfold nrm2. vdot. ring. }
        rewrite E1, E2, <- I9. unfold nrm2 in *. vdot. rewrite (rdot_sym eu Gu), (rdot_sym ev Gv).
        assert (Z2 : rdot Gu eu = - rdot Gv ev) by lra. rewrite Z2. destruct I7 as [Z|Z].
        - rewrite (I12 Z). ring.
        - assert (Z3 : rdot Gu Gu = 1 - rdot Gv Gv) by lra. rewrite Z3. ring. }
      split; [exact E|]. rewrite I14, E. reflexivity.
    Qed.
    Lemma run_grad : rsub (T' (rsub b (T (lq_x sK)))) (rscale (damp * damp) (rsub (lq_x sK) x0)) = rscale (lq_phi_bar sK * lq_rho_bar sK) (lq_v sK) /\
      lq_atr_norm sK = Rabs (lq_phi_bar sK * lq_rho_bar sK).
    Proof.
      pose proof HA as [[LT [AT ST]] [[LT' [AT' ST']] Adj]].
      destruct (res_inv_all (le_n K)) as (Gu & Gv & eu & ev & L1 & L2 & L3 & L4 & I1 & I2 & I3 & I4 & I5 & I6 & I7 & I8 & I9 & I10 & I11 & I12 & I13 & I14 & I15).
      destruct (lsqr_rest HK) as [_ [Lv [Lx _]]].
      unfold V in *. rewrite SK in *. split; [|exact I15].
      assert (E1 : rsub b (T (lq_x sK)) = radd (rscale (lq_phi_bar sK) Gu) eu) by (rewrite I1; veq).
      rewrite E1, AT', ST' by vl. pose proof (LT' _ L1). pose proof (LT' _ L2).
      transitivity (radd (radd (rscale (lq_phi_bar sK) (T' Gu)) (T' eu)) (rscale damp (rscale damp (rsub x0 (lq_x sK))))); [veq|].
      rewrite I2. transitivity (radd (rscale (lq_phi_bar sK) (radd (T' Gu) (rscale damp Gv))) (radd (T' eu) (rscale damp ev))); [veq|].
      rewrite I5, I6. veq.
    Qed.
    Lemma run_rho_zero : lq_alpha sK = 0 -> lq_rho_bar sK = 0.
    Proof.
      clear - HK. intros Z. destruct HK as [|k s s' H C E]; [exact Z|].
      destruct (lsqr_body_inv _ _ _ E) as (rb1 & rho & cs1 & sn1 & cs & sn & irho & F). decompose [and] F.
      match goal with H : lq_rho_bar s' = _ |- _ => rewrite H end. rewrite Z. ring.
    Qed.
    Lemma run_v_norm : lq_alpha sK <> 0 -> nrm (lq_v sK) = 1.
    Proof.
      intros Z. unfold nrm. fold (nrm2 (lq_v sK)). replace (lq_v sK) with (V K) by (unfold V; now rewrite SK).
      rewrite nV; [apply sqrt_1|lia|]. pose proof (lsqr_alpha_pos HK) as [P _]. unfold al. rewrite SK. lra.
    Qed.
    Lemma run_atr : lq_atr_norm sK = nrm (rsub (T' (rsub b (T (lq_x sK)))) (rscale (damp * damp) (rsub (lq_x sK) x0))).
    Proof.
      destruct run_grad as [E1 E2]. rewrite E1, E2, nrm_scale. destruct (Req_dec (lq_alpha sK) 0) as [Z|Z].
      - rewrite (run_rho_zero Z), Rmult_0_r, Rabs_R0. ring.
      - rewrite (run_v_norm Z). ring.
    Qed.
    Lemma run_xnorm : (0 < K)%nat -> lq_x_norm sK = nrm (rsub (lq_x sK) x0).
    Proof. destruct (x_inv_all (le_n K)) as (p & _ & _ & _ & _ & _ & _ & _ & H). now rewrite SK in H. Qed.
    Lemma v_orth_x : rdot (lq_v sK) (rsub (lq_x sK) x0) = 0 \/ K = 0%nat.
    Proof.
      destruct (Nat.eq_dec K 0) as [|NZ]; [now right|left].
      assert (EK : S (pred K) = K) by lia. set (k := pred K) in *.
      destruct (x_inv_all (k:=k) ltac:(lia)) as (p & Lp & I1 & _ & _ & _ & _ & I6 & _).
      destruct (I6 K ltac:(lia)) as [O1 O2]. destruct (lsqr_rest (rch (j:=k) ltac:(lia))) as [_ [_ [Lx Lw]]].
      destruct (lsqr_rest HK) as [_ [Lv _]].
      unfold V in O1, O2. rewrite SK in O1, O2.
      destruct (stp (j:=k) ltac:(lia)) as [C E]. rewrite EK, SK in E.
      destruct (lsqr_body_inv _ _ _ E) as (rb1 & rho & cs1 & sn1 & cs & sn & irho & F).
      assert (Ex : lq_x sK = radd (lq_x (S_ k)) (rscale (cs * (cs1 * lq_phi_bar (S_ k)) * irho) (lq_w (S_ k)))) by apply F. clear F.
      assert (E3 : rsub (lq_x sK) x0 = radd (rsub (lq_x (S_ k)) x0) (rscale (cs * (cs1 * lq_phi_bar (S_ k)) * irho) (lq_w (S_ k)))) by (rewrite Ex; veq).
      rewrite E3, I1. vdot. rewrite (rdot_sym (lq_v sK) p), (rdot_sym (lq_v sK) (lq_w (S_ k))), O1, O2. ring.
    Qed.
    Lemma run_optimal d : in_span n (krylov (fun z => T' (T z)) (T' (rsub b (T x0))) K) d ->
      nrm2 (rsub b (T (lq_x sK))) + damp * damp * nrm2 (rsub (lq_x sK) x0) <=
      nrm2 (rsub b (T (radd x0 d))) + damp * damp * nrm2 d.
    Proof.
      pose proof HA as [[LT [AT ST]] [[LT' [AT' ST']] Adj]].
      intros Hd. destruct (lsqr_rest HK) as [_ [Lv [Lx _]]].
      assert (Ld : length d = n).
      { destruct Hd as [cs [_ ->]]. apply (@lincomb_len n x0 Hx0). intros v Hv. unfold krylov in Hv. apply in_map_iff in Hv as [i [<- Hi]]. apply in_seq in Hi.
        apply (@krylov_orth i ltac:(lia) (rzero n)); [vl|]. intros. apply rdot_zero_l. }
      assert (Od : rdot (lq_v sK) d = 0).
      { destruct Hd as [cs [_ ->]]. rewrite rdot_sym. apply (@lincomb_orth n x0 Hx0).
        intros v Hv. unfold krylov in Hv. apply in_map_iff in Hv as [i [<- Hi]]. apply in_seq in Hi. rewrite rdot_sym.
        apply and_comm. apply (@krylov_orth i ltac:(lia) (lq_v sK)); auto. intros j Hj. rewrite rdot_sym. replace (lq_v sK) with (V K) by (unfold V; now rewrite SK). apply OV. lia. }
      assert (Ox : rdot (lq_v sK) (rsub (lq_x sK) x0) = 0).
      { destruct v_orth_x as [|Z]; auto. replace (lq_x sK) with x0; [replace (rsub x0 x0) with (rzero n) by veq; apply rdot_zero_r|].
        rewrite Z in HK. inversion HK. reflexivity. }
      destruct run_grad as [G _]. set (g := lq_phi_bar sK * lq_rho_bar sK) in *.
      set (e := rsub d (rsub (lq_x sK) x0)). assert (Le : length e = n) by (unfold e; vl).
      assert (Oe : rdot (rsub (T' (rsub b (T (lq_x sK)))) (rscale (damp * damp) (rsub (lq_x sK) x0))) e = 0).
      { rewrite G, rdot_scale_l. unfold e. vdot. rewrite Od. revert Ox. vdot. intros Ox. rewrite Ox. ring. }
      assert (Ed : radd x0 d = radd (lq_x sK) e) by (unfold e; veq).
      assert (Edd : d = radd (rsub (lq_x sK) x0) e) by (unfold e; veq).
      pose proof (LT _ Lx) as LTx. pose proof (LT _ Le) as LTe.
      assert (Er : rsub b (T (radd x0 d)) = rsub (rsub b (T (lq_x sK))) (T e)) by (rewrite Ed, AT by auto; veq).
      rewrite Er. rewrite Edd at 1. set (r := rsub b (T (lq_x sK))) in *. assert (Lr : length r = m) by (unfold r; vl).
      set (y := rsub (lq_x sK) x0) in *. assert (Ly : length y = n) by (unfold y; vl). pose proof (LT' _ Lr).
      assert (Oe2 : rdot (T e) r - damp * damp * rdot y e = 0).
      { rewrite Adj by auto. rewrite (rdot_sym e). revert Oe. vdot. lra. }
      unfold nrm2. vdot. rewrite (rdot_sym r (T e)), (rdot_sym e y).
      pose proof (rdot_pos (T e)). pose proof (rdot_pos e). pose proof (Rle_0_sqr damp). unfold Rsqr in *.
      assert (0 <= damp * damp * rdot e e) by (apply Rmult_le_pos; auto). lra.
    Qed.
    Lemma run_count : (K <= n)%nat /\ (K <= m)%nat.
    Proof.
      split.
      - apply (@conj_count n K (fun x => x) V); [apply id_linear| | |].
        + intros i Hi. apply LV. lia.
        + intros i j Hi Hj Hij. destruct (Nat.lt_ge_cases i j); [apply OV; lia|]. rewrite rdot_sym. apply OV. lia.
        + intros i Hi. fold (nrm2 (V i)). rewrite nV; [lra|lia|apply good; auto].
      - apply (@conj_count m K (fun x => x) U); [apply id_linear| | |].
        + intros i Hi. apply LU. lia.
        + intros i j Hi Hj Hij. destruct (Nat.lt_ge_cases i j); [apply O; lia|]. rewrite rdot_sym. apply O. lia.
        + intros i Hi. fold (nrm2 (U i)). rewrite nU; [lra|lia|apply good; auto].
    Qed.
    Lemma run_orthonormal i j si sj : (i <= j <= K)%nat -> Rch i si -> Rch j sj ->
      ((i < j)%nat -> rdot (lq_u si) (lq_u sj) = 0 /\ rdot (lq_v si) (lq_v sj) = 0) /\
      ((i < K)%nat -> nrm2 (lq_u si) = 1 /\ nrm2 (lq_v si) = 1).
    Proof.
      intros Hij Hi Hj. assert (Ei : S_ i = si) by exact (reaches_traj Hi). assert (Ej : S_ j = sj) by exact (reaches_traj Hj). split.
      - intros H. rewrite <- Ei, <- Ej. apply (gk_orth (k:=j)); lia.
      - intros H. destruct (good H) as [P1 P2]. rewrite <- Ei. split; [apply nU|apply nV]; auto; lia.
    Qed.
  End Run.
  Lemma lsqr_nofail k s : Rch k s -> cond s = true -> body s <> None.
  Proof. intros H C. exact (@lsqr_never_none k s H s (le_n k) C eq_refl). Qed.
  Lemma lsqr_total fuel : (Nat.min mx (Nat.min m n) <= fuel)%nat -> exists s, lsqr A b x0 damp atol btol conlim mx fuel = Done s.
  Proof.
    intros Hf. apply while_total; [exact lsqr_nofail|]. intros k s H C.
    destruct (lsqr_body A damp s) as [s'|] eqn:E; [|exfalso; eapply lsqr_nofail; eauto].
    destruct (run_count (reach_S _ _ _ _ _ _ H C E)) as [C1 C2].
    destruct (lsqr_cond_true _ C) as [_ [_ [C3 _]]]. destruct (lsqr_counts H) as [C4 _]. lia.
  Qed.
  Lemma lsqr_it_bound k s : Rch k s -> (lq_it s <= Nat.max 1 mx)%nat.
  Proof.
    intros H. destruct H as [|k s s' H C E]; [change (lq_it init) with 1%nat; lia|].
    destruct (lsqr_counts (reach_S _ _ _ _ _ _ H C E)) as [-> _].
    destruct (lsqr_cond_true _ C) as [_ [_ [C3 _]]]. destruct (lsqr_counts H) as [C4 _]. lia.
  Qed.
  Lemma lsqr_r_mono k s s' : Rch k s -> cond s = true -> body s = Some s' -> lq_r_norm s' <= lq_r_norm s.
  Proof.
    intros H C E. rewrite (proj2 (run_r H)), (proj2 (run_r (reach_S _ _ _ _ _ _ H C E))). apply sqrt_le_1_alt.
    rewrite (proj1 (run_r H)), (proj1 (run_r (reach_S _ _ _ _ _ _ H C E))).
    destruct (lsqr_body_inv _ _ _ E) as (rb1 & rho & cs1 & sn1 & cs & sn & irho & F).
    assert (R1 : sn1 * sn1 = 1 - cs1 * cs1) by apply F. assert (R2 : sn * sn = 1 - cs * cs) by apply F.
    assert (E1 : lq_phi_bar s' = sn * (cs1 * lq_phi_bar s)) by apply F.
    assert (E2 : lq_cum_psi_sqr s' = lq_cum_psi_sqr s + sn1 * lq_phi_bar s * (sn1 * lq_phi_bar s)) by apply F.
    rewrite E1, E2. set (f := lq_phi_bar s). set (c := lq_cum_psi_sqr s).
    assert (Z : sn * (cs1 * f) * (sn * (cs1 * f)) + (c + sn1 * f * (sn1 * f)) = f * f + c - cs * cs * (cs1 * cs1 * (f * f))) by ring [R1 R2].
    rewrite Z. assert (0 <= cs * cs * (cs1 * cs1 * (f * f))); [|lra].
    apply Rmult_le_pos; [apply (Rle_0_sqr cs)|]. apply Rmult_le_pos; [apply (Rle_0_sqr cs1)|apply (Rle_0_sqr f)].
  Qed.
  Lemma lsqr_exit fuel s : lsqr A b x0 damp atol btol conlim mx fuel = Done s ->
    (mx <= lq_it s)%nat \/ lq_r_norm s <= 0 \/ lq_atr_norm s <= 0 \/ (conlim <> 0 /\ 1 <= 1 / conlim * lq_A_cond s) \/
    lq_atr_norm s <= atol * lq_atr_norm init \/ lq_r_norm s <= btol * lq_r_norm init + atol * lq_A_norm s * lq_x_norm s.
  Proof.
    intros H. apply while_done in H as [k [_ [H C]]].
    assert (P0 : 0 <= lq_A_cond s /\ 0 <= lq_A_norm s /\ 0 <= lq_x_norm s).
    { clear C. destruct H as [|k s s' H C E]; [cbn [lsqr_init lq_A_cond lq_A_norm lq_x_norm]; repeat split; try lra; apply nrm_pos|].
      clear C. unfold lsqr_body in E. cbv zeta in E.
      repeat match type of E with context [match fdiv ?a ?c with _ => _ end] => destruct (fdiv a c); [|discriminate] end.
      injection E as <-. cbn [lq_A_cond lq_A_norm lq_x_norm]. repeat split; try apply sqrt_pos; try apply nrm_pos.
      apply Rmult_le_pos; [apply nrm_pos|apply sqrt_pos]. }
    destruct P0 as [Pc [Pn Px]].
    unfold lsqr_cond in C. cbv zeta in C.
    destruct (Reqb_spec (lq_r_norm init) 0) as [Z|Z].
    { right. left. rewrite (proj2 (run_r H)). destruct (run_r H) as [Q _].
      assert (M : forall j t, Rch j t -> lq_r_norm t <= 0).
      { induction 1 as [|j t t' H' IH C' E']; [lra|]. pose proof (lsqr_r_mono H' C' E'). lra. }
      rewrite <- (proj2 (run_r H)). eapply M; eauto. }
    destruct (Reqb_spec (lq_atr_norm init) 0) as [Z'|Z'].
    { right. right. left. destruct H as [|k s s' H C' E]; [lra|]. exfalso. destruct (lsqr_cond_true _ C') as [_ [? _]]. auto. }
    pose proof atr_init_pos as P1. assert (P2 : 0 < lq_atr_norm init) by lra.
    assert (P3 : 0 < lq_r_norm init) by (pose proof (nrm_pos (rsub b (T x0))) as Q; change (lq_r_norm init) with (nrm (rsub b (T x0))) in *; lra).
    set (r0 := lq_r_norm init) in *. set (a0 := lq_atr_norm init) in *. cbn [orb] in C.
    rewrite !andb_false_iff in C. destruct C as [[[[[[C|C]|C]|C]|C]|C]|C].
    - left. now apply Nat.ltb_ge in C.
    - exfalso. apply orb_false_iff in C as [C1 C2]. apply Reqb_false in C1. apply Rltb_false in C2.
      assert (0 < 1 / lq_A_cond s) by (apply Rdiv_lt_0_compat; lra). lra.
    - right. right. left. apply Rltb_false in C. assert (lq_atr_norm s / a0 <= 0) by lra.
      apply (Rmult_le_compat_r a0) in H0; [|lra]. unfold Rdiv in H0. rewrite Rmult_assoc, Rinv_l in H0; lra.
    - right. left. apply Rltb_false in C.
      assert (D : 0 < 1 + lq_A_norm s * lq_x_norm s / r0).
      { assert (0 <= lq_A_norm s * lq_x_norm s / r0); [|lra]. apply Rmult_le_pos; [now apply Rmult_le_pos|]. left. now apply Rinv_0_lt_compat. }
      set (d := 1 + lq_A_norm s * lq_x_norm s / r0) in *.
      assert (E : lq_r_norm s = lq_r_norm s / r0 / d * (d * r0)) by (field; lra).
      rewrite E. assert (lq_r_norm s / r0 / d <= 0) by lra.
      assert (0 < d * r0) by (apply Rmult_lt_0_compat; lra). nra.
    - apply orb_false_iff in C as [C1 C2]. apply Reqb_false in C1. apply Rltb_false in C2.
      assert (Q : 0 < 1 / lq_A_cond s) by (apply Rdiv_lt_0_compat; lra).
      destruct (Reqb_spec conlim 0) as [Zc|Zc]; [lra|]. right. right. right. left. split; auto.
      apply (Rmult_le_compat_r (lq_A_cond s)) in C2; [|lra]. replace (1 / lq_A_cond s * lq_A_cond s) with 1 in C2 by (field; auto). auto.
    - right. right. right. right. left. apply Rltb_false in C. apply (Rmult_le_compat_r a0) in C; [|lra].
      replace (lq_atr_norm s / a0 * a0) with (lq_atr_norm s) in C by (field; lra). auto.
    - do 5 right. apply Rltb_false in C. apply (Rmult_le_compat_r r0) in C; [|lra].
      replace (lq_r_norm s / r0 * r0) with (lq_r_norm s) in C by (field; lra).
      replace ((btol + atol * lq_A_norm s * lq_x_norm s / r0) * r0) with (btol * r0 + atol * lq_A_norm s * lq_x_norm s) in C by (field; lra). auto.
  Qed.
  (** a vanishing gradient means the damped least squares problem is solved *)
  Lemma grad_zero_opt x z : length x = n -> length z = n ->
    rsub (T' (rsub b (T x))) (rscale (damp * damp) (rsub x x0)) = rzero n ->
    nrm2 (rsub b (T x)) + damp * damp * nrm2 (rsub x x0) <= nrm2 (rsub b (T z)) + damp * damp * nrm2 (rsub z x0).
  Proof.
    intros Lx Lz G. pose proof HA as [[LT [AT ST]] [[LT' [AT' ST']] Adj]].
    set (e := rsub z x). assert (Le : length e = n) by (unfold e; vl).
    assert (Oe : rdot (rsub (T' (rsub b (T x))) (rscale (damp * damp) (rsub x x0))) e = 0) by (rewrite G; apply rdot_zero_l).
    pose proof (LT _ Lx) as LTx. pose proof (LT _ Le) as LTe.
    assert (Ez : z = radd x e) by (unfold e; veq).
    assert (Er : rsub b (T z) = rsub (rsub b (T x)) (T e)) by (rewrite Ez at 1; rewrite AT by auto; veq).
    assert (Ey : rsub z x0 = radd (rsub x x0) e) by (unfold e; veq).
    rewrite Er, Ey. set (r := rsub b (T x)) in *. assert (Lr : length r = m) by (unfold r; vl).
    set (y := rsub x x0) in *. assert (Ly : length y = n) by (unfold y; vl). pose proof (LT' _ Lr).
    assert (Oe2 : rdot (T e) r - damp * damp * rdot y e = 0).
    { rewrite Adj by auto. rewrite (rdot_sym e). revert Oe. vdot. lra. }
    unfold nrm2. vdot. rewrite (rdot_sym r (T e)), (rdot_sym e y).
    pose proof (rdot_pos (T e)). pose proof (rdot_pos e). pose proof (Rle_0_sqr damp). unfold Rsqr in *.
    assert (0 <= damp * damp * rdot e e) by (apply Rmult_le_pos; auto). lra.
  Qed.
  Lemma atr_zero_opt k s z : Rch k s -> lq_atr_norm s <= 0 -> length z = n ->
    nrm2 (rsub b (T (lq_x s))) + damp * damp * nrm2 (rsub (lq_x s) x0) <= nrm2 (rsub b (T z)) + damp * damp * nrm2 (rsub z x0).
  Proof.
    intros H Z Lz. destruct (lsqr_rest H) as [_ [_ [Lx _]]]. pose proof HA as [[LT _] [[LT' _] _]].
    apply grad_zero_opt; auto. rewrite (run_atr H) in Z. 
    set (g := rsub (T' (rsub b (T (lq_x s)))) (rscale (damp * damp) (rsub (lq_x s) x0))) in *.
    pose proof (nrm_pos g). assert (Z0 : nrm g = 0) by lra. apply nrm_eq0 in Z0. rewrite Z0. f_equal.
    unfold g. pose proof (LT _ Lx). assert (L1 : length (T' (rsub b (T (lq_x s)))) = n) by (apply LT'; vl). vl.
  Qed.
  Lemma lsqr_solves fuel s z : atol = 0 -> btol = 0 -> conlim = 0 -> (Nat.min m n + 1 < mx)%nat -> length z = n ->
    lsqr A b x0 damp atol btol conlim mx fuel = Done s ->
    nrm2 (rsub b (T (lq_x s))) + damp * damp * nrm2 (rsub (lq_x s) x0) <= nrm2 (rsub b (T z)) + damp * damp * nrm2 (rsub z x0).
  Proof.
    intros Ha Hb' Hc Hm Lz H. pose proof (lsqr_exit _ H) as X. apply while_done in H as [k [_ [H C]]].
    assert (R0 : lq_r_norm s <= 0 -> nrm2 (rsub b (T (lq_x s))) + damp * damp * nrm2 (rsub (lq_x s) x0) <= nrm2 (rsub b (T z)) + damp * damp * nrm2 (rsub z x0)).
    { intros Z. destruct (run_r H) as [_ Q]. rewrite Q in Z.
      assert (P : forall a, 0 <= damp * damp * nrm2 a) by (intros a; apply Rmult_le_pos; [apply Rle_0_sqr|apply nrm2_pos]).
      pose proof (P (rsub (lq_x s) x0)). pose proof (P (rsub z x0)). pose proof (nrm2_pos (rsub b (T (lq_x s)))). pose proof (nrm2_pos (rsub b (T z))).
      pose proof (sqrt_pos (nrm2 (rsub b (T (lq_x s))) + damp * damp * nrm2 (rsub (lq_x s) x0))).
      assert (Z0 : sqrt (nrm2 (rsub b (T (lq_x s))) + damp * damp * nrm2 (rsub (lq_x s) x0)) = 0) by lra.
      apply sqrt_eq_0 in Z0; lra. }
    destruct X as [X|[X|[X|[[X _]|[X|X]]]]]; auto.
    - exfalso. destruct (lsqr_counts H) as [C1 _]. destruct (run_count H). lia.
    - eapply atr_zero_opt; eauto.
    - congruence.
    - rewrite Ha in X. eapply atr_zero_opt; eauto. lra.
    - apply R0. rewrite Ha, Hb' in X. lra.
  Qed.
End Lsqr.
