(** Finite termination of preconditioned conjugate gradients on complex data. *)
From Coq Require Import List Arith Bool Lia Reals Lra Psatz.
From Verif Require Import Scalar Vec RVec RMat Loop LoopLemmas LinDep SolverSpec SolverLemmas LopSpec OptProofs CGModel CGSpec CGProofs CxSpec CxProofs CxCgModel CxCgProofs.
Import ListNotations.
Set Implicit Arguments.
Unset Strict Implicit.
Local Open Scope R_scope.

Definition Ci : Cs := (0, 1).
Lemma inner_Ci_l (x y : cvec) : fst (inner (vscale Ci x) y : Cx) = snd (inner x y : Cx).
Proof. rewrite inner_scale_l. destruct (inner x y) as [c d]. simpl. ring. Qed.
Lemma inner_Ci_r (x y : cvec) : fst (inner x (vscale Ci y) : Cx) = - snd (inner x y : Cx).
Proof. rewrite inner_scale_r. destruct (inner x y) as [c d]. simpl. ring. Qed.
Lemma inner_Ci_lr (x y : cvec) : fst (inner (vscale Ci x) (vscale Ci y) : Cx) = fst (inner x y : Cx).
Proof. rewrite inner_scale_l, inner_scale_r. destruct (inner x y) as [c d]. simpl. ring. Qed.
Section Term.
  Variables (n : nat) (A : cvec -> cvec) (M : option (cvec -> cvec)) (b x0 : cvec) (mx : nat) (tol atol : R).
  Notation Mf := (cpcg_M M).
  Hypothesis HA : is_adjoint n n A A.
  Hypothesis HM : is_adjoint n n Mf Mf.
  Hypothesis PA : forall x, length x = n -> x <> vzero n -> 0 < fst (inner x (A x) : Cx).
  Hypothesis PM : forall x, length x = n -> x <> vzero n -> 0 < fst (inner x (Mf x) : Cx).
  Hypothesis Lb : length b = n.
  Hypothesis Lx : length x0 = n.
  Hypothesis R0 : is_real_vec (vsub b (A x0)).
  Let DA : maps_dim n n A := proj1 HA.
  Let DM : maps_dim n n Mf := proj1 HM.
  Let LA : is_linear n A := LopProofs2.adjoint_linear HA.
  Let LM : is_linear n Mf := LopProofs2.adjoint_linear HM.
  Notation cond := (cpcg_cond (cpcg_is_id M) (cpcg_max_gamma b tol atol) mx).
  Notation Rch := (reaches cond (cpcg_body A Mf) (cpcg_init A Mf b x0)).
  Notation T := (fun v => Mf (A v)).
  Fixpoint pw (k : nat) (v : cvec) : cvec := match k with O => v | S k => T (pw k v) end.
  Lemma pw_add i j v : pw (i + j) v = pw i (pw j v).
  Proof. induction i as [|i IH]; cbn [Nat.add pw]; auto. now rewrite IH. Qed.
  Inductive kry : cvec -> Prop :=
  | kry_0 : kry (Mf (vsub b (A x0)))
  | kry_add u v : kry u -> kry v -> kry (vadd u v)
  | kry_scale c u : kry u -> kry (vscale (ofR c : Cs) u)
  | kry_T u : kry u -> kry (T u).
  Lemma kry_len u : kry u -> length u = n.
  Proof.
    induction 1 as [|u v _ I1 _ I2|c u _ I|u _ I].
    - apply DM. apply vsub_length; auto.
    - now apply vadd_length.
    - now rewrite vscale_length.
    - apply DM, DA. exact I.
  Qed.
  Lemma iter_len k v : length v = n -> length (pw k v) = n.
  Proof. intros Lv. induction k as [|k IH]; simpl; auto. Qed.
  Lemma iter_T k v : pw k (T v) = pw (S k) v.
  Proof. induction k as [|k IH]; simpl; auto. simpl in IH. now rewrite IH. Qed.
  Lemma iter_add k u v : length u = n -> length v = n -> pw k (vadd u v) = vadd (pw k u) (pw k v).
  Proof.
    intros Lu Lv. induction k as [|k IH]; simpl; auto. pose proof (iter_len k Lu). pose proof (iter_len k Lv). rewrite IH, (proj1 LA), (proj1 LM); auto.
  Qed.
  Lemma iter_scale k (c : Cs) v : length v = n -> pw k (vscale c v) = vscale c (pw k v).
  Proof.
    intros Lv. induction k as [|k IH]; simpl; auto. pose proof (iter_len k Lv). rewrite IH, (proj2 LA), (proj2 LM); auto.
  Qed.
  Lemma T_self u v : length u = n -> length v = n -> inner (T u) (A v) = inner u (A (T v)).
  Proof.
    intros Lu Lv. pose proof HM as (_ & _ & HMi). pose proof HA as (_ & _ & HAi). rewrite HMi by auto. rewrite HAi; auto.
  Qed.
  Lemma T_iter_self i u v : length u = n -> length v = n -> inner (pw i u) (A v) = inner u (A (pw i v)).
  Proof.
    intros Lu Lv. revert v Lv. induction i as [|i IH]; intros v Lv; simpl; auto. rewrite T_self by (auto; now apply iter_len). rewrite IH by auto.
    rewrite iter_T. reflexivity.
  Qed.
  Lemma quad_real (P : cvec -> cvec) u : is_adjoint n n P P -> length u = n -> snd (inner u (P u) : Cx) = 0.
  Proof.
    intros (_ & _ & H) Lu. pose proof (@inner_sym Cs (P u) u) as S. rewrite (H u u Lu Lu) in S.
    apply (f_equal (fun z : Cx => snd z)) in S. cbn [star Cs Cconj snd] in S. lra.
  Qed.
  Lemma real_base z k : length z = n -> snd (inner z (A (pw k z)) : Cx) = 0.
  Proof.
    intros Lz. destruct (Nat.Even_or_Odd k) as [[i ->]|[i ->]].
    - replace (2 * i)%nat with (i + i)%nat by lia. rewrite pw_add, <- T_iter_self by (first [assumption | now apply iter_len | idtac]). apply quad_real; auto. now apply iter_len.
    - replace (2 * i + 1)%nat with (i + S i)%nat by lia. rewrite pw_add, <- T_iter_self by (first [assumption | now apply iter_len | idtac]). cbn [pw].
      set (w := pw i z). assert (Lw : length w = n) by now apply iter_len. pose proof HA as (_ & _ & HAi). rewrite <- HAi by auto. apply quad_real; auto.
  Qed.
  Lemma real_r z v k : length z = n -> z = Mf (vsub b (A x0)) -> kry v -> snd (inner z (A (pw k v)) : Cx) = 0.
  Proof.
    intros Lz Ez Hv. revert k. induction Hv as [|u v H1 I1 H2 I2|c u H I|u H I]; intros k.
    - rewrite <- Ez. now apply real_base.
    - apply kry_len in H1, H2. pose proof (iter_len k H1). pose proof (iter_len k H2). rewrite iter_add, (proj1 LA), inner_add_r by (auto; exact (eq_trans (DA H) (eq_sym (DA H0)))).
      cbn [sadd Cs Cadd snd]. specialize (I1 k). specialize (I2 k). cbv beta in *. rewrite I1, I2. ring.
    - apply kry_len in H. pose proof (iter_len k H). rewrite iter_scale, (proj2 LA), inner_scale_r by auto. specialize (I k). cbv beta in I.
      destruct (inner z _) as [p q]. cbn [snd] in I. subst q. simpl. ring.
    - rewrite iter_T. apply I.
  Qed.
  Lemma kry_real u v : kry u -> kry v -> snd (inner u (A v) : Cx) = 0.
  Proof.
    intros Hu Hv. assert (G : forall k, snd (inner u (A (pw k v)) : Cx) = 0); [|exact (G O)]. pose proof (kry_len Hv) as Lv.
    induction Hu as [|u w H1 I1 H2 I2|c u H I|u H I]; intros k.
    - apply real_r; auto. apply DM. apply vsub_length; auto.
    - apply kry_len in H1, H2. rewrite inner_add_l by congruence. cbn [sadd Cs Cadd snd]. specialize (I1 k). specialize (I2 k). cbv beta in *. rewrite I1, I2. ring.
    - rewrite inner_scale_l. specialize (I k). cbv beta in I. destruct (inner u _) as [p q]. cbn [snd] in I. subst q. simpl. ring.
    - apply kry_len in H. rewrite T_self by (auto; now apply iter_len). exact (I (S k)).
  Qed.
  Lemma alpha_real g p alpha : length p = n -> cdivo (ofR g) (inner p (A p)) = Some alpha -> exists c, alpha = ofR c.
  Proof.
    intros Lp. pose proof (quad_real HA Lp) as Hr. unfold cdivo. destruct (_ && _) eqn:E; [discriminate|]. intros Q. injection Q as <-. destruct (inner p (A p)) as [c d]. cbn [snd] in Hr. subst d.
    exists (g / c). assert (Hc : c <> 0). { intros ->. cbn [fst snd] in E. unfold Reqb in E. destruct (Req_EM_T 0 0); [discriminate|lra]. }
    cbn [sdiv Cs ofR]. unfold Cdiv, Cmul, Cinv, Cnsq. cbn [fst snd]. f_equal; field; auto.
  Qed.
  Lemma run_kry k s : Rch k s -> kry (cp_p s) /\ kry (Mf (cp_r s)).
  Proof.
    induction 1 as [|k s s' H [K1 K2] C B]; [split; apply kry_0|]. destruct (@cp_reach n A M b x0 mx tol atol DA LA DM Lb Lx k s H) as [O _].
    pose proof (cp_r_len DA Lb O) as Lr. pose proof (kry_len K1) as Lp. revert B. unfold cpcg_body.
    destruct (cdivo _ _) as [alpha|] eqn:Ea; [|discriminate]. destruct (rdivo _ _) as [beta|]; [|discriminate]. intros E. injection E as <-.
    destruct (alpha_real Lp Ea) as [c ->]. cbn [cp_p cp_r].
    assert (Kz : kry (Mf (vsub (cp_r s) (vscale (ofR c : Cs) (A (cp_p s)))))).
    { assert (Ez : Mf (vsub (cp_r s) (vscale (ofR c : Cs) (A (cp_p s)))) = vadd (Mf (cp_r s)) (vscale (ofR (- c) : Cs) (T (cp_p s)))).
      { rewrite <- (proj2 LM), <- (proj1 LM) by (rewrite ?vscale_length; auto). f_equal. apply flat_inj. rewrite flat_add, flat_sub, !flat_scale.
        pose proof (DA Lp) as L3. pose proof (flat_len (cp_r s)). pose proof (flat_len (A (cp_p s))). veq. }
      rewrite Ez. apply kry_add; auto. apply kry_scale. now apply kry_T. }
    split; auto. apply kry_add; auto. now apply kry_scale.
  Qed.
  Notation lA := (lift A). Notation lM := (pcg_M (liftM M)). Notation N := (2 * n)%nat.
  Notation lcond := (pcg_cond (pcg_is_id (liftM M)) (pcg_max_gamma (flat b) tol atol) mx).
  Lemma lift_Rch k s : Rch k s -> reaches lcond (pcg_body lA lM) (pcg_init lA lM (flat b) (flat x0)) k (fl_cp s).
  Proof.
    induction 1 as [|k s s' H IH C B]; [erewrite fl_cp_init by eauto; constructor|]. econstructor; [exact IH|now rewrite (fl_cp_cond _ _ _ _ DM HM)|].
    destruct (@cp_reach n A M b x0 mx tol atol DA LA DM Lb Lx k s H) as [O _]. rewrite (fl_cp_body DM HA HM (s := s)) by apply O. now rewrite B.
  Qed.
  Let lLA : linear_op N N lA := lift_linear DA LA.
  Let lLM : forall v, length v = N -> length (lM v) = N.
  Proof. intros v Lv. rewrite (liftM_apply DM HM Lv). now apply (lift_linear DM LM). Qed.
  Let lb : length (flat b) = N. Proof. rewrite flat_len. now rewrite Lb. Qed.
  Let lx : length (flat x0) = N. Proof. rewrite flat_len. now rewrite Lx. Qed.
  Let lSA : symmetric_op N lA. Proof. intros v w Lv Lw. now apply (lift_adjoint HA). Qed.
  Let lSM : symmetric_op N lM.
  Proof. intros v w Lv Lw. rewrite (liftM_apply DM HM Lv), (liftM_apply DM HM Lw). now apply (lift_adjoint HM). Qed.
  Lemma lift_pos (P : cvec -> cvec) : (forall x, length x = n -> x <> vzero n -> 0 < fst (inner x (P x) : Cx)) -> positive_op N (lift P).
  Proof.
    intros H v Lv Nz. rewrite <- (flat_unflat Lv), lift_flat, flat_dot. apply H; [now apply unflat_len|]. intros E. apply Nz. rewrite <- (flat_unflat Lv), E. clear.
    unfold vzero, rzero. induction n as [|k IH]; [reflexivity|]. cbn [repeat flat]. rewrite IH. replace (2 * S k)%nat with (S (S (2 * k))) by lia. reflexivity.
  Qed.
  Let lPA : positive_op N lA := lift_pos PA.
  Let lPM : positive_op N lM.
  Proof. intros v Lv Nz. rewrite (liftM_apply DM HM Lv). now apply (lift_pos PM). Qed.
  Lemma run_short k s : Rch k s -> cnsq (cp_r s) <> 0 -> cpcg_body A Mf s <> None /\ (S k <= n)%nat.
  Proof.
    intros H Nz. pose proof (lift_Rch H) as H'.
    assert (Nz' : rdot (pcg_r (fl_cp s)) (pcg_r (fl_cp s)) <> 0) by (cbn [fl_cp pcg_r]; change (nrm2 (flat (cp_r s)) <> 0); now rewrite flat_nrm2).
    destruct (run_progress lLA lLM lb lx lSA lSM lPA lPM H' Nz') as (_ & P & Bd & _).
    destruct (@cp_reach n A M b x0 mx tol atol DA LA DM Lb Lx k s H) as [O _]. split.
    { intros E. apply Bd. rewrite (fl_cp_body DM HA HM (s := s)) by apply O. now rewrite E. }
    set (st := traj cond (cpcg_body A Mf) (cpcg_init A Mf b x0)). assert (Ek : st k = s) by exact (reaches_traj H).
    assert (Rj : forall j, (j <= k)%nat -> Rch j (st j)) by (intros j Hj; eapply traj_reaches; eauto).
    set (q := fun i => if Nat.even i then flat (cp_p (st (i / 2)%nat)) else flat (vscale Ci (cp_p (st (i / 2)%nat)))).
    assert (Kj : forall j, (j <= k)%nat -> kry (cp_p (st j))) by (intros j Hj; now apply (run_kry (Rj j Hj))).
    assert (Conj : forall i j, (i < j <= k)%nat -> fst (inner (cp_p (st i)) (A (cp_p (st j))) : Cx) = 0 /\ fst (inner (cp_p (st j)) (A (cp_p (st i))) : Cx) = 0).
    { intros i j Hij. destruct (@run_seq N lA lM (flat b) (flat x0) _ _ mx lLA lLM lb lx lSA lSM k (fl_cp s) H' i j Hij) as (_ & Q & _).
      rewrite (reaches_traj (lift_Rch (Rj i ltac:(lia)))), (reaches_traj (lift_Rch (Rj j ltac:(lia)))) in Q. cbn [fl_cp pcg_p] in Q. rewrite lift_flat, flat_dot in Q. split; auto.
      rewrite <- flat_dot, <- lift_flat, rdot_sym, lSA, lift_flat, flat_dot; auto; rewrite flat_len; f_equal; apply kry_len, Kj; lia. }
    assert (Re : forall i j, (i <= k)%nat -> (j <= k)%nat -> snd (inner (cp_p (st i)) (A (cp_p (st j))) : Cx) = 0) by (intros; apply kry_real; auto).
    assert (Half : forall i, (i < 2 * S k)%nat -> (i / 2 <= k)%nat) by (intros i Hi; apply Nat.lt_succ_r, Nat.div_lt_upper_bound; lia).
    assert (ACi : forall j, (j <= k)%nat -> A (vscale Ci (cp_p (st j))) = vscale Ci (A (cp_p (st j)))) by (intros j Hj; apply (proj2 LA); apply kry_len; auto).
    assert (Ct : (2 * S k <= N)%nat); [|lia].
    apply (@conj_count N (2 * S k) lA q lLA).
    - intros i Hi. unfold q. destruct (Nat.even i); rewrite flat_len, ?vscale_length; f_equal; apply kry_len, Kj; auto.
    - intros i j Hi Hj Ne. assert (V : (i / 2 = j / 2)%nat -> Nat.even i <> Nat.even j).
      { intros E1 E2. apply Ne. rewrite (Nat.div_mod i 2), (Nat.div_mod j 2), E1 by lia. f_equal. pose proof (Nat.mod_upper_bound i 2). pose proof (Nat.mod_upper_bound j 2).
        destruct (Nat.even i) eqn:Ei; symmetry in E2.
        - apply Nat.even_spec in Ei, E2. destruct Ei as [a ->], E2 as [c ->]. rewrite !(Nat.mul_comm 2), !Nat.mod_mul by lia. reflexivity.
        - assert (Oi : Nat.odd i = true) by (unfold Nat.odd; now rewrite Ei). assert (Oj : Nat.odd j = true) by (unfold Nat.odd; now rewrite E2).
          apply Nat.odd_spec in Oi, Oj. destruct Oi as [a ->], Oj as [c ->]. rewrite !(Nat.add_comm _ 1), !(Nat.mul_comm 2), !Nat.mod_add by lia. reflexivity. }
      pose proof (Half i Hi) as Hi2. pose proof (Half j Hj) as Hj2. pose proof (Re _ _ Hi2 Hj2) as S0.
      assert (F0 : (i / 2 <> j / 2)%nat -> fst (inner (cp_p (st (i / 2)%nat)) (A (cp_p (st (j / 2)%nat))) : Cx) = 0).
      { intros D. clear V. revert Hi2 Hj2 S0 D. generalize (j / 2)%nat as c. generalize (i / 2)%nat as a. intros a c Ha Hc _ D. destruct (Nat.lt_ge_cases a c); [exact (proj1 (Conj a c ltac:(lia)))|]. apply (proj2 (Conj c a ltac:(lia))). }
      unfold q. destruct (Nat.even i) eqn:Ei, (Nat.even j) eqn:Ej; rewrite lift_flat, ?ACi, flat_dot by auto.
      + apply F0. intros D. now apply V in D.
      + rewrite inner_Ci_r, S0. ring.
      + rewrite inner_Ci_l, S0. ring.
      + rewrite inner_Ci_lr. apply F0. intros D. now apply V in D.
    - intros i Hi. pose proof (Half i Hi) as Hi2.
      assert (Q : fst (inner (cp_p (st (i / 2)%nat)) (A (cp_p (st (i / 2)%nat))) : Cx) <> 0).
      { destruct (Nat.eq_dec (i / 2) k) as [E|E].
        - rewrite E, Ek. cbn [fl_cp pcg_p] in P. rewrite lift_flat, flat_dot in P. lra.
        - destruct (traj_step H (j := (i / 2)%nat)) as [_ B]; [lia|]. fold st in B. pose proof (lift_Rch (Rj _ Hi2)) as H2. 
          destruct (@cp_reach n A M b x0 mx tol atol DA LA DM Lb Lx _ _ (Rj _ Hi2)) as [O2 _].
          assert (B2 : pcg_body lA lM (fl_cp (st (i / 2)%nat)) = Some (fl_cp (st (S (i / 2)%nat)))) by (rewrite (fl_cp_body DM HA HM) by apply O2; now rewrite B).
          destruct (pcg_body_inv _ _ _ B2) as [N1 _]. cbn [fl_cp pcg_p] in N1. now rewrite lift_flat, flat_dot in N1. }
      unfold q. destruct (Nat.even i); rewrite lift_flat, ?ACi, flat_dot by auto; [exact Q|]. now rewrite inner_Ci_lr.
  Qed.
  Lemma idM : cpcg_is_id M = true -> Mf = fun x => x.
  Proof. unfold cpcg_is_id, cpcg_M. destruct M; [discriminate|reflexivity]. Qed.
  Lemma max_pos : 0 <= cpcg_max_gamma b tol atol.
  Proof. unfold cpcg_max_gamma. eapply Rle_trans; [|apply Rmax_r]. apply Rle_0_sqr. Qed.
  Lemma ccond_nz k s : Rch k s -> cond s = true -> cnsq (cp_r s) <> 0.
  Proof.
    intros H C E. pose proof max_pos. destruct (@cp_reach n A M b x0 mx tol atol DA LA DM Lb Lx k s H) as [O I]. unfold cpcg_cond in C. apply andb_prop in C as [C _]. apply Rltb_true in C.
    destruct (cpcg_is_id M) eqn:EM; [|rewrite inner_self in C; lra].
    assert (G : cp_gamma s = fst (inner (cp_r s) (Mf (cp_r s)) : Cx)).
    { destruct k as [|k]; [inversion H; subst; unfold cpcg_init; cbn [cp_gamma cp_r]; now rewrite dotu_real|]. apply O. lia. }
    rewrite G, (idM EM), inner_self in C. lra.
  Qed.
  Lemma cpcg_terminates fuel : (n <= fuel)%nat -> exists s, cpcg_solve_from A b x0 mx tol atol M fuel = Done s /\ (cp_it s <= S n)%nat /\
    ((n < mx)%nat -> cnsq (vsub b (A (cp_x s))) <= Rmax (tol * tol * cnsq b) (atol * atol)).
  Proof.
    intros Hf. destruct (@while_total _ cond (cpcg_body A Mf) (cpcg_init A Mf b x0) fuel) as [s E].
    - intros k s H C. now apply (run_short H), (ccond_nz H).
    - intros k s H C. pose proof (proj2 (run_short H (ccond_nz H C))). lia.
    - exists s. split; [exact E|]. pose proof E as E'. apply while_done in E' as (k & _ & H & C). destruct (@cp_reach n A M b x0 mx tol atol DA LA DM Lb Lx k s H) as [O I].
      assert (Kn : (k <= n)%nat).
      { destruct k as [|k]; [lia|]. destruct (reaches_S_inv H) as (s1 & H1 & C1 & _). now apply (run_short H1), (ccond_nz H1). }
      split; [lia|]. intros HL. pose proof O as (_ & _ & Er & _). rewrite <- Er.
      assert (P0 : 0 <= Rmax (tol * tol * cnsq b) (atol * atol)) by (eapply Rle_trans; [|apply Rmax_r]; apply Rle_0_sqr).
      destruct (Req_dec (cnsq (cp_r s)) 0) as [Z|Z]; [lra|]. pose proof (proj2 (run_short H Z)) as K1.
      unfold cpcg_cond in C. destruct (Nat.ltb_spec (cp_it s) mx) as [Hm|Hm]; [|lia]. rewrite andb_true_r in C. unfold cpcg_max_gamma in C. rewrite inner_self in C.
      destruct (cpcg_is_id M) eqn:EM.
      + assert (G : cp_gamma s = fst (inner (cp_r s) (Mf (cp_r s)) : Cx)).
        { destruct k as [|k]; [inversion H; subst; unfold cpcg_init; cbn [cp_gamma cp_r]; now rewrite dotu_real|]. apply O. lia. }
        rewrite G, (idM EM), inner_self in C. match type of C with Rltb ?a ?b = _ => destruct (Rltb_spec a b) end; [discriminate|lra].
      + rewrite inner_self in C. match type of C with Rltb ?a ?b = _ => destruct (Rltb_spec a b) end; [discriminate|lra].
  Qed.
End Term.
