(** First order methods: solutions exist and the results approach them. *)
From Coq Require Import List Arith Bool Lia Reals Lra Psatz.
From Verif Require Import Vec RVec RMat Loop LoopLemmas SolverSpec SolverLemmas XReal OptSpec OptModel OptProofs OptProofs2 OptProofs3 SlsProofs SlsLemmas SpgSpec FomSpec FomModel ScdModel ScdProofs FomProofs FomProofs2 FomProps L1RecProofs SpglProofs4 SeqSpec SeqProofs ConvProofs ConvProofs2.
Import ListNotations.
Set Implicit Arguments.
Unset Strict Implicit.
Local Open Scope R_scope.

Lemma square_vanish c eps : 0 <= c -> 0 < eps -> exists N, forall k, (N <= k)%nat -> c / INR (k + 1) ^ 2 <= eps.
Proof.
  intros Hc He. assert (Pe : 0 < eps / (c + 1)) by (apply Rdiv_lt_0_compat; lra).
  destruct (archimed_cor1 _ Pe) as (N & HN & N0). exists N. intros k Hk. pose proof (lt_0_INR N N0). apply le_INR in Hk. rewrite plus_INR. cbn [INR].
  assert (K1 : c + 1 <= eps * INR N).
  { apply Rmult_le_reg_r with (/ INR N * / (c + 1)). { apply Rmult_lt_0_compat; apply Rinv_0_lt_compat; lra. }
    replace ((c + 1) * (/ INR N * / (c + 1))) with (/ INR N) by (field; split; lra).
    replace (eps * INR N * (/ INR N * / (c + 1))) with (eps / (c + 1)) by (field; split; lra). lra. }
  apply Rmult_le_reg_r with ((INR k + 1) ^ 2); [nra|]. unfold Rdiv. rewrite Rmult_assoc, Rinv_l by nra.
  assert (eps * INR N <= eps * (INR k + 1) ^ 2) by (apply Rmult_le_compat_l; nra). lra.
Qed.
Lemma square_le c k : 0 <= c -> c / INR (k + 1) ^ 2 <= c.
Proof.
  intros Hc. rewrite plus_INR. cbn [INR]. pose proof (pos_INR k). unfold Rdiv. rewrite <- (Rmult_1_r c) at 2. apply Rmult_le_compat_l; auto.
  rewrite <- Rinv_1. apply Rinv_le_contravar; nra.
Qed.
Lemma ball_closed n tau : closed n (fun v => nrm1 v <= tau).
Proof.
  intros x l L D HC. apply (@calm_limit n (nrm1)) with (x := x); auto.
  - intros v Lv. exists (INR n). split; [apply pos_INR|]. intros u Lu. now apply nrm1_calm.
  - intros eps He. exists O. intros k _. specialize (D k). lra.
Qed.
Section Fom.
  Variables (n m : nat) (A T : vec -> vec) (b x0 : vec) (L : R).
  Hypothesis HA : adjoint_ops n m A T.
  Hypothesis Hb : length b = m.
  Hypothesis Hx : length x0 = n.
  Hypothesis PL : 0 < L.
  Hypothesis HL : forall x, length x = n -> nrm2 (A x) <= L * nrm2 x.
  Definition exact_options (opt : fom_options) : Prop := 0 < fo_beta opt /\ fo_alpha opt = 1 /\ fo_L0 opt = L /\ fo_Lexact opt = Some L.
  Lemma options_ok opt : exact_options opt -> fom_options_ok opt.
  Proof. intros (H1 & H2 & H3 & H4). unfold fom_options_ok. rewrite H2, H3, H4. split; [lra|]. split; [auto|]. split; [auto|]. intros e E. injection E as <-. lra. Qed.
  Let Lob : length (ropp b) = m. Proof. vl. Qed.
  Let Sm : smooth_ok m (smooth_quad_matrix None None None). Proof. split; auto. Qed.
  Lemma quad_calm v l : length v = n -> length l = n -> / 2 * nrm2 (rsub (A l) b) <= / 2 * nrm2 (rsub (A v) b) + nrm (T (rsub b (A l))) * nrm (rsub v l).
  Proof.
    intros Lv Ll. pose proof (proj1 (proj1 HA) v Lv). pose proof (proj1 (proj1 HA) l Ll).
    rewrite (@nrm2_sub_sym (A l)), (@nrm2_sub_sym (A v)) by lia. now apply (@data_calm n m A T b HA Hb).
  Qed.
  Section Lasso.
    Variable tau : R.
    Hypothesis Ht : 0 <= tau.
    Notation F := (fun v => / 2 * nrm2 (rsub (A v) b)).
    Notation ball := (fun v => nrm1 v <= tau).
    Lemma quad_calm' : calm n F.
    Proof. intros l Ll. exists (nrm (T (rsub b (A l)))). split; [apply nrm_pos|]. intros v Lv. now apply quad_calm. Qed.
    Lemma lasso_attains : exists q, minimises n ball F q.
    Proof.
      apply (@attains n ball F (@ball_closed n tau) quad_calm' (rzero n) 0 tau); [vl| | |].
      - rewrite SpglProofs4.nrm1_zero. exact Ht.
      - intros z _ _. pose proof (nrm2_pos (rsub (A z) b)). lra.
      - intros z _ Hz _. eapply Rle_trans; [apply nrm_le_nrm1|auto].
    Qed.
    Lemma lasso_len opt fuel s : exact_options opt -> fom_lasso A T b tau x0 opt fuel = Done s -> length (fm_x s) = n /\ nrm1 (fm_x s) <= tau.
    Proof.
      intros Ho E. unfold fom_lasso, fom in E. destruct (fom_first _ _ _ _ _ _ _) as [s1|] eqn:E1; [|discriminate].
      apply while_done in E as [j [_ [Hr _]]].
      destruct (@C45_invariants n m (smooth_quad_matrix None None None) (prox_l1_ball tau) A T (ropp b) opt ball (fun _ => 0) x0 HA Lob Sm (@ball_convex n tau) (@capable_l1_ball n tau Ht) (options_ok Ho) Hx) as [s1' [E1' R1]].
      rewrite E1 in E1'. injection E1' as <-. destruct (R1 _ _ Hr) as (D & _ & _ & Ls & _). auto.
    Qed.
    Lemma lasso_approaches : nrm1 x0 <= tau -> forall eps, 0 < eps -> exists N, forall opt fuel s, exact_options opt -> (fo_max_iters opt <= fuel)%nat ->
      fom_lasso A T b tau x0 opt fuel = Done s -> (N <= fm_iterations s)%nat -> exists p, minimises n ball F p /\ nrm (rsub (fm_x s) p) < eps.
    Proof.
      intros N0 eps He. destruct lasso_attains as [q Mq]. pose proof Mq as (Lq & Nq & Hq).
      assert (P1 : 0 <= 2 * L * nrm2 (rsub x0 q)) by (pose proof (nrm2_pos (rsub x0 q)); apply Rmult_le_pos; lra).
      destruct (@approach n ball F (@ball_closed n tau) quad_calm'
        (fun k x => exists opt fuel s, exact_options opt /\ (fo_max_iters opt <= fuel)%nat /\ fom_lasso A T b tau x0 opt fuel = Done s /\ k = fm_iterations s /\ x = fm_x s)
        q tau (fun k => 2 * L * nrm2 (rsub x0 q) / INR (k + 1) ^ 2) Mq) with (eps := eps) as [N Q]; auto.
      - intros k x (opt & fuel & s & Ho & Hf & E & -> & ->). destruct (lasso_len Ho E) as [Ls Ns]. repeat split; auto.
        + eapply Rle_trans; [apply nrm_le_nrm1|auto].
        + destruct Ho as (H1 & H2 & H3 & H4).
          destruct (@C45_lasso n m A T b tau opt x0 L q fuel HA Hb Ht PL HL H1 H2 H3 H4 Hx N0 Hf Lq Nq Hq) as (s' & E' & _ & R). rewrite E in E'. injection E' as <-. lra.
      - intros e E. now apply square_vanish.
      - exists N. intros opt fuel s Ho Hf E Hk. apply (Q (fm_iterations s)); auto. exists opt, fuel, s. auto.
    Qed.
  End Lasso.
  Section Rls.
    Variable lam : R.
    Hypothesis Pl : 0 < lam.
    Notation F := (fun v => / 2 * nrm2 (rsub (A v) b) + lam * nrm1 v).
    Lemma rls_calm : calm n F.
    Proof.
      intros l Ll. exists (nrm (T (rsub b (A l))) + lam * INR n). split.
      { pose proof (nrm_pos (T (rsub b (A l)))). pose proof (pos_INR n). assert (0 <= lam * INR n) by (apply Rmult_le_pos; lra). lra. }
      intros x Lx. pose proof (quad_calm Lx Ll). pose proof (nrm1_calm Lx Ll) as Q. apply (Rmult_le_compat_l lam) in Q; lra.
    Qed.
    Lemma rls_bounded x : nrm x <= F x / lam.
    Proof.
      pose proof (nrm_le_nrm1 x) as N. apply Rmult_le_reg_l with lam; auto. cbv beta.
      replace (lam * ((/ 2 * nrm2 (rsub (A x) b) + lam * nrm1 x) / lam)) with (/ 2 * nrm2 (rsub (A x) b) + lam * nrm1 x) by (field; lra).
      pose proof (nrm2_pos (rsub (A x) b)). apply (Rmult_le_compat_l lam) in N; lra.
    Qed.
    Lemma rls_attains : exists q, minimises n everywhere F q.
    Proof.
      apply (@attains n everywhere F (@all_closed n) rls_calm (rzero n) 0 (F (rzero n) / lam)); [vl|exact I| |].
      - intros z _ _. pose proof (nrm2_pos (rsub (A z) b)). pose proof (Rmult_le_pos lam (nrm1 z) ltac:(lra) (nrm1_pos z)). lra.
      - intros z _ _ Hz. eapply Rle_trans; [apply rls_bounded|]. apply Rmult_le_compat_r; auto. left. now apply Rinv_0_lt_compat.
    Qed.
    Lemma rls_len opt fuel s : exact_options opt -> fom_l1rls A T b lam x0 opt fuel = Done s -> length (fm_x s) = n.
    Proof.
      intros Ho E. unfold fom_l1rls, fom in E. destruct (fom_first _ _ _ _ _ _ _) as [s1|] eqn:E1; [|discriminate].
      apply while_done in E as [j [_ [Hr _]]].
      destruct (@C45_invariants n m (smooth_quad_matrix None None None) (prox_l1 lam) A T (ropp b) opt everywhere (fun z => lam * nrm1 z) x0 HA Lob Sm (@everywhere_convex n) (@capable_l1 n lam Pl) (options_ok Ho) Hx) as [s1' [E1' R1]].
      rewrite E1 in E1'. injection E1' as <-. destruct (R1 _ _ Hr) as (_ & _ & _ & Ls & _). auto.
    Qed.
    Lemma rls_approaches eps : 0 < eps -> exists N, forall opt fuel s, exact_options opt -> (fo_max_iters opt <= fuel)%nat ->
      fom_l1rls A T b lam x0 opt fuel = Done s -> (N <= fm_iterations s)%nat -> exists p, minimises n everywhere F p /\ nrm (rsub (fm_x s) p) < eps.
    Proof.
      intros He. destruct rls_attains as [q Mq]. pose proof Mq as (Lq & _ & Hq).
      assert (P1 : 0 <= 2 * L * nrm2 (rsub x0 q)) by (pose proof (nrm2_pos (rsub x0 q)); apply Rmult_le_pos; lra).
      destruct (@approach n everywhere F (@all_closed n) rls_calm
        (fun k x => exists opt fuel s, exact_options opt /\ (fo_max_iters opt <= fuel)%nat /\ fom_l1rls A T b lam x0 opt fuel = Done s /\ k = fm_iterations s /\ x = fm_x s)
        q ((F q + 2 * L * nrm2 (rsub x0 q)) / lam) (fun k => 2 * L * nrm2 (rsub x0 q) / INR (k + 1) ^ 2) Mq) with (eps := eps) as [N Q]; auto.
      - intros k x (opt & fuel & s & Ho & Hf & E & -> & ->). pose proof (rls_len Ho E) as Ls.
        destruct Ho as (H1 & H2 & H3 & H4).
        destruct (@C45_l1rls n m A T b lam opt x0 L q fuel HA Hb Pl PL HL H1 H2 H3 H4 Hx Hf Lq (fun v Lv => Hq v Lv I)) as (s' & E' & R). rewrite E in E'. injection E' as <-.
        pose proof (@square_le (2 * L * nrm2 (rsub x0 q)) (fm_iterations s) P1).
        repeat split; auto; [|lra]. eapply Rle_trans; [apply rls_bounded|]. apply Rmult_le_compat_r; [left; now apply Rinv_0_lt_compat|]. lra.
      - intros e E. now apply square_vanish.
      - exists N. intros opt fuel s Ho Hf E Hk. apply (Q (fm_iterations s)); auto. exists opt, fuel, s. auto.
    Qed.
  End Rls.
End Fom.
