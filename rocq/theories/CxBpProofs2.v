(** On real data given as complex data the complex solver makes the steps of the real one. *)
From Coq Require Import ZArith List Arith Bool Lia Reals Lra Psatz.
From Verif Require Import Scalar Vec RVec RMat Loop LoopLemmas SolverSpec SolverLemmas LopModel LopSpec OptSpec OptModel OptProofs OptProofs2 SelModel SelProofs SpgModel SpglModel SpglSpec CxSpec CxModel CxProofs CxSpglModel CxSpglSpec CxSpglProofs CxSpglProofs2 CxBpModel CxBpSpec.
Import ListNotations.
Set Implicit Arguments.
Unset Strict Implicit.
Local Open Scope R_scope.
Notation emb := as_complex.
Lemma cabs_real a : cabs (a, 0) = Rabs a.
Proof. unfold cabs. cbn [fst snd]. rewrite Rmult_0_l, Rplus_0_r. apply sqrt_Rsqr_abs. Qed.
Lemma emb_sub x : forall y, vsub (emb x) (emb y) = (emb (rsub x y) : list (car Cs)).
Proof. induction x as [|a x IH]; intros [|b y]; try reflexivity. pose proof (IH y) as E. unfold vsub, rsub, emb in *. cbn in *. rewrite E. f_equal. unfold Csub. cbn. apply (f_equal2 pair); ring. Qed.
Lemma emb_scale c x : vscale (ofR c : Cs) (emb x) = (emb (rscale c x) : list (car Cs)).
Proof. induction x as [|a x IH]; [reflexivity|]. unfold vscale, rscale, emb in *. cbn in *. rewrite IH. f_equal. unfold Cmul, ofR. cbn. apply (f_equal2 pair); ring. Qed.
Lemma emb_opp x : vopp (emb x) = (emb (ropp x) : list (car Cs)).
Proof. induction x as [|a x IH]; [reflexivity|]. unfold vopp, ropp, emb in *. cbn in *. rewrite IH. f_equal. unfold Copp. cbn. apply (f_equal2 pair); ring. Qed.
Lemma emb_inner x : forall y, inner (emb x : list (car Cs)) (emb y) = (rdot x y, 0).
Proof. induction x as [|a x IH]; intros [|b y]; try reflexivity. pose proof (IH y) as E. cbn in E. unfold emb, rdot in *. cbn in *. rewrite E. unfold Cadd, Cmul, Cconj. cbn. apply (f_equal2 pair); ring. Qed.
Lemma emb_nrm x : cnorm (emb x) = nrm x.
Proof. unfold cnorm, nrm, cnsq. f_equal. induction x as [|a x IH]; [reflexivity|]. unfold emb, rdot in *. cbn in *. rewrite IH. unfold Cnsq. cbn. ring. Qed.
Lemma emb_abs x : map cabs (emb x) = map Rabs x.
Proof. unfold emb. rewrite map_map. apply map_ext. intros a. apply cabs_real. Qed.
Lemma emb_linf x : clinf (emb x) = nrminf x.
Proof. unfold clinf. rewrite emb_abs. induction x as [|a x IH]; [reflexivity|]. cbn. now rewrite Rabs_Rabsolu, IH. Qed.
Lemma rl_nrm1 x : rlsum (map Rabs x) = nrm1 x. Proof. induction x as [|a x IH]; [reflexivity|]. cbn in *. now rewrite IH. Qed.
Lemma emb_l1 x : cl1 (emb x) = nrm1 x.
Proof. rewrite cl1_cnrm1. unfold cnrm1. rewrite emb_abs. apply rl_nrm1. Qed.
Lemma emb_obj x : cobj_val (emb x) = obj_val x.
Proof. unfold cobj_val, obj_val. now rewrite emb_inner, cabs_real. Qed.
Lemma emb_len x : length (emb x) = length x. Proof. apply map_length. Qed.
Lemma emb_proj x q : 0 <= q -> cproject (emb x) q = emb (spgl1_project_to_l1_ball x q).
Proof.
  intros Hq. unfold cproject, spgl1_project_to_l1_ball_c, spgl1_project_to_l1_ball. rewrite <- cl1_cnrm1, emb_l1. destruct (Rltb_spec q (nrm1 x)) as [H|H]; [|reflexivity].
  rewrite emb_abs. assert (Hab : forall b, In b (map Rabs x) -> 0 <= b) by (intros b Hb; apply in_map_iff in Hb; destruct Hb as [c [<- _]]; apply Rabs_pos).
  rewrite <- rl_nrm1 in H. destruct (kappa_spec _ Hab Hq H) as [Hk _]. set (k := l1_threshold (map Rabs x) q) in *. unfold emb. rewrite !map_map. apply map_ext. intros a. unfold cshrink1. cbv zeta. rewrite cabs_real. cbn [fst snd].
  destruct (Reqb_spec (Rabs a) 0) as [E|E].
  - assert (a = 0) by (destruct (Req_dec a 0); auto; exfalso; now apply (Rabs_no_R0 a)). subst a. rewrite Rabs_R0. cbn [fst snd]. rewrite (Rmax_right (0 - k)) by lra. rewrite Rmax_left, Rmin_left by lra. apply (f_equal2 pair); ring.
  - cbn [fst snd]. apply (f_equal2 pair).
    + destruct (Rle_or_lt 0 a) as [P|P].
      * rewrite Rabs_pos_eq in * by auto. rewrite (Rmin_left 0) by lra. rewrite Rmax_comm. field. auto.
      * rewrite Rabs_left in * by auto. rewrite (Rmax_left 0 (a - k)) by lra. rewrite Rplus_0_l. destruct (Rle_or_lt 0 (a + k)).
        -- rewrite Rmin_left, Rmax_right by lra. ring.
        -- rewrite Rmin_right, Rmax_left by lra. field. lra.
    + unfold Rdiv. ring.
Qed.
Section Sim.
  Variables (A T : cvec -> cvec) (Ar Tr : vec -> vec) (b : vec) (sigma : R) (opt : spgl1_options).
  Hypothesis HA : forall x, A (emb x) = emb (Ar x).
  Hypothesis HT : forall x, T (emb x) = emb (Tr x).
  Notation P := spgl1_project_to_l1_ball.
  Section Search.
    Variables (x g : vec) (al fmax tau gamma : R).
    Hypothesis Ht : 0 <= tau.
    Definition em_cls (s : cls_state) : ccls_state :=
      CCLSState (cl_alpha s) (cl_scale s) (emb (cl_x s)) (emb (cl_r s)) (emb (cl_d s)) (cl_gtd s) (cl_d_norm_old s) (cl_f s) (cl_lim s) (cl_iters s) (cl_safe s).
    Lemma em_cand a sc dn it sf : ccls_candidate A (emb b) (emb x) (emb g) al fmax tau gamma a sc dn it sf = em_cls (cls_candidate Ar b x g al fmax P tau gamma a sc dn it sf).
    Proof.
      unfold cls_candidate, ccls_candidate, em_cls, cls_g, ccls_g. cbv zeta. cbn [cl_alpha cl_scale cl_x cl_r cl_d cl_gtd cl_d_norm_old cl_f cl_lim cl_iters cl_safe].
      rewrite !emb_scale, emb_sub, emb_proj, HA, !emb_sub, emb_obj, emb_inner by auto. reflexivity.
    Qed.
    Lemma em_next s : ccls_next A (emb b) (emb x) (emb g) al fmax tau gamma (em_cls s) = option_map em_cls (cls_next Ar b x g al fmax P tau gamma s).
    Proof.
      unfold cls_next, ccls_next. cbv zeta. cbn [option_map em_cls ccl_alpha ccl_d ccl_d_norm_old ccl_safe ccl_scale ccl_iters]. unfold ccls_g_norm, cls_g_norm, ccls_g, cls_g, ccls_n2, cls_n2.
      rewrite emb_scale, !emb_nrm, emb_len. f_equal. apply em_cand.
    Qed.
    Lemma em_search : ccurvy_line_search A (emb b) (emb x) (emb g) al fmax tau gamma = match curvy_line_search Ar b x g al fmax P tau gamma with Done s => Done (em_cls s) | Fail => Fail | Fuel => Fuel end.
    Proof.
      unfold curvy_line_search, ccurvy_line_search. assert (E : ccls_init A (emb b) (emb x) (emb g) al fmax tau gamma = em_cls (cls_init Ar b x g al fmax P tau gamma)) by apply em_cand.
      rewrite E. exact (@sim_while _ _ em_cls cls_cond _ ccls_cond _ (fun s => eq_refl) em_next 10 _).
    Qed.
  End Search.
  Definition em_bp (s : bp_state) : cbp_state :=
    CBPState (emb (bp_x s)) (emb (bp_g s)) (emb (bp_r s)) (bp_f_past s) (bp_tau s) (bp_tau_changed s) (bp_r_norm s) (bp_r_gap s) (bp_r_res_error s) (bp_r_f_error s)
      (bp_alpha s) (bp_alpha_next s) (bp_iterations s) (bp_n_times s) (bp_n_trans s) (bp_n_newton s) (bp_ls_iters s).
  Lemma em_metrics g r f tau : cbpic_metrics (emb b) (emb g) (emb r) f sigma tau = bpic_metrics b g r f sigma tau.
  Proof.
    unfold bpic_metrics, cbpic_metrics. cbv zeta. rewrite emb_sub, emb_inner, emb_linf, emb_nrm. f_equal. f_equal.
    assert (E : Cadd (rdot r (rsub r b), 0) (ofR (tau * nrminf g) : Cs) = (rdot r (rsub r b) + tau * nrminf g, 0)) by (unfold Cadd, ofR; cbn; apply (f_equal2 pair); ring).
    rewrite E. apply cabs_real.
  Qed.
  Lemma em_update x t : 0 <= t -> cupdate_xrgf A T (emb b) (emb x) t = let '(x, r, g, f) := update_xrgf Ar Tr b x t in (emb x, emb r, emb g, f).
  Proof. intros Ht. unfold update_xrgf, cupdate_xrgf. cbv zeta. now rewrite emb_proj, HA, emb_sub, HT, emb_opp, emb_obj. Qed.
  Lemma em_init x0 : cbp_init A T (emb b) sigma opt (emb x0) = option_map em_bp (bp_init Ar Tr b sigma opt x0).
  Proof.
    unfold bp_init, cbp_init. cbv zeta. rewrite emb_l1, em_update by apply nrm1_pos. destruct (update_xrgf _ _ _ _ _) as [[[x r] g] f]. rewrite em_metrics.
    destruct (newton_tau _ _ _ _); [|reflexivity]. rewrite emb_sub, emb_proj, emb_sub, emb_linf by lra. reflexivity.
  Qed.
  Lemma newton_pos t r sg g t' : newton_tau t r sg g = Some t' -> 0 <= t'.
  Proof. unfold newton_tau. destruct (Reqb g 0); [discriminate|]. intros H. injection H as <-. apply Rmax_l. Qed.
  Lemma em_body s : 0 <= bp_tau s -> cbp_body A T (emb b) sigma opt (em_bp s) = option_map em_bp (bp_body Ar Tr b sigma opt s) /\ (forall s', bp_body Ar Tr b sigma opt s = Some s' -> 0 <= bp_tau s').
  Proof.
    intros Ht. unfold bp_body, cbp_body. cbv zeta. cbn [em_bp cbp_x cbp_g cbp_f_past cbp_alpha_next cbp_tau cbp_tau_changed cbp_n_times cbp_n_trans cbp_n_newton cbp_iterations cbp_ls_iters]. rewrite em_search by auto.
    destruct (curvy_line_search _ _ _ _ _ _ _ _ _) as [l| |]; try (split; [reflexivity|discriminate]). cbn [em_cls ccl_x ccl_r ccl_f ccl_iters ccl_alpha]. rewrite HT, emb_opp, em_metrics.
    set (mm := bpic_metrics _ _ _ _ _ _). set (ch := _ && negb _). destruct (if ch then newton_tau _ _ _ _ else _) as [t|] eqn:N; [|split; [reflexivity|discriminate]].
    assert (Tn : 0 <= t) by (destruct ch; [now apply newton_pos in N|injection N as <-; exact Ht]).
    destruct (Rltb t (bp_tau s)).
    - rewrite em_update by auto. destruct (update_xrgf _ _ _ _ _) as [[[x r] g] f]. rewrite !emb_sub. unfold cbb_step, bb_step. rewrite !emb_inner. split; [reflexivity|]. intros s' H. injection H as <-. exact Tn.
    - rewrite !emb_sub. unfold cbb_step, bb_step. rewrite !emb_inner. split; [reflexivity|]. intros s' H. injection H as <-. exact Tn.
  Qed.
  Lemma em_cond s : cbp_cond (emb b) sigma opt (em_bp s) = bp_cond b sigma opt s.
  Proof. unfold bp_cond, cbp_cond. rewrite emb_nrm. reflexivity. Qed.
  Lemma em_while fuel : forall s, 0 <= bp_tau s -> while_ (cbp_cond (emb b) sigma opt) (cbp_body A T (emb b) sigma opt) fuel (em_bp s) =
    match while_ (bp_cond b sigma opt) (bp_body Ar Tr b sigma opt) fuel s with Done s => Done (em_bp s) | Fail => Fail | Fuel => Fuel end.
  Proof.
    induction fuel as [|fuel IH]; intros s Ht; cbn [while_]; rewrite em_cond; destruct (bp_cond b sigma opt s); try reflexivity.
    destruct (em_body Ht) as [E P]. rewrite E. destruct (bp_body _ _ _ _ _ s) as [s'|]; [|reflexivity]. cbn [option_map]. apply IH. now apply P.
  Qed.
  Lemma em_run x0 fuel : csolve_bpic_from A T (emb b) sigma opt (emb x0) fuel = match solve_bpic_from Ar Tr b sigma opt x0 fuel with Done s => Done (em_bp s) | Fail => Fail | Fuel => Fuel end.
  Proof.
    unfold solve_bpic_from, csolve_bpic_from. rewrite em_init. destruct (bp_init Ar Tr b sigma opt x0) as [s0|] eqn:I; [|reflexivity]. cbn [option_map]. apply em_while.
    unfold bp_init in I. cbv zeta in I. destruct (update_xrgf _ _ _ _ _) as [[[x r] g] f]. destruct (newton_tau _ _ _ _) as [t|] eqn:N; [|discriminate]. injection I as <-. now apply newton_pos in N.
  Qed.
  Lemma em_same s : same_state s (em_bp s). Proof. repeat split. Qed.
End Sim.
