From Coq Require Import List Arith Bool Lia Reals Lra Psatz.
From Verif Require Import Vec RVec RMat Loop LoopLemmas SolverSpec SolverLemmas OptSpec OptModel OptProofs OptProofs2 SelModel SelProofs SpgModel FomProofs2 SpglModel SpglSpec SpglProofs.
Import ListNotations.
Set Implicit Arguments.
Local Open Scope R_scope.

Lemma rclip_range v lo hi : lo <= hi -> lo <= rclip v lo hi <= hi.
Proof. intros H. unfold rclip. split; [apply Rmin_glb; [auto|apply Rmax_l]|apply Rmin_l]. Qed.
Lemma first_step_range lo hi d : lo <= hi -> lo <= first_step lo hi d <= hi.
Proof. intros H. unfold first_step. destruct (Reqb d 0); [lra|now apply rclip_range]. Qed.
Lemma bb_step_range lo hi s y : lo <= hi -> lo <= bb_step lo hi s y <= hi.
Proof. intros H. unfold bb_step. cbv zeta. destruct (Rleb _ _); [lra|now apply rclip_range]. Qed.
Lemma cbuf_push_tab M (f : nat -> R) v : (0 < M)%nat ->
  cbuf_push_left (tab M f) v = tab M (fun i => match i with O => v | S i => f i end).
Proof.
  intros HM. destruct M as [|M]; [lia|]. assert (E : forall g : nat -> R, tab (S M) g = tab M g ++ [g M]).
  { intros g. unfold tab. rewrite seq_S, map_app. reflexivity. }
  unfold cbuf_push_left. rewrite E. rewrite removelast_last. destruct (tab M f ++ [f M]) as [|? ?] eqn:Q.
  - destruct (tab M f); discriminate.
  - unfold tab at 2. cbn [seq map]. f_equal. rewrite <- seq_shift, map_map. reflexivity.
Qed.
Lemma repeat_tab (v : R) M : repeat v M = tab M (fun _ => v).
Proof.
  unfold tab. generalize 0%nat as s. induction M as [|M IH]; intros s; [reflexivity|]. cbn [repeat seq map]. f_equal. apply IH.
Qed.
Lemma div_max_le g f t : 0 <= g -> Rabs g / Rmax 1 f <= t -> g <= t * Rmax 1 f.
Proof.
  intros Hg H. rewrite Rabs_pos_eq in H by auto. pose proof (Rmax_l 1 f).
  apply Rmult_le_reg_r with (/ Rmax 1 f); [apply Rinv_0_lt_compat; lra|]. rewrite Rmult_assoc, Rinv_r by lra. unfold Rdiv in H. lra.
Qed.

Section Lasso.
  Variables (n m : nat) (A T : vec -> vec) (b : vec) (tau : R) (opt : spgl1_options) (x0 : vec).
  Hypothesis AD : adjoint_ops n m A T.
  Hypothesis Lb : length b = m.
  Hypothesis Lx0 : length x0 = n.
  Hypothesis Ht : 0 <= tau.
  Hypothesis Hamin : 0 < go_alpha_min opt.
  Hypothesis Hamax : go_alpha_min opt <= go_alpha_max opt.
  Notation cond := (lasso_cond b opt).
  Notation body := (lasso_body A T b tau opt).
  Notation init := (lasso_init A T b tau opt x0).
  Notation Rch := (reaches cond body init).
  Notation Tr := (traj cond body init).

  Definition lasso_ok (s : lasso_state) : Prop :=
    length (la_x s) = n /\ nrm1 (la_x s) <= tau /\ la_r s = rsub b (A (la_x s)) /\ la_g s = ropp (T (la_r s)) /\
    la_r_norm s = nrm (rsub b (A (la_x s))) /\
    la_r_gap s = (rdot (la_r s) (rsub (la_r s) b) + tau * nrminf (la_g s)) / Rmax 1 (misfit A b (la_x s)) /\
    go_alpha_min opt <= la_alpha_next s <= go_alpha_max opt /\
    la_n_times s = (la_iterations s + la_ls_iters s)%nat.
  Lemma metrics_ok x f : length x = n -> nrm1 x <= tau -> f = misfit A b x ->
    let r := rsub b (A x) in let g := ropp (T r) in
    lasso_metrics b g r f tau = (nrm r, (rdot r (rsub r b) + tau * nrminf g) / Rmax 1 (misfit A b x)).
  Proof.
    intros Lx Hx Ef. cbv zeta. unfold lasso_metrics. cbv zeta. rewrite Ef.
    rewrite (Rabs_pos_eq (rdot _ _ + _)) by (apply (@gap_nonneg n m A T b _ tau AD Lb Lx Hx)). reflexivity.
  Qed.
  Lemma lasso_init_ok : lasso_ok init /\ la_iterations init = 1%nat /\ la_n_trans init = 1%nat /\ la_ls_iters init = 0%nat /\
    la_f_past init = repeat (misfit A b (la_x init)) (go_memory opt).
  Proof.
    destruct (@vi_spgl1 n tau Ht x0 Lx0) as [L [C _]]. unfold lasso_init. cbv zeta.
    set (x := spgl1_project_to_l1_ball x0 tau) in *. rewrite (@metrics_ok x _ L C) by (now rewrite obj_val_eq).
    unfold lasso_ok. cbn [la_x la_r la_g la_r_norm la_r_gap la_alpha_next la_n_times la_iterations la_n_trans la_ls_iters la_f_past].
    rewrite obj_val_eq. repeat split; auto; apply first_step_range; auto.
  Qed.
  Lemma lasso_step s s' : lasso_ok s -> body s = Some s' ->
    lasso_ok s' /\ la_iterations s' = S (la_iterations s) /\ la_n_trans s' = la_n_times s' /\
    la_f_past s' = cbuf_push_left (la_f_past s) (misfit A b (la_x s')) /\
    (exists j, (j <= 10)%nat /\ la_alpha s' = / 2 ^ j /\ la_ls_iters s' = (la_ls_iters s + j)%nat /\
      (misfit A b (la_x s') + go_gamma opt * nrm2 (rsub (la_x s') (la_x s)) < vmax (la_f_past s) \/ la_x s' = la_x s \/ j = 10%nat \/ go_gamma opt < 0)) /\
    (la_x s' = la_x s -> lasso_solution n A b tau (la_x s)).
  Proof.
    intros [Lx [Hx [Er [Eg [En [Egap [Hal Ent]]]]]]] B. unfold lasso_body in B. cbv zeta in B.
    pose proof (@LAx n m A T AD _ Lx) as LAx1. assert (Lg : length (la_g s) = n) by (rewrite Eg, Er; assert (length (T (rsub b (A (la_x s)))) = n) by (apply AD; vl); vl).
    destruct (curvy_line_search _ _ _ _ _ _ _ _ _) as [l| |] eqn:W; try discriminate.
    destruct (@search_result n A b (la_x s) (la_g s) (la_alpha_next s) (vmax (la_f_past s)) tau (go_gamma opt) Lx Lg ltac:(lra) Ht l W)
      as [Q1 [Q2 [Q3 [Q4 [Q5 [Q6 [Q7 [Q10 [Q8 [Q9 [Q11 Q12]]]]]]]]]]]. specialize (Q8 Hx). specialize (Q9 Hx). specialize (Q11 Hx).
    rewrite Q3, Q4 in B. rewrite (@metrics_ok (cl_x l) _ Q1 Q2 eq_refl) in B. injection B as <-.
    unfold lasso_ok. cbn [la_x la_r la_g la_r_norm la_r_gap la_alpha_next la_n_times la_iterations la_n_trans la_ls_iters la_f_past la_alpha].
    split; [|split; [|split; [|split; [|split]]]]; auto.
    - repeat (split; [auto; fail|]). split; [now apply bb_step_range|]. rewrite Ent. lia.
    - exists (cl_iters l). repeat (split; [auto; fail|]). destruct Q11 as [Q|[Q|Q]]; auto. rewrite Q4, Q10 in Q.
      destruct (Rlt_dec (go_gamma opt) 0); [auto|]. left.
      pose proof (Rmult_le_compat_l (go_gamma opt) _ _ ltac:(lra) Q9). lra.
    - intros Ex. apply stationary with (m := m) (T := T); auto. rewrite <- Er, <- Eg. auto.
  Qed.
  Lemma lasso_step_total s : lasso_ok s -> body s <> None.
  Proof.
    intros [Lx [Hx [Er [Eg [En [Egap [Hal Ent]]]]]]]. unfold lasso_body. cbv zeta.
    pose proof (@LAx n m A T AD _ Lx) as LAx1. assert (Lg : length (la_g s) = n) by (rewrite Eg, Er; assert (length (T (rsub b (A (la_x s)))) = n) by (apply AD; vl); vl).
    destruct (@search_total n A b (la_x s) (la_g s) (la_alpha_next s) (vmax (la_f_past s)) tau (go_gamma opt) Lx Lg) as [l E].
    rewrite E. destruct (lasso_metrics _ _ _ _ _). discriminate.
  Qed.
  Lemma lasso_reach k s : Rch k s -> lasso_ok s /\ la_iterations s = S k.
  Proof.
    intros H. induction H as [|k s s' H [IH1 IH2] C B]; [destruct lasso_init_ok as [? [? _]]; auto|].
    destruct (lasso_step IH1 B) as [? [E _]]. split; auto. rewrite E, IH2. auto.
  Qed.
  Lemma lasso_memory k s : Rch k s -> la_f_past s = tab (go_memory opt) (fun i => misfit A b (la_x (Tr (k - i)))).
  Proof.
    intros H. induction H as [|k s s' H IH C B].
    - destruct lasso_init_ok as [_ [_ [_ [_ E]]]]. rewrite E, repeat_tab. apply tab_ext. reflexivity.
    - destruct (lasso_reach H) as [I _]. destruct (lasso_step I B) as [_ [_ [_ [E _]]]]. rewrite E, IH.
      assert (RS : Rch (S k) s') by (econstructor; eauto).
      destruct (Nat.eq_dec (go_memory opt) 0) as [Z|Z]; [rewrite Z; reflexivity|]. rewrite cbuf_push_tab by lia.
      apply tab_ext. intros [|i] Hi.
      + now rewrite Nat.sub_0_r, (reaches_traj RS).
      + reflexivity.
  Qed.
  Lemma lasso_bound k s : Rch k s -> (la_iterations s <= Nat.max 1 (go_max_iters opt))%nat.
  Proof.
    intros H. destruct H as [|k s s' H C B]; [destruct lasso_init_ok as [_ [E _]]; rewrite E; lia|].
    destruct (lasso_reach H) as [I _]. destruct (lasso_step I B) as [_ [E _]]. unfold lasso_cond in C.
    apply andb_prop in C as [C _]. apply andb_prop in C as [C _]. apply Nat.ltb_lt in C. lia.
  Qed.
  Lemma lasso_total fuel : (go_max_iters opt <= fuel)%nat -> exists s, solve_lasso_from A T b tau opt x0 fuel = Done s.
  Proof.
    intros Hf. apply while_total.
    - intros k s H _. apply lasso_step_total. now apply lasso_reach in H.
    - intros k s H C. destruct (lasso_reach H) as [_ E]. unfold lasso_cond in C.
      apply andb_prop in C as [C _]. apply andb_prop in C as [C _]. apply Nat.ltb_lt in C. lia.
  Qed.
  Lemma lasso_done fuel s : solve_lasso_from A T b tau opt x0 fuel = Done s ->
    lasso_ok s /\ (1 <= la_iterations s <= Nat.max 1 (go_max_iters opt))%nat /\
    ((la_iterations s < go_max_iters opt)%nat ->
      nrm (rsub b (A (la_x s))) < go_opt_tol opt * nrm b \/
      forall z, length z = n -> nrm1 z <= tau -> misfit A b (la_x s) - misfit A b z <= go_opt_tol opt * Rmax 1 (misfit A b (la_x s))).
  Proof.
    intros H. apply while_done in H as [k [_ [H C]]]. destruct (lasso_reach H) as [I E]. pose proof (lasso_bound H) as Hm.
    split; auto. split; [lia|]. intros Hi. destruct I as [Lx [Hx [Er [Eg [En [Egap _]]]]]].
    unfold lasso_cond in C. apply andb_false_iff in C as [C|C]; [apply andb_false_iff in C as [C|C]|].
    - apply Nat.ltb_ge in C. lia.
    - right. intros z Lz Hz. apply Rltb_false in C. rewrite Egap, Eg, Er in C.
      pose proof (@lasso_gap n m A T b _ tau AD Lb Lx z Lz Hz) as G. pose proof (@gap_nonneg n m A T b _ tau AD Lb Lx Hx) as G0.
      assert (G1 := @div_max_le _ (misfit A b (la_x s)) (go_opt_tol opt) G0). rewrite Rabs_pos_eq in G1 by auto. specialize (G1 C). lra.
    - left. rewrite En in C. destruct (Rleb_spec (go_opt_tol opt * nrm b) (nrm (rsub b (A (la_x s))))); [discriminate|lra].
  Qed.
End Lasso.
