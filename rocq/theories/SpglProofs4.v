(** Concrete one-dimensional runs of SPGL1. *)
From Coq Require Import List Arith Bool Lia Reals Lra Psatz.
From Verif Require Import Vec RVec RMat Loop LoopLemmas SolverSpec SolverLemmas OptSpec OptModel OptProofs OptProofs2 SelModel SelProofs SpgModel FomProofs2 SpglModel SpglSpec SpglProofs SpglProofs2 SpglProofs3.
Import ListNotations.
Set Implicit Arguments.
Local Open Scope R_scope.

Lemma nrm_1d a : nrm [a] = Rabs a.
Proof. unfold nrm. cbn. rewrite Rplus_0_r. apply sqrt_Rsqr_abs. Qed.
Lemma proj_in a t : Rabs a <= t -> spgl1_project_to_l1_ball [a] t = [a].
Proof. intros H. unfold spgl1_project_to_l1_ball, nrm1. cbn. rewrite Rplus_0_r. destruct (Rltb_spec t (Rabs a)); [lra|reflexivity]. Qed.
Lemma proj_out a t : 0 <= t -> t < a -> spgl1_project_to_l1_ball [a] t = [t].
Proof.
  intros Ht H. unfold spgl1_project_to_l1_ball, nrm1, l1_threshold, argmax_bool. cbn -[INR]. rewrite Rplus_0_r, !Rplus_0_l, (Rabs_pos_eq a) by lra.
  destruct (Rltb_spec t a); [|lra]. f_equal.
  destruct (Rltb _ _); cbn; replace ((a - t) / 1) with (a - t) by field.
  all: rewrite Rmax_right, Rmin_left by lra; ring.
Qed.
Lemma search_now A b x g al fmax P tau gamma : cls_cond (cls_init A b x g al fmax P tau gamma) = false ->
  curvy_line_search A b x g al fmax P tau gamma = Done (cls_init A b x g al fmax P tau gamma).
Proof. intros H. unfold curvy_line_search. cbn [while_]. rewrite H. reflexivity. Qed.
Lemma search_next A b x g al fmax P tau gamma s : cls_cond (cls_init A b x g al fmax P tau gamma) = true ->
  cls_next A b x g al fmax P tau gamma (cls_init A b x g al fmax P tau gamma) = Some s -> cls_cond s = false ->
  curvy_line_search A b x g al fmax P tau gamma = Done s.
Proof. intros H E C. unfold curvy_line_search. cbn [while_]. rewrite H, E. rewrite C. reflexivity. Qed.

Lemma id_adj n : adjoint_ops n n (fun x => x) (fun x => x).
Proof. repeat split; auto. Qed.
(** default options, spgl1.py:51-75 *)
Definition default_options : spgl1_options := SPGL1Options (/ 10 ^ 6) (/ 10 ^ 4) (/ 10 ^ 4) (/ 10 ^ 4) (/ 10 ^ 16) (10 ^ 5) 3 100000 100.

Lemma warm_start : exists s, solve_bpic_from (fun x => x) (fun x => x) [1] (/ 2) default_options [3 / 4] 100 = Done s /\ bp_x s = [3 / 4] /\ bp_tau s = / 2.
Proof.
  destruct (bp_init (fun x => x) (fun x => x) [1] (/ 2) default_options [3 / 4]) as [s|] eqn:E.
  - assert (H1 : 0 < go_alpha_min default_options) by (cbn; apply Rinv_0_lt_compat; lra).
    assert (H2 : go_alpha_min default_options <= go_alpha_max default_options).
    { cbn. apply Rle_trans with 1; [|lra]. rewrite <- Rinv_1. apply Rinv_le_contravar; lra. }
    destruct (@bp_init_ok 1 (fun x => x) (fun x => x) [1] (/ 2) default_options [3 / 4] eq_refl H2 s E)
      as [_ [Ex [F [_ [_ [_ [_ [_ [_ [_ Et]]]]]]]]]].
    exists s. unfold solve_bpic_from. rewrite E. split; [|split; auto].
    + assert (C : bp_cond [1] (/ 2) default_options s = false).
      { destruct F as [F1 [F2 [F3 F4]]]. cbv zeta in *.
        assert (Er : rsub [1] [3 / 4] = [/ 4]) by (unfold rsub; cbn; f_equal; lra).
        rewrite !Er in *. rewrite nrm_1d in *. rewrite (Rabs_pos_eq (/ 4)) in * by lra.
        assert (Eg : bp_r_gap s = 0).
        { rewrite F2. unfold rsub, rdot, nrminf, nrm1; cbn. rewrite !Rplus_0_r.
          rewrite (Rabs_pos_eq (/ 4)), (Rabs_pos_eq (3 / 4)) by lra. rewrite (Rmax_left (/ 4) 0) by lra.
          replace (/ 4 * (/ 4 - 1) + 3 / 4 * / 4) with 0 by field. rewrite Rabs_R0. unfold Rdiv. ring. }
        unfold bp_cond. cbn [go_opt_tol go_bp_tol]. rewrite F1, Eg.
        assert (T0 : Rltb (Rmax (go_opt_tol default_options) (bp_r_f_error s)) 0 = false).
        { apply Rltb_false. apply Rle_trans with (go_opt_tol default_options); [cbn; left; apply Rinv_0_lt_compat; lra|apply Rmax_l]. }
        rewrite T0. destruct (Rltb_spec (/ 2) (/ 4)); [lra|]. reflexivity. }
      cbn [while_]. rewrite C. reflexivity.
    + rewrite Et. assert (Er : rsub [1] [3 / 4] = [/ 4]) by (unfold rsub; cbn; f_equal; lra). rewrite Er, nrm_1d.
      unfold nrm1, nrminf; cbn. rewrite (Rabs_pos_eq (/ 4)), (Rabs_pos_eq (3 / 4)) by lra. rewrite (Rmax_left (/ 4) 0) by lra.
      replace (3 / 4 + 0 + / 4 * (/ 4 - / 2) / / 4) with (/ 2) by field. apply Rmax_right. lra.
  - exfalso. unfold bp_init, update_xrgf in E. cbv zeta in E. rewrite proj_self in E. unfold bpic_metrics in E. cbv zeta in E.
    cbn [mt_r_norm mt_g_dnorm] in E. destruct (newton_tau _ _ _ _) eqn:N; [discriminate|]. apply newton_none in N.
    unfold rsub, ropp, nrminf in N; cbn in N. rewrite Rabs_Ropp, (Rabs_pos_eq (1 - 3 / 4)), Rmax_left in N by lra. lra.
Qed.

(** options with a fixed step *)
Definition fixed_step (a : R) (iters : nat) : spgl1_options := SPGL1Options (/ 10 ^ 6) (/ 10 ^ 4) (/ 10 ^ 4) (/ 10 ^ 4) a a 1 1000 iters.
Lemma bb_fixed a s y : bb_step a a s y = a.
Proof. pose proof (@bb_step_range a a s y ltac:(lra)). lra. Qed.
Lemma first_fixed a d : first_step a a d = a.
Proof. pose proof (@first_step_range a a d ltac:(lra)). lra. Qed.
Lemma nrminf_1d a : nrminf [a] = Rabs a.
Proof. cbn. apply Rmax_left. apply Rabs_pos. Qed.
Lemma rdot_1d a c : rdot [a] [c] = a * c.
Proof. unfold rdot. cbn. ring. Qed.
Lemma rsub_1d a c : rsub [a] [c] = [a - c]. Proof. reflexivity. Qed.
Lemma rscale_1d a c : rscale a [c] = [a * c]. Proof. reflexivity. Qed.
Lemma ropp_1d c : ropp [c] = [- c]. Proof. reflexivity. Qed.
Ltac one_d := repeat rewrite ?rsub_1d, ?rscale_1d, ?ropp_1d, ?rdot_1d, ?nrm_1d, ?nrminf_1d.
Definition idv (x : vec) : vec := x.
(** one line search from [x] with gradient [g] accepted at once, landing at [y] *)
Lemma search_1d x g al fmax tau gamma b y : spgl1_project_to_l1_ball [x - 1 * 1 * (al * g)] tau = [y] ->
  1 / 2 * Rabs ((b - y) * (b - y)) < fmax + gamma * 1 * (1 * (al * g * (y - x))) ->
  exists l, curvy_line_search idv [b] [x] [g] al fmax spgl1_project_to_l1_ball tau gamma = Done l /\
    cl_x l = [y] /\ cl_r l = [b - y] /\ cl_f l = 1 / 2 * Rabs ((b - y) * (b - y)) /\ cl_iters l = 0%nat /\ cl_alpha l = 1.
Proof.
  intros H1 H2. assert (E : cls_init idv [b] [x] [g] al fmax spgl1_project_to_l1_ball tau gamma =
    CLSState 1 1 [y] [b - y] [y - x] (1 * (al * g * (y - x))) 0 (1 / 2 * Rabs ((b - y) * (b - y))) (fmax + gamma * 1 * (1 * (al * g * (y - x)))) 0 0).
  { unfold cls_init, cls_candidate, cls_g, obj_val, idv. cbv zeta. one_d. rewrite H1. one_d. reflexivity. }
  eexists. split.
  - apply search_now. rewrite E. unfold cls_cond. cbn [cl_iters cl_gtd cl_lim cl_f].
    destruct (Rleb_spec (fmax + gamma * 1 * (1 * (al * g * (y - x)))) (1 / 2 * Rabs ((b - y) * (b - y)))); [lra|]. apply andb_false_r.
  - rewrite E. repeat split.
Qed.
Lemma stale : exists s, solve_bpic_from idv idv [0] (3 / 5) (fixed_step (/ 1000) 3) [/ 2] 3 = Done s /\
  bp_r_norm s = 999 / 2500 /\ bp_x s = [499 / 2500] /\ nrm (rsub [0] (idv (bp_x s))) = 499 / 2500.
Proof.
  unfold solve_bpic_from. 
  set (opt := fixed_step (/ 1000) 3).
  assert (I0 : bp_init idv idv [0] (3 / 5) opt [/ 2] = Some (BPState [/ 2] [/ 2] [- / 2] [/ 8] (2 / 5) true (/ 2) (/ 2) (/ 10) (11 / 200) (/ 1000) (/ 1000) 1 2 2 1 0)).
  { unfold bp_init, update_xrgf, bpic_metrics, newton_tau, idv. cbv zeta. rewrite proj_self. cbn [mt_r_norm mt_g_dnorm mt_r_gap mt_res mt_f go_alpha_min go_alpha_max opt fixed_step go_memory].
    rewrite first_fixed. unfold obj_val. one_d. unfold nrm1; cbn [fold_right map rlsum]. replace (0 - / 2) with (- / 2) by ring. rewrite !Ropp_involutive, !Rabs_Ropp.
    rewrite (Rabs_pos_eq (/ 2)) by lra. destruct (Reqb_spec (/ 2) 0); [lra|]. rewrite (Rabs_pos_eq (- / 2 * - / 2)) by lra.
    rewrite (Rmax_left 1 (1 / 2 * (- / 2 * - / 2))) by lra. rewrite (Rmax_left 1 (/ 2)) by lra.
    rewrite (Rabs_pos_eq (- / 2 * (- / 2 - 0) + (/ 2 + 0) * / 2)) by lra. rewrite (Rabs_left (/ 2 - 3 / 5)) by lra.
    rewrite (Rabs_left (1 / 2 * (- / 2 * - / 2) - (3 / 5) ^ 2 / 2)) by lra. rewrite Rmax_right by lra. cbn [repeat].
    do 2 f_equal; try field; try (f_equal; field). }
  rewrite I0.
  assert (B1 : bp_body idv idv [0] (3 / 5) opt (BPState [/ 2] [/ 2] [- / 2] [/ 8] (2 / 5) true (/ 2) (/ 2) (/ 10) (11 / 200) (/ 1000) (/ 1000) 1 2 2 1 0)
     = Some (BPState [2 / 5] [2 / 5] [- (2 / 5)] [2 / 25] (2 / 5) false (2 / 5) (8 / 25) (/ 5) (/ 10) 1 (/ 1000) 2 3 3 1 0)).
  { unfold bp_body. cbv zeta. cbn [bp_f_past bp_x bp_g bp_alpha_next bp_tau bp_tau_changed go_gamma opt fixed_step bp_n_times bp_n_trans bp_n_newton bp_ls_iters bp_iterations go_alpha_min go_alpha_max].
    unfold vmax. cbn [fold_left].
    destruct (@search_1d (/ 2) (/ 2) (/ 1000) (/ 8) (2 / 5) (/ 10 ^ 4) 0 (2 / 5)) as [l [E [E1 [E2 [E3 [E4 E5]]]]]].
    - apply proj_out; lra.
    - rewrite Rabs_pos_eq by lra. lra.
    - rewrite E, E1, E2, E3, E4, E5. rewrite andb_false_r. unfold bpic_metrics, idv. cbv zeta. cbn [mt_r_norm mt_g_dnorm mt_r_gap mt_res mt_f].
      destruct (Rltb_spec (2 / 5) (2 / 5)); [lra|]. rewrite bb_fixed. unfold cbuf_push_left. cbn [removelast].
      one_d. replace (0 - 2 / 5) with (- (2 / 5)) by ring. rewrite !Ropp_involutive, !Rabs_Ropp.
      rewrite (Rabs_pos_eq (2 / 5)) by lra. rewrite (Rabs_pos_eq (- (2 / 5) * - (2 / 5))) by lra.
      rewrite (Rmax_left 1 (1 / 2 * (- (2 / 5) * - (2 / 5)))) by lra. rewrite (Rmax_left 1 (2 / 5)) by lra.
      rewrite (Rabs_pos_eq (- (2 / 5) * (- (2 / 5) - 0) + 2 / 5 * (2 / 5))) by lra. rewrite (Rabs_left (2 / 5 - 3 / 5)) by lra.
      rewrite (Rabs_left (1 / 2 * (- (2 / 5) * - (2 / 5)) - (3 / 5) ^ 2 / 2)) by lra.
      do 2 f_equal; try field; try (f_equal; field). }
  assert (B2 : exists s, bp_body idv idv [0] (3 / 5) opt (BPState [2 / 5] [2 / 5] [- (2 / 5)] [2 / 25] (2 / 5) false (2 / 5) (8 / 25) (/ 5) (/ 10) 1 (/ 1000) 2 3 3 1 0)
     = Some s /\ bp_iterations s = 3%nat /\ bp_r_norm s = 999 / 2500 /\ bp_x s = [499 / 2500]).
  { unfold bp_body. cbv zeta. cbn [bp_f_past bp_x bp_g bp_alpha_next bp_tau bp_tau_changed go_gamma opt fixed_step bp_n_times bp_n_trans bp_n_newton bp_ls_iters bp_iterations go_alpha_min go_alpha_max go_dec_tol nth].
    unfold vmax. cbn [fold_left].
    destruct (@search_1d (2 / 5) (2 / 5) (/ 1000) (2 / 25) (2 / 5) (/ 10 ^ 4) 0 (999 / 2500)) as [l [E [E1 [E2 [E3 [E4 E5]]]]]].
    - rewrite proj_in; [f_equal; field|]. rewrite Rabs_pos_eq; lra.
    - rewrite Rabs_pos_eq by lra. lra.
    - rewrite E, E1, E2, E3, E4, E5. unfold bpic_metrics, idv. cbv zeta. cbn [mt_r_norm mt_g_dnorm mt_r_gap mt_res mt_f].
      one_d. replace (0 - 999 / 2500) with (- (999 / 2500)) by ring. rewrite !Ropp_involutive, !Rabs_Ropp.
      rewrite (Rabs_pos_eq (999 / 2500)) by lra. rewrite (Rabs_pos_eq (- (999 / 2500) * - (999 / 2500))) by lra.
      destruct (Rltb_spec (2 * (3 / 5)) (999 / 2500)); [lra|]. rewrite andb_false_r. cbn [orb].
      destruct (Rleb_spec (999 / 2500) (2 * (3 / 5))); [|lra].
      destruct (Rleb_spec (Rabs (1 / 2 * (- (999 / 2500) * - (999 / 2500)) - 2 / 25)) (1 / 10 * (1 / 2 * (- (999 / 2500) * - (999 / 2500))) * Rabs (999 / 2500 - 3 / 5))) as [Q|Q];
        [|rewrite Rabs_left in Q by lra; rewrite Rabs_left in Q by lra; lra].
      cbn [andb negb]. unfold newton_tau. destruct (Reqb_spec (999 / 2500) 0); [lra|].
      replace (Rmax 0 (2 / 5 + 999 / 2500 * (999 / 2500 - 3 / 5) / (999 / 2500))) with (499 / 2500).
      + destruct (Rltb_spec (499 / 2500) (2 / 5)); [|lra]. unfold update_xrgf. cbv zeta. rewrite proj_out by lra.
        eexists. split; [reflexivity|]. cbn [bp_iterations bp_r_norm bp_x]. auto.
      + rewrite Rmax_right; [field|]. apply Rle_trans with (499 / 2500); [lra|right; field]. }
  destruct B2 as [s [B2 [Q1 [Q2 Q3]]]]. exists s.
  assert (C0 : bp_cond [0] (3 / 5) opt (BPState [/ 2] [/ 2] [- / 2] [/ 8] (2 / 5) true (/ 2) (/ 2) (/ 10) (11 / 200) (/ 1000) (/ 1000) 1 2 2 1 0) = true).
  { unfold bp_cond. cbn [bp_r_gap bp_r_f_error bp_r_res_error bp_r_norm bp_iterations bp_n_times bp_n_trans opt fixed_step go_opt_tol go_bp_tol go_max_iters go_max_matvec].
    rewrite Rmax_right by lra. destruct (Rltb_spec (11 / 200) (/ 2)); [|lra]. destruct (Rltb_spec (/ 10 ^ 4) (/ 10)); [|lra]. reflexivity. }
  assert (C1 : bp_cond [0] (3 / 5) opt (BPState [2 / 5] [2 / 5] [- (2 / 5)] [2 / 25] (2 / 5) false (2 / 5) (8 / 25) (/ 5) (/ 10) 1 (/ 1000) 2 3 3 1 0) = true).
  { unfold bp_cond. cbn [bp_r_gap bp_r_f_error bp_r_res_error bp_r_norm bp_iterations bp_n_times bp_n_trans opt fixed_step go_opt_tol go_bp_tol go_max_iters go_max_matvec].
    rewrite Rmax_right by lra. destruct (Rltb_spec (/ 10) (8 / 25)); [|lra]. destruct (Rltb_spec (/ 10 ^ 4) (/ 5)); [|lra]. reflexivity. }
  assert (C2 : bp_cond [0] (3 / 5) opt s = false).
  { unfold bp_cond. rewrite Q1. cbn [opt fixed_step go_max_iters Nat.ltb Nat.leb]. rewrite andb_false_r. reflexivity. }
  cbn [while_]. rewrite C0, B1, C1, B2, C2. rewrite Q3. repeat split; auto. unfold idv. one_d.
  replace (0 - 499 / 2500) with (- (499 / 2500)) by ring. rewrite Rabs_Ropp. apply Rabs_pos_eq. lra.
Qed.

Lemma dbl_adj : adjoint_ops 1 1 (rscale 2) (rscale 2).
Proof.
  repeat split; intros; try vl; try veq. rewrite rdot_scale_l, rdot_scale_r. reflexivity.
Qed.
Lemma overcount : exists s, solve_lasso_from (rscale 2) (rscale 2) [1] 10 (fixed_step (/ 2) 2) [0] 2 = Done s /\
  la_iterations s = 2%nat /\ la_n_trans s = 3%nat.
Proof.
  unfold solve_lasso_from. set (opt := fixed_step (/ 2) 2).
  assert (P0 : spgl1_project_to_l1_ball [0] 10 = [0]) by (apply proj_in; rewrite Rabs_R0; lra).
  assert (I0 : exists gap, lasso_init (rscale 2) (rscale 2) [1] 10 opt [0] = LassoState [0] [-2] [1] [/ 2] 1 gap (/ 2) (/ 2) 1 1 1 0 /\ 1 <= gap).
  { unfold lasso_init, lasso_metrics. cbv zeta. rewrite P0. cbn [go_alpha_min go_alpha_max opt fixed_step go_memory repeat]. rewrite first_fixed.
    unfold obj_val. one_d. replace (1 - 2 * 0) with 1 by ring. exists 20.
    replace (Rabs (1 * 1)) with 1 by (rewrite Rabs_pos_eq; lra). rewrite (Rabs_pos_eq 1) by lra. rewrite (Rabs_left (- (2 * 1))) by lra.
    rewrite (Rmax_left 1 (1 / 2 * 1)) by lra. rewrite Rabs_pos_eq by lra. split; [|lra]. f_equal; try field; try (f_equal; field). }
  destruct I0 as [gap [I0 Hgap]]. rewrite I0.
  assert (C0 : lasso_cond [1] opt (LassoState [0] [-2] [1] [/ 2] 1 gap (/ 2) (/ 2) 1 1 1 0) = true).
  { unfold lasso_cond. cbn [la_iterations la_r_gap la_r_norm opt fixed_step go_max_iters go_opt_tol]. one_d. rewrite (Rabs_pos_eq 1) by lra.
    destruct (Rltb_spec (/ 10 ^ 4) gap); [|lra]. destruct (Rleb_spec (/ 10 ^ 4 * 1) 1); [|lra]. reflexivity. }
  assert (CI : cls_init (rscale 2) [1] [0] [-2] (/ 2) (/ 2) spgl1_project_to_l1_ball 10 (/ 10 ^ 4) =
    CLSState 1 1 [1] [-1] [1] (-1) 0 (/ 2) (/ 2 + / 10 ^ 4 * 1 * -1) 0 0).
  { unfold cls_init, cls_candidate, cls_g, obj_val. cbv zeta. one_d. replace (0 - 1 * 1 * (/ 2 * -2)) with 1 by field.
    rewrite proj_in by (rewrite Rabs_pos_eq; lra). one_d. replace (1 - 2 * 1) with (-1) by ring. replace (-1 * -1) with 1 by ring.
    rewrite (Rabs_pos_eq 1) by lra. replace (1 * (/ 2 * -2 * (1 - 0))) with (-1) by field. f_equal; try field; f_equal; field. }
  assert (CS : exists s, curvy_line_search (rscale 2) [1] [0] [-2] (/ 2) (/ 2) spgl1_project_to_l1_ball 10 (/ 10 ^ 4) = Done s /\ cl_iters s = 1%nat).
  { assert (X : exists s, cls_next (rscale 2) [1] [0] [-2] (/ 2) (/ 2) spgl1_project_to_l1_ball 10 (/ 10 ^ 4)
       (CLSState 1 1 [1] [-1] [1] (-1) 0 (/ 2) (/ 2 + / 10 ^ 4 * 1 * -1) 0 0) = Some s /\ cl_iters s = 1%nat /\ cls_cond s = false).
    { unfold cls_next. cbv zeta. cbn [cl_alpha cl_d cl_d_norm_old cl_scale cl_safe cl_iters]. unfold cls_n2. cbn [length INR]. rewrite sqrt_1. one_d. rewrite (Rabs_pos_eq 1) by lra.
      destruct (Rleb_spec (Rabs (1 / 1 - 0)) (/ 10 ^ 6 * (1 / 1))) as [Q|Q]; [rewrite Rabs_pos_eq in Q by lra; lra|].
      eexists. split; [reflexivity|]. unfold cls_candidate. cbv zeta. cbn [cl_iters]. split; [reflexivity|].
      unfold cls_cond. cbn [cl_iters cl_gtd cl_lim cl_f]. unfold cls_g, obj_val. one_d. replace (0 - 1 / 2 * 1 * (/ 2 * -2)) with (/ 2) by field.
      rewrite proj_in by (rewrite Rabs_pos_eq; lra). one_d. replace (1 - 2 * / 2) with 0 by field. rewrite Rmult_0_l, Rabs_R0.
      match goal with |- context[Rleb ?a ?b] => destruct (Rleb_spec a b) end; [lra|]. apply andb_false_r. }
    destruct X as [s [X1 [X2 X3]]]. exists s. split; auto. apply search_next; rewrite ?CI; auto.
    unfold cls_cond. cbn [cl_iters cl_gtd cl_lim cl_f]. destruct (Rltb_spec (-1) 0); [|lra].
    match goal with |- context[Rleb ?a ?b] => destruct (Rleb_spec a b) end; [reflexivity|lra]. }
  destruct CS as [l [CS Ci]].
  assert (B : exists s, lasso_body (rscale 2) (rscale 2) [1] 10 opt (LassoState [0] [-2] [1] [/ 2] 1 gap (/ 2) (/ 2) 1 1 1 0) = Some s /\
     la_iterations s = 2%nat /\ la_n_trans s = 3%nat).
  { unfold lasso_body. cbv zeta. cbn [la_f_past la_x la_g la_alpha_next la_n_times la_iterations la_ls_iters opt fixed_step go_gamma]. unfold vmax. cbn [fold_left].
    rewrite CS. destruct (lasso_metrics _ _ _ _ _). eexists. split; [reflexivity|]. cbn [la_iterations la_n_trans]. rewrite Ci. auto. }
  destruct B as [s [B [E1 E2]]]. exists s. cbn [while_]. rewrite C0, B.
  assert (C1 : lasso_cond [1] opt s = false) by (unfold lasso_cond; rewrite E1; reflexivity). rewrite C1. auto.
Qed.

Lemma linear_zero n m A : linear_op n m A -> A (rzero n) = rzero m.
Proof.
  intros [HL [_ HS]]. assert (E : rzero n = rscale 0 (rzero n)) by veq. rewrite E, HS by vl. pose proof (HL (rzero n) ltac:(vl)). veq.
Qed.
Lemma nrm1_zero n : nrm1 (rzero n) = 0.
Proof. unfold nrm1, rzero. induction n as [|n IH]; cbn in *; [reflexivity|]. rewrite Rabs_R0, IH. ring. Qed.
(** from zero, the first radius does not exceed the l1 norm of any point that fits the data *)
Lemma first_radius n m A T b sigma opt s0 z : adjoint_ops n m A T -> length b = m -> go_alpha_min opt <= go_alpha_max opt ->
  bp_init A T b sigma opt (rzero n) = Some s0 -> fits n A b sigma z -> nrm1 (rzero n) <= bp_tau s0 <= nrm1 z.
Proof.
  intros AD Lb Ha E Fz. assert (L0 : length (rzero n) = n) by vl.
  destruct (@bp_init_ok n A T b sigma opt (rzero n) L0 Ha s0 E) as [_ [_ [_ [_ [_ [_ [_ [_ [_ [Eg Et]]]]]]]]]].
  rewrite nrm1_zero in *. rewrite Et. split; [apply Rmax_l|]. apply Rmax_lub; [apply nrm1_pos|].
  pose proof (nrminf_pos (T (rsub b (A (rzero n))))) as Gp.
  pose proof (@newton_bound n m A T b (rzero n) 0 AD Lb L0 sigma z ltac:(rewrite nrminf_opp; lra) Fz) as N. rewrite nrminf_opp in N.
  assert (Er : rsub b (A (rzero n)) = b) by (rewrite (linear_zero (proj1 AD)); veq).
  rewrite Er in *. replace (rsub b b) with (rzero m) in N by veq. rewrite rdot_zero_r in N. rewrite Rmult_0_l, Rplus_0_r, Rminus_0_r in N. exact N.
Qed.
