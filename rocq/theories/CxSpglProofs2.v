(** The reported gap of the complex solver and the simulation of its runs. *)
From Coq Require Import ZArith List Arith Bool Lia Reals Lra Psatz.
From Verif Require Import Scalar Vec RVec RMat Loop LoopLemmas SolverSpec SolverLemmas LopModel LopSpec OptSpec OptModel OptProofs OptProofs2 SelModel SelProofs SpgModel SpglModel SpglSpec SpglProofs SpglProofs2 SeqSpec SeqProofs ConvProofs2 CxSpec CxModel CxProofs CxSpglModel GSpglProofs CxSpglProofs.
Import ListNotations.
Set Implicit Arguments.
Unset Strict Implicit.
Local Open Scope R_scope.

Lemma fst_le_cabs z : fst z <= cabs z.
Proof. pose proof (cabs_sq z). pose proof (cabs_pos z). apply Rnot_lt_le. intros H1. assert (cabs z * cabs z < fst z * fst z) by (apply Rmult_le_0_lt_compat; lra). nra. Qed.
Lemma cabs_add a b : cabs (fst a + fst b, snd a + snd b) <= cabs a + cabs b.
Proof.
  pose proof (cabs_pos a). pose proof (cabs_pos b). apply sq_le; [lra|]. rewrite cabs_sq. pose proof (cabs_cauchy a b). pose proof (cabs_sq a). pose proof (cabs_sq b). cbn [fst snd]. lra.
Qed.
Lemma cabs_cmul a b : cabs (fst a * fst b + snd a * snd b, fst a * snd b - snd a * fst b) = cabs a * cabs b.
Proof.
  apply sq_eq; [apply cabs_pos|apply Rmult_le_pos; apply cabs_pos|]. replace (cabs a * cabs b * (cabs a * cabs b)) with ((cabs a * cabs a) * (cabs b * cabs b)) by ring. rewrite !cabs_sq. cbn [fst snd]. ring.
Qed.
Lemma cholder (x : cvec) : forall y, cabs (inner x y) <= clinf x * cnrm1 y.
Proof.
  induction x as [|a x IH]; intros [|b y].
  1,2,3: match goal with |- cabs ?u <= _ => replace (cabs u) with 0 by (symmetry; exact cabs_zero) end; apply Rmult_le_pos; [apply clinf_pos|apply cnrm1_pos].
  set (w := inner x y : Cx) in *. assert (E : cabs (inner (a :: x) (b :: y)) = cabs (fst (fst a * fst b + snd a * snd b, fst a * snd b - snd a * fst b) + fst w, snd (fst a * fst b + snd a * snd b, fst a * snd b - snd a * fst b) + snd w)).
  { f_equal. unfold w. cbn. unfold Cadd, Cmul, Cconj. cbn. apply (f_equal2 pair); ring. }
  rewrite E. eapply Rle_trans; [apply cabs_add|]. rewrite cabs_cmul, clinf_cons, cnrm1_cons. pose proof (IH y) as Q. fold w in Q. pose proof (cabs_pos b). pose proof (cnrm1_pos y).
  pose proof (Rmult_le_compat_r (cabs b) _ _ ltac:(lra) (Rmax_l (cabs a) (clinf x))). pose proof (Rmult_le_compat_r (cnrm1 y) _ _ ltac:(lra) (Rmax_r (cabs a) (clinf x))). lra.
Qed.
Lemma flat_opp (x : cvec) : flat (vopp x) = ropp (flat x).
Proof. induction x as [|a x IH]; [reflexivity|]. change (vopp (a :: x)) with ((sopp a : Cs) :: vopp x). cbn [flat]. unfold ropp in *. cbn [map]. rewrite IH. reflexivity. Qed.
(** conj(r).(r - b) is the product of the gradient with x *)
Lemma cgap_eq n m A T b (x : cvec) : is_adjoint m n A T -> length b = m -> length x = n ->
  inner (vsub b (A x)) (vsub (vsub b (A x)) b) = inner (vopp (T (vsub b (A x)))) x.
Proof.
  intros [D1 [D2 Ad]] Lb Lx. assert (LA : length (A x) = m) by exact (D1 x Lx). set (r := vsub b (A x)). assert (Lr : length r = m) by (unfold r; now apply vsub_length).
  assert (E : vsub r b = vopp (A x)).
  { apply flat_inj. unfold r. rewrite flat_opp, !flat_sub. pose proof (flat_len b). pose proof (flat_len (A x)). assert (length (flat b) = (2 * m)%nat) by (rewrite H; apply f_equal; exact Lb). assert (length (flat (A x)) = (2 * m)%nat) by (rewrite H0; apply f_equal; exact LA). veq. }
  rewrite E, inner_opp_r, inner_opp_l. f_equal. rewrite (@inner_sym Cs (A x) r), (@inner_sym Cs x (T r)). apply f_equal. now apply Ad.
Qed.
Lemma gap_lift n m A T b tau : is_adjoint m n A T -> length b = m -> 0 <= tau -> gap_ok (2 * n) N1 Ni gapf (lift A) (lift T) (flat b) tau.
Proof.
  intros AD Lb T0 x Lx Hx. cbv zeta. rewrite <- (flat_unflat Lx). pose proof (unflat_len Lx) as Lu. unfold N1 in Hx. set (u := unflat x) in *.
  rewrite lift_flat, <- !flat_sub, lift_flat, <- flat_opp, flat_dot. unfold Ni, gapf. rewrite !unflat_flat. pose proof (@cgap_eq n m A T b u AD Lb Lu) as E.
  set (r := vsub b (A u)) in *. set (g := vopp (T r)) in *. pose proof (cholder g u) as Q. rewrite <- E in Q. set (c := inner r (vsub r b) : Cx) in *. rewrite cl1_cnrm1 in Hx. pose proof (clinf_pos g) as G0.
  assert (Qt : cabs c <= tau * clinf g). { eapply Rle_trans; [exact Q|]. rewrite Rmult_comm. now apply Rmult_le_compat_r. }
  set (t := tau * clinf g) in *. assert (t0 : 0 <= t) by (now apply Rmult_le_pos). change (Cadd c (ofR t : Cs)) with (fst c + t, snd c + 0).
  pose proof (cabs_sq c) as Sc. pose proof (cabs_pos c). split; [|split].
  - exact (fst_le_cabs (fst c + t, snd c + 0)).
  - apply cabs_pos.
  - rewrite cabs_sq. cbn [fst snd]. assert (cabs c * cabs c <= t * t) by (apply Rmult_le_compat; auto). lra.
Qed.

(** *** the line search *)
Definition fl_cls (s : ccls_state) : cls_state :=
  CLSState (ccl_alpha s) (ccl_scale s) (flat (ccl_x s)) (flat (ccl_r s)) (flat (ccl_d s)) (ccl_gtd s) (ccl_d_norm_old s / sqrt 2) (ccl_f s) (ccl_lim s) (ccl_iters s) (ccl_safe s).
Lemma flat_obj r : obj_val (flat r) = cobj_val r.
Proof.
  unfold obj_val, cobj_val. f_equal. rewrite flat_dot. unfold cabs. assert (E : snd (inner r r : Cx) = 0).
  { pose proof (@inner_sym Cs r r) as Q. apply (f_equal (fun z : Cx => snd z)) in Q. cbn in Q. lra. }
  rewrite E, Rmult_0_l, Rplus_0_r. symmetry. apply sqrt_Rsqr_abs.
Qed.
Lemma flat_proj x q : PF (flat x) q = flat (cproject x q).
Proof. unfold PF. now rewrite unflat_flat. Qed.
Section SimSearch.
  Variables (A : cvec -> cvec) (b x g : cvec) (al fmax tau gamma : R).
  Lemma fl_cand a sc dn it sf : cls_candidate (lift A) (flat b) (flat x) (flat g) al fmax PF tau gamma a sc (dn / sqrt 2) it sf = fl_cls (ccls_candidate A b x g al fmax tau gamma a sc dn it sf).
  Proof.
    unfold cls_candidate, ccls_candidate, fl_cls, cls_g, ccls_g. cbv zeta. cbn [ccl_alpha ccl_scale ccl_x ccl_r ccl_d ccl_gtd ccl_d_norm_old ccl_f ccl_lim ccl_iters ccl_safe].
    rewrite <- flat_scale, <- flat_scale, <- flat_sub, flat_proj, lift_flat, <- !flat_sub, flat_obj, flat_dot. reflexivity.
  Qed.
  Lemma fl_n2 : cls_n2 (flat x) = sqrt 2 * ccls_n2 x.
  Proof. unfold cls_n2, ccls_n2. rewrite flat_len, mult_INR, sqrt_mult_alt by apply pos_INR. f_equal. Qed.
  Lemma s2 : 0 < sqrt 2. Proof. apply sqrt_lt_R0. lra. Qed.
  Lemma fl_norm v : nrm (flat v) / cls_n2 (flat x) = cnorm v / ccls_n2 x / sqrt 2.
  Proof. rewrite fl_n2, flat_nrm. unfold Rdiv. rewrite Rinv_mult. ring. Qed.
  Lemma fl_next s : cls_next (lift A) (flat b) (flat x) (flat g) al fmax PF tau gamma (fl_cls s) = option_map fl_cls (ccls_next A b x g al fmax tau gamma s).
  Proof.
    pose proof s2 as S2. unfold cls_next, ccls_next. cbv zeta. cbn [option_map fl_cls cl_alpha cl_d cl_d_norm_old cl_safe cl_scale cl_iters]. rewrite !fl_norm.
    set (d := cnorm (ccl_d s) / ccls_n2 x). assert (Eg : cls_g_norm (flat x) (flat g) al = ccls_g_norm x g al / sqrt 2).
    { unfold cls_g_norm, ccls_g_norm, cls_g, ccls_g. now rewrite <- flat_scale, fl_norm. }
    rewrite Eg. assert (Ed : d / sqrt 2 / (ccls_g_norm x g al / sqrt 2) = d / ccls_g_norm x g al).
    { unfold Rdiv. rewrite Rinv_mult, Rinv_inv. transitivity (d * / ccls_g_norm x g al * (/ sqrt 2 * sqrt 2)); [ring|]. rewrite Rinv_l by lra. ring. }
    rewrite Ed. assert (Eb : Rleb (Rabs (d / sqrt 2 - ccl_d_norm_old s / sqrt 2)) (/ 10 ^ 6 * (d / sqrt 2)) = Rleb (Rabs (d - ccl_d_norm_old s)) (/ 10 ^ 6 * d)).
    { replace (d / sqrt 2 - ccl_d_norm_old s / sqrt 2) with ((d - ccl_d_norm_old s) * / sqrt 2) by (unfold Rdiv; ring). assert (I : 0 < / sqrt 2) by now apply Rinv_0_lt_compat.
      rewrite Rabs_mult, (Rabs_pos_eq (/ sqrt 2)) by lra. replace (/ 10 ^ 6 * (d / sqrt 2)) with (/ 10 ^ 6 * d * / sqrt 2) by (unfold Rdiv; ring).
      destruct (Rleb_spec (Rabs (d - ccl_d_norm_old s) * / sqrt 2) (/ 10 ^ 6 * d * / sqrt 2)) as [Q|Q]; destruct (Rleb_spec (Rabs (d - ccl_d_norm_old s)) (/ 10 ^ 6 * d)) as [Q'|Q']; auto; exfalso.
      - apply Rmult_le_reg_r in Q; lra.
      - apply (Rmult_le_compat_r (/ sqrt 2)) in Q'; lra. }
    rewrite Eb. f_equal. destruct (Rleb _ _); apply fl_cand.
  Qed.
  Lemma fl_cond s : cls_cond (fl_cls s) = ccls_cond s. Proof. reflexivity. Qed.
  Lemma fl_search : curvy_line_search (lift A) (flat b) (flat x) (flat g) al fmax PF tau gamma = match ccurvy_line_search A b x g al fmax tau gamma with Done s => Done (fl_cls s) | Fail => Fail | Fuel => Fuel end.
  Proof.
    unfold curvy_line_search, ccurvy_line_search. assert (E : cls_init (lift A) (flat b) (flat x) (flat g) al fmax PF tau gamma = fl_cls (ccls_init A b x g al fmax tau gamma)).
    { unfold cls_init, ccls_init. rewrite <- fl_cand. f_equal. unfold Rdiv. ring. }
    rewrite E. exact (@sim_while _ _ fl_cls ccls_cond _ cls_cond _ fl_cond fl_next 10 _).
  Qed.
End SimSearch.
(** *** the solver *)
Definition fl_la (s : classo_state) : lasso_state :=
  LassoState (flat (cla_x s)) (flat (cla_g s)) (flat (cla_r s)) (cla_f_past s) (cla_r_norm s) (cla_r_gap s) (cla_alpha s) (cla_alpha_next s) (cla_iterations s) (cla_n_times s) (cla_n_trans s) (cla_ls_iters s).
Lemma fl_metrics b g r f tau : glasso_metrics Ni gapf (flat b) (flat g) (flat r) f tau = classo_metrics b g r f tau.
Proof. unfold glasso_metrics, classo_metrics, Ni, gapf. cbv zeta. now rewrite !unflat_flat, flat_nrm. Qed.
Lemma fl_bb lo hi s y : bb_step lo hi (flat s) (flat y) = cbb_step lo hi s y.
Proof. unfold bb_step, cbb_step. cbv zeta. now rewrite !flat_dot. Qed.
Section SimLasso.
  Variables (A T : cvec -> cvec) (b : cvec) (tau : R) (opt : spgl1_options).
  Notation gbody := (glasso_body Ni PF gapf (lift A) (lift T) (flat b) tau opt).
  Notation ginit := (glasso_init Ni PF gapf (lift A) (lift T) (flat b) tau opt).
  Lemma fl_init x0 : ginit (flat x0) = fl_la (classo_init A T b tau opt x0).
  Proof.
    unfold glasso_init, classo_init. cbv zeta. rewrite flat_proj, lift_flat, <- flat_sub, lift_flat, <- flat_opp, <- flat_sub, flat_proj, <- flat_sub, flat_obj, fl_metrics. unfold Ni. rewrite unflat_flat.
    destruct (classo_metrics _ _ _ _ _). reflexivity.
  Qed.
  Lemma fl_body s : gbody (fl_la s) = option_map fl_la (classo_body A T b tau opt s).
  Proof.
    unfold glasso_body, classo_body. cbv zeta. cbn [fl_la la_x la_g la_f_past la_alpha_next la_n_times la_iterations la_ls_iters]. rewrite fl_search.
    destruct (ccurvy_line_search _ _ _ _ _ _ _ _) as [l| |]; try reflexivity. cbn [fl_cls cl_x cl_r cl_f cl_iters cl_alpha]. rewrite lift_flat, <- flat_opp, fl_metrics, <- !flat_sub, fl_bb.
    destruct (classo_metrics _ _ _ _ _). reflexivity.
  Qed.
  Lemma fl_lcond s : lasso_cond (flat b) opt (fl_la s) = classo_cond b opt s.
  Proof. unfold lasso_cond, classo_cond. rewrite flat_nrm. reflexivity. Qed.
  Lemma fl_reaches x0 k s : reaches (classo_cond b opt) (classo_body A T b tau opt) (classo_init A T b tau opt x0) k s ->
    reaches (lasso_cond (flat b) opt) gbody (ginit (flat x0)) k (fl_la s).
  Proof. intros H. rewrite fl_init. exact (@sim_reaches _ _ fl_la _ _ _ _ fl_lcond fl_body _ _ _ H). Qed.
  Lemma fl_run x0 fuel : gsolve_lasso_from Ni PF gapf (lift A) (lift T) (flat b) tau opt (flat x0) fuel = match csolve_lasso_from A T b tau opt x0 fuel with Done s => Done (fl_la s) | Fail => Fail | Fuel => Fuel end.
  Proof. unfold gsolve_lasso_from, csolve_lasso_from. rewrite fl_init. exact (@sim_while _ _ fl_la _ _ _ _ fl_lcond fl_body fuel _). Qed.
End SimLasso.
