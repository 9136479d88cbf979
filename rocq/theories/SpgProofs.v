From Coq Require Import List Arith Bool Lia Reals Lra Psatz.
From Verif Require Import Vec RVec RMat Loop LoopLemmas SolverSpec SolverLemmas SelModel SelProofs OptSpec SpgModel SpgSpec.
Import ListNotations.
Set Implicit Arguments.
Local Open Scope R_scope.

(** *** projections onto convex sets satisfy the variational inequality *)
Lemma projects_vi n C P x z : convex_set n C -> projects_onto n C P -> length x = n -> length z = n -> C z ->
  rdot (rsub x (P x)) (rsub z (P x)) <= 0.
Proof.
  intros HC HP Hx Hz Cz. destruct (HP x Hx) as [Lp [Cp [Mn _]]]. set (p := P x) in *.
  set (a := rdot (rsub x p) (rsub z p)). set (b := nrm2 (rsub z p)).
  assert (B0 : 0 <= b) by apply rdot_pos.
  assert (H : forall t, 0 <= t <= 1 -> 2 * t * a <= t * t * b).
  { intros t Ht. set (w := radd p (rscale t (rsub z p))).
    assert (Lw : length w = n) by (unfold w; vl).
    specialize (Mn w Lw (@HC p z t Lp Hz Cp Cz Ht)). unfold dist in Mn.
    assert (Q : rdot (rsub x p) (rsub x p) <= rdot (rsub x w) (rsub x w)).
    { rewrite <- !nrm_sq. apply Rmult_le_compat; auto; apply nrm_pos. }
    assert (E : rsub x w = rsub (rsub x p) (rscale t (rsub z p))) by (unfold w; veq).
    rewrite E in Q. assert (Lu : length (rsub x p) = n) by vl. assert (Lv : length (rsub z p) = n) by vl.
    unfold a, b, nrm2. revert Q Lu Lv. generalize (rsub x p) (rsub z p). clear. intros u v Q Lu Lv.
    rewrite (rdot_sub_l u (rscale t v)), (rdot_sub_r u u), (rdot_sub_r (rscale t v) u), !rdot_scale_l, !rdot_scale_r in Q by vl.
    rewrite (rdot_sym v u) in Q. nra. }
  destruct (Rle_lt_dec a 0) as [|Pa]; auto. exfalso.
  destruct (Rle_lt_dec b a) as [Hb|Hb].
  - specialize (H 1 ltac:(lra)). lra.
  - assert (Pb : 0 < b) by lra. assert (T : 0 <= a / b <= 1).
    { split; [apply Rmult_le_pos; [lra|left; now apply Rinv_0_lt_compat]|]. apply Rmult_le_reg_r with b; auto. unfold Rdiv. rewrite Rmult_assoc, Rinv_l by lra. lra. }
    specialize (H (a / b) T). replace (a / b * (a / b) * b) with (a / b * a) in H by (field; lra).
    assert (0 < a / b) by (apply Rmult_lt_0_compat; [auto|now apply Rinv_0_lt_compat]). nra.
Qed.

(** *** line search *)
Lemma rscale_1 v : rscale 1 v = v.
Proof. unfold rscale. rewrite <- (map_id v) at 2. apply map_ext. intros. ring. Qed.
Section LS.
  Variables (func : vec -> R) (x d : vec) (f_max f_last gamma delta : R).
  Notation cond := ls_cond.
  Notation next := (ls_next func x d f_max f_last gamma delta).
  Notation init := (ls_init func x d f_max gamma delta).
  Definition ls_inv (s : ls_state) : Prop :=
    0 < ls_alpha s <= 1 /\ ls_x s = radd x (rscale (ls_alpha s) d) /\ ls_f s = func (ls_x s) /\
    ls_lim s = f_max + ls_alpha s * (gamma * delta) /\ (1 <= ls_calls s)%nat.
  Lemma ls_reach k s : reaches cond next init k s -> ls_inv s /\ ls_calls s = S k.
  Proof.
    intros H. induction H as [|k s s' H [IH1 IH2] Cd Bd].
    - unfold ls_inv, ls_init. cbn. split; [|reflexivity]. split; [lra|]. split; [now rewrite rscale_1|]. split; [reflexivity|]. split; [ring|lia].
    - unfold ls_next in Bd. cbv zeta in Bd. injection Bd as <-. destruct IH1 as [A _]. cbn [ls_alpha ls_x ls_f ls_lim ls_calls]. split; [|lia].
      unfold ls_inv. cbn [ls_alpha ls_x ls_f ls_lim ls_calls]. split; [|split; [reflexivity|split; [reflexivity|split; [reflexivity|lia]]]].
      destruct (negb _ && _) eqn:E; [|lra]. apply andb_true_iff in E as [_ E]. apply andb_true_iff in E as [E1 E2].
      apply Rleb_true in E1, E2. unfold SIGMA_1, SIGMA_2 in *. lra.
  Qed.
  Lemma ls_total : exists l, line_search func x d f_max f_last gamma delta = Done l.
  Proof.
    unfold line_search. apply while_total.
    - intros k s _ _. unfold ls_next. discriminate.
    - intros k s H Cd. apply ls_reach in H as [_ H]. unfold ls_cond in Cd. apply andb_true_iff in Cd as [_ Cd]. apply Nat.ltb_lt in Cd. lia.
  Qed.
  Lemma ls_result l : line_search func x d f_max f_last gamma delta = Done l ->
    ls_inv l /\ (1 <= ls_calls l <= 50)%nat /\ (ls_f l <= ls_lim l \/ ls_calls l = 50%nat).
  Proof.
    intros H. unfold line_search in H. apply while_done in H. destruct H as [j [Hj [Hr Hc]]]. apply ls_reach in Hr as [I E].
    split; auto. split; [lia|]. unfold ls_cond in Hc. apply andb_false_iff in Hc as [Hc|Hc].
    - left. now apply Rltb_false in Hc.
    - right. apply Nat.ltb_ge in Hc. lia.
  Qed.
  (** the interpolated step is never used: every trial halves the step *)
  Lemma ls_halving k s : gamma < 1 -> delta < 0 -> f_last <= f_max -> reaches cond next init k s -> ls_alpha s = / 2 ^ k.
  Proof.
    intros Hg Hd Hf H. induction H as [|k s s' H IH Cd Bd]; [cbn; lra|].
    apply ls_reach in H as [[A [_ [_ [Lm _]]]] _]. unfold ls_next in Bd. cbv zeta in Bd. injection Bd as <-. cbn [ls_alpha].
    unfold ls_cond in Cd. apply andb_true_iff in Cd as [Cd _]. apply Rltb_true in Cd. rewrite Lm in Cd.
    assert (Den : 0 < ls_f s - f_last - ls_alpha s * delta).
    { assert (Q : delta <= gamma * delta) by nra.
      assert (ls_alpha s * delta <= ls_alpha s * (gamma * delta)) by (apply Rmult_le_compat_l; lra). lra. }
    assert (T : - (1 / 2) * (ls_alpha s ^ 2) / (ls_f s - f_last - ls_alpha s * delta) <= 0).
    { assert (0 <= (1 / 2) * (ls_alpha s ^ 2) * / (ls_f s - f_last - ls_alpha s * delta)).
      { apply Rmult_le_pos; [|left; now apply Rinv_0_lt_compat]. apply Rmult_le_pos; [lra|apply pow2_ge_0]. }
      unfold Rdiv at 2. lra. }
    set (tmp := - (1 / 2) * _ / _) in *. destruct (Rleb_spec SIGMA_1 tmp) as [S1|S1]; [unfold SIGMA_1 in S1; lra|].
    rewrite andb_false_r. rewrite IH. simpl. field. apply pow_nonzero. lra.
  Qed.
End LS.

Section SPG.
  Variables (n : nat) (C : vec -> Prop) (func : vec -> R) (grad proj : vec -> vec) (opt : spg_options).
  Hypothesis HC : convex_set n C.
  Hypothesis HP : projects_onto n C proj.
  Hypothesis Hg : forall x, length x = n -> length (grad x) = n.
  Hypothesis Hmem : (1 <= so_memory opt)%nat.
  Variable x0 : vec.
  Hypothesis Hx0 : length x0 = n.
  Notation reach := (reaches (spg_cond proj opt) (spg_step func grad proj opt) (spg_init func grad proj opt x0)).

  Lemma dir_ok x g l : length x = n -> length g = n -> C x -> 0 < l ->
    let d := rsub (proj (rsub x (rscale l g))) x in
    length d = n /\ C (radd x d) /\ nrm2 d <= - (l * rdot g d) /\ forall t, 0 <= t <= 1 -> C (radd x (rscale t d)).
  Proof.
    intros Lx Lg Cx Hl d. assert (Ly : length (rsub x (rscale l g)) = n) by vl.
    destruct (HP _ Ly) as [Lp [Cp _]]. set (p := proj (rsub x (rscale l g))) in *.
    assert (Ld : length d = n) by (unfold d; vl). split; auto.
    split; [replace (radd x d) with p; auto; unfold d; veq|]. split.
    - pose proof (@projects_vi _ _ _ _ _ HC HP Ly Lx Cx) as V. fold p in V.
      assert (E1 : rsub (rsub x (rscale l g)) p = ropp (radd d (rscale l g))) by (unfold d; veq).
      assert (E2 : rsub x p = ropp d) by (unfold d; veq).
      rewrite E1, E2 in V. rewrite rdot_opp_l, rdot_opp_r, rdot_add_l, rdot_scale_l in V by vl. unfold nrm2. lra.
    - intros t Ht. exact (@HC x p t Lx Lp Cx Cp Ht).
  Qed.
  Lemma lambda_bounds s y : L_MIN <= spg_lambda s y <= L_MAX.
  Proof.
    unfold spg_lambda. cbv zeta. assert (Hb : L_MIN <= 1 <= L_MAX).
    { unfold L_MIN, L_MAX. assert (1 <= 10 ^ 10) by lra. split; [|lra]. rewrite <- Rinv_1. apply Rinv_le_contravar; lra. }
    destruct (Reqb _ 0); [lra|]. destruct (Rltb_spec (rdot s s / (rdot s y + SPG_EPS)) L_MIN).
    - destruct (Rltb_spec L_MAX 1); lra.
    - destruct (Rltb_spec L_MAX (rdot s s / (rdot s y + SPG_EPS))); lra.
  Qed.
  Lemma L_MIN_pos : 0 < L_MIN.
  Proof. unfold L_MIN. apply Rinv_0_lt_compat. lra. Qed.

  (** what holds in every state *)
  Definition spg_inv (s : spg_state) : Prop :=
    length (sg_x s) = n /\ C (sg_x s) /\ sg_g s = grad (sg_x s) /\
    length (sg_x_prev s) = n /\ C (sg_x_prev s) /\ sg_g_prev s = grad (sg_x_prev s) /\
    length (sg_f_past s) = so_memory opt /\ (sg_f_past s)@0 = func (sg_x s) /\ sg_delta s <= 0 /\
    (1 <= sg_iterations s)%nat /\ (S (sg_iterations s) <= sg_f_calls s <= 50 * sg_iterations s)%nat /\
    sg_g_calls s = S (sg_iterations s).
  Lemma init_inv : spg_inv (spg_init func grad proj opt x0).
  Proof.
    destruct (HP x0 Hx0) as [Lx [Cx _]]. unfold spg_init. cbv zeta. set (x := proj x0) in *. pose proof (Hg x Lx) as Lg.
    destruct (@dir_ok x (grad x) 1 Lx Lg Cx ltac:(lra)) as [Ld [_ [De Cs]]]. rewrite rscale_1 in *.
    set (d := rsub (proj (rsub x (grad x))) x) in *.
    set (t := if Reqb (nrm1 (grad x)) 0 then 1 else Rmin 1 (1 / nrm1 (grad x))).
    assert (Ht : 0 <= t <= 1).
    { unfold t. destruct (Reqb_spec (nrm1 (grad x)) 0) as [E|E]; [lra|]. pose proof (nrm1_pos (grad x)).
      split; [|apply Rmin_l]. apply Rmin_glb; [lra|]. unfold Rdiv. rewrite Rmult_1_l. left. apply Rinv_0_lt_compat. lra. }
    unfold spg_inv. cbn [sg_x sg_g sg_x_prev sg_g_prev sg_f_past sg_delta sg_iterations sg_f_calls sg_g_calls].
    split; [vl|]. split; [auto|]. split; [auto|]. split; [auto|]. split; [auto|]. split; [auto|]. split; [apply repeat_length|].
    split; [destruct (so_memory opt); [lia|reflexivity]|]. split; [pose proof (rdot_pos d); unfold nrm2 in De; lra|]. repeat split; lia.
  Qed.
  (** one step: the new point is feasible, and the line search either meets the
      nonmonotone Armijo condition or used all its 50 evaluations *)
  Lemma step_facts s s' : spg_inv s -> spg_step func grad proj opt s = Some s' ->
    exists alpha d c, 0 < alpha <= 1 /\ length d = n /\ sg_x s' = radd (sg_x s) (rscale alpha d) /\ sg_delta s' = rdot (sg_g s) d /\
      nrm2 d <= - (L_MAX * sg_delta s') /\ C (radd (sg_x s) d) /\
      sg_f_calls s' = (sg_f_calls s + c)%nat /\ (1 <= c <= 50)%nat /\ sg_f_past s' = func (sg_x s') :: removelast (sg_f_past s) /\
      (func (sg_x s') <= vmax (sg_f_past s) + alpha * (so_suff_dec opt * sg_delta s') \/ c = 50%nat).
  Proof.
    intros [Lx [Cx [G [Lxp [Cxp [Gp [Lf [F0 [D0 [I1 [FC GC]]]]]]]]]]] H. unfold spg_step in H. cbv zeta in H.
    set (lam := spg_lambda _ _) in H. pose proof (lambda_bounds (rsub (sg_x s) (sg_x_prev s)) (rsub (sg_g s) (sg_g_prev s))) as Lb. fold lam in Lb.
    pose proof L_MIN_pos as LP.
    assert (Lg : length (sg_g s) = n) by (rewrite G; auto).
    destruct (@dir_ok (sg_x s) (sg_g s) lam Lx Lg Cx ltac:(lra)) as [Ld [Cd [De Cs]]].
    set (d := rsub (proj (rsub (sg_x s) (rscale lam (sg_g s)))) (sg_x s)) in *.
    destruct (line_search _ _ _ _ _ _ _) as [l| |] eqn:E; try discriminate. injection H as <-.
    cbn [sg_x sg_g sg_x_prev sg_g_prev sg_f_past sg_delta sg_iterations sg_f_calls sg_g_calls].
    destruct (ls_result _ _ _ _ _ _ _ E) as [[A [Ex [Ef [El _]]]] [Cb Ok]].
    exists (ls_alpha l), d, (ls_calls l). split; [auto|]. split; [auto|]. split; [auto|]. split; [auto|].
    split. { pose proof (rdot_pos d) as Pd. unfold nrm2 in *. assert (rdot (sg_g s) d <= 0) by nra. nra. }
    split; [auto|]. split; [auto|]. split; [auto|]. split.
    { rewrite <- Ef. unfold cbuf_push_left. destruct (sg_f_past s); [simpl in Lf; lia|reflexivity]. }
    destruct Ok as [Ok|Ok]; [left; rewrite <- Ef, <- El; auto|now right].
  Qed.
  Lemma step_inv s s' : spg_inv s -> spg_step func grad proj opt s = Some s' -> spg_inv s'.
  Proof.
    intros I H. destruct (step_facts I H) as [al [d [c [A [Ld [Ex [Ed [De [Cd [Ec [Cb [Ep _]]]]]]]]]]]].
    assert (G' : sg_g s' = grad (sg_x s') /\ sg_x_prev s' = sg_x s /\ sg_g_prev s' = sg_g s /\ sg_iterations s' = S (sg_iterations s) /\ sg_g_calls s' = S (sg_g_calls s)).
    { unfold spg_step in H. cbv zeta in H. destruct (line_search _ _ _ _ _ _ _); try discriminate. injection H as <-. cbn. auto. }
    destruct G' as [G' [Xp [Gp' [It Gc]]]]. destruct I as [Lx [Cx [G [Lxp [Cxp [Gp [Lf [F0 [D0 [I1 [FC GC]]]]]]]]]]].
    unfold spg_inv. rewrite Xp, Gp', It, Gc, Ec, Ep, Ex in *.
    split; [vl|]. split. { replace (rscale al d) with (rscale al (rsub (radd (sg_x s) d) (sg_x s))) by (f_equal; veq). apply HC; auto; [vl|lra]. }
    split; [auto|]. split; [auto|]. split; [auto|]. split; [auto|]. split.
    { cbn [length]. rewrite <- Lf. destruct (sg_f_past s) as [|a l] eqn:El; [simpl in Lf; lia|]. 
      clear. revert a. induction l as [|b l IH]; intros a; [reflexivity|]. change (removelast (a :: b :: l)) with (a :: removelast (b :: l)). cbn [length]. rewrite IH. reflexivity. }
    split; [reflexivity|]. split.
    { pose proof (rdot_pos d) as Pd. pose proof L_MIN_pos. assert (0 < L_MAX) by (unfold L_MAX; lra). unfold nrm2 in De. nra. }
    split; [lia|]. split; lia.
  Qed.
  Lemma reach_inv k s : reach k s -> spg_inv s.
  Proof. intros H. induction H as [|k s s' H IH Cd Bd]; [apply init_inv|]. eapply step_inv; eauto. Qed.
  Lemma reach_iter k s : reach k s -> sg_iterations s = S k.
  Proof.
    induction 1 as [|k s s' H IH Cd Bd]; [reflexivity|]. unfold spg_step in Bd. cbv zeta in Bd.
    destruct (line_search _ _ _ _ _ _ _); try discriminate. injection Bd as <-. cbn. lia.
  Qed.
  Lemma reach_max k s : reach k s -> (sg_iterations s <= Nat.max 1 (so_max_iters opt))%nat /\ (sg_f_calls s < Nat.max 3 (so_max_f_calls opt + 50))%nat.
  Proof.
    intros H. destruct H as [|k s s' H Cd Bd]; [unfold spg_init; cbn [sg_iterations sg_f_calls]; lia|].
    pose proof (reach_inv H) as I. destruct (step_facts I Bd) as [_ [_ [c [_ [_ [_ [_ [_ [_ [Ec [Cb _]]]]]]]]]]].
    pose proof (reach_iter H). pose proof (reach_iter (reach_S _ _ _ _ _ _ H Cd Bd)).
    unfold spg_cond in Cd. cbv zeta in Cd. rewrite !andb_true_iff in Cd. destruct Cd as [[[Ci _] _] Cf]. apply Nat.ltb_lt in Ci, Cf. lia.
  Qed.
  Lemma total fuel : (so_max_iters opt <= fuel)%nat -> exists s, spg_solve_from func grad proj opt x0 fuel = Done s.
  Proof.
    intros Hf. unfold spg_solve_from. apply while_total.
    - intros k s _ _. unfold spg_step. cbv zeta.
      match goal with |- match line_search ?f ?a ?b ?c ?d ?e ?g with _ => _ end <> None => destruct (ls_total f a b c d e g) as [l ->] end. discriminate.
    - intros k s H Cd. pose proof (reach_iter H). unfold spg_cond in Cd. cbv zeta in Cd. rewrite !andb_true_iff in Cd. destruct Cd as [[[Ci _] _] _]. apply Nat.ltb_lt in Ci. lia.
  Qed.
  (** for functions with a moderate Lipschitz constant no line search exhausts its evaluations *)
  Lemma ls_success L s s' : smooth_on n C func grad L -> 0 <= L -> 0 <= so_suff_dec opt < 1 ->
    L * L_MAX <= 2 ^ 50 * (1 - so_suff_dec opt) -> spg_inv s -> spg_step func grad proj opt s = Some s' ->
    func (sg_x s') <= vmax (sg_f_past s).
  Proof.
    intros Sm HL0 Hgam HL I H. pose proof I as I'. destruct I' as [Lx [Cx [G [Lxp [Cxp [Gp [Lf [F0 [D0 [I1 [FC GC]]]]]]]]]]].
    unfold spg_step in H. cbv zeta in H.
    set (lam := spg_lambda _ _) in H. pose proof (lambda_bounds (rsub (sg_x s) (sg_x_prev s)) (rsub (sg_g s) (sg_g_prev s))) as Lb. fold lam in Lb.
    pose proof L_MIN_pos as LP. assert (Lg : length (sg_g s) = n) by (rewrite G; auto).
    destruct (@dir_ok (sg_x s) (sg_g s) lam Lx Lg Cx ltac:(lra)) as [Ld [Cd [De Cs]]].
    set (d := rsub (proj (rsub (sg_x s) (rscale lam (sg_g s)))) (sg_x s)) in *.
    destruct (line_search _ _ _ _ _ _ _) as [l| |] eqn:E; try discriminate. injection H as <-. cbn [sg_x].
    set (delta := rdot (sg_g s) d) in *. set (gam := so_suff_dec opt) in *.
    assert (Fm : (sg_f_past s)@0 <= vmax (sg_f_past s)).
    { apply vmax_spec; [intros E0; rewrite E0 in Lf; simpl in Lf; lia|]. apply nth_In. lia. }
    pose proof (rdot_pos d) as Pd. fold (nrm2 d) in Pd.
    assert (Dd : delta <= 0) by nra.
    destruct (ls_result _ _ _ _ _ _ _ E) as [[A [Ex [Ef [El _]]]] [Cb Ok]]. rewrite <- Ef.
    assert (Good : ls_f l <= ls_lim l -> ls_f l <= vmax (sg_f_past s)).
    { intros Q. rewrite El in Q. assert (ls_alpha l * (gam * delta) <= 0) by (assert (gam * delta <= 0) by nra; nra). lra. }
    destruct Ok as [Ok|Ok]; [now apply Good|]. apply Good.
    assert (Sb : ls_f l <= (sg_f_past s)@0 + ls_alpha l * delta + L / 2 * (ls_alpha l * ls_alpha l) * nrm2 d).
    { rewrite Ef, Ex, F0. unfold delta. rewrite G. apply Sm; auto. lra. }
    destruct (Req_dec delta 0) as [D|D].
    - assert (nrm2 d = 0) by nra. rewrite H, D in Sb. rewrite El, D. nra.
    - assert (Al : ls_alpha l = / 2 ^ 49).
      { unfold line_search in E. apply while_done in E. destruct E as [j [Hj [Hr Hc]]]. pose proof (ls_reach Hr) as [_ Ec].
        assert (j = 49%nat) by lia. subst j. eapply ls_halving; [| | |exact Hr]; lra. }
      rewrite El. assert (Nd : nrm2 d <= L_MAX * - delta) by nra.
      assert (HA : L * L_MAX * ls_alpha l <= 2 * (1 - gam)).
      { rewrite Al. apply Rmult_le_reg_r with (2 ^ 49); [apply pow_lt; lra|]. rewrite Rmult_assoc, Rinv_l by (apply pow_nonzero; lra).
        rewrite Rmult_1_r. replace (2 * (1 - gam) * 2 ^ 49) with (2 ^ 50 * (1 - gam)) by (simpl; ring). exact HL. }
      assert (Q1 : L / 2 * (ls_alpha l * ls_alpha l) * nrm2 d <= L / 2 * (ls_alpha l * ls_alpha l) * (L_MAX * - delta)).
      { apply Rmult_le_compat_l; auto. apply Rmult_le_pos; [lra|]. apply Rle_0_sqr. }
      assert (Q2 : L / 2 * (ls_alpha l * ls_alpha l) * (L_MAX * - delta) = (L * L_MAX * ls_alpha l) * (ls_alpha l * - delta) / 2) by field.
      assert (Q3 : (L * L_MAX * ls_alpha l) * (ls_alpha l * - delta) <= 2 * (1 - gam) * (ls_alpha l * - delta)) by (apply Rmult_le_compat_r; [nra|exact HA]).
      lra.
  Qed.
  Lemma level L k s : smooth_on n C func grad L -> 0 <= L -> 0 <= so_suff_dec opt < 1 ->
    L * L_MAX <= 2 ^ 50 * (1 - so_suff_dec opt) -> reach k s ->
    func (sg_x s) <= func (sg_x (spg_init func grad proj opt x0)).
  Proof.
    intros Sm HL0 Hgam HL H. set (f1 := func (sg_x (spg_init func grad proj opt x0))).
    assert (P : forall v, In v (sg_f_past s) -> v <= f1).
    { induction H as [|k s s' H IH Cd Bd].
      - intros v Hv. unfold spg_init in Hv. cbn [sg_f_past] in Hv. apply repeat_spec in Hv. subst v. right. reflexivity.
      - pose proof (reach_inv H) as I. destruct (step_facts I Bd) as [_ [_ [_ [_ [_ [_ [_ [_ [_ [_ [_ [Ep _]]]]]]]]]]]].
        pose proof I as (_ & _ & _ & _ & _ & _ & Lf & _). assert (Ne : sg_f_past s <> []) by (intros E0; rewrite E0 in Lf; simpl in Lf; lia).
        rewrite Ep. intros v [<-|Hv].
        + eapply Rle_trans; [eapply ls_success; eauto|]. apply IH. now apply vmax_spec.
        + apply IH. clear - Hv. induction (sg_f_past s) as [|a [|b l] IHl]; [easy|easy|]. destruct Hv as [<-|Hv]; [left; auto|right; auto]. }
    pose proof (reach_inv H) as (_ & _ & _ & _ & _ & _ & Lf & F0 & _). rewrite <- F0. apply P. apply nth_In. lia.
  Qed.
  (** a fixed point of the projected gradient step minimises a convex function over C *)
  Lemma fixed_point_minimises x z : length x = n -> length z = n -> C z -> proj (rsub x (grad x)) = x ->
    (forall u, length u = n -> C u -> func x + rdot (grad x) (rsub u x) <= func u) -> func x <= func z.
  Proof.
    intros Lx Lz Cz Fx Cv. pose proof (Hg x Lx) as Lg. assert (Ly : length (rsub x (grad x)) = n) by vl.
    pose proof (@projects_vi _ _ _ _ _ HC HP Ly Lz Cz) as V. rewrite Fx in V.
    assert (E : rsub (rsub x (grad x)) x = ropp (grad x)) by veq. rewrite E, rdot_opp_l in V. specialize (Cv z Lz Cz). lra.
  Qed.
End SPG.
