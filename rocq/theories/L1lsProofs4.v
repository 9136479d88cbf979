From Coq Require Import List Arith Bool Lia Reals Lra Psatz.
From Verif Require Import Vec RVec RMat Loop LoopLemmas XReal SolverSpec SolverLemmas OptSpec OptProofs SelModel SelProofs CGModel CGProofs FomProofs2 SpglProofs SpglProofs3 SpglProofs4 L1lsModel L1lsSpec L1lsProofs L1lsProofs2 L1lsProofs3.
Import ListNotations.
Set Implicit Arguments.
Local Open Scope R_scope.

Lemma pcg_energy n A M b x0 isid mg mx : linear_op n n A -> (forall x, length x = n -> length (M x) = n) -> length b = n -> length x0 = n ->
  symmetric_op n A -> symmetric_op n M -> psd_op n A -> forall k s, reaches (pcg_cond isid mg mx) (pcg_body A M) (pcg_init A M b x0) k s ->
  energy A b (pcg_x s) <= energy A b x0.
Proof.
  intros LA LM Hb Hx0 SA SM PA k s H. induction H as [|k s s' H IH C B]; [right; reflexivity|].
  eapply Rle_trans; [|exact IH].
  assert (H' : reaches (pcg_cond isid mg mx) (pcg_body A M) (pcg_init A M b x0) (S k) s') by (econstructor; eauto). pose proof (@run_descent n A M b x0 isid mg mx LA LM Hb Hx0 SA SM (S k) s' H' k ltac:(lia)) as D.
  rewrite (reaches_traj H), (reaches_traj H') in D. rewrite D.
  destruct (pcg_reach_ok LA LM Hb Hx0 H) as [O _]. assert (P : 0 <= rdot (pcg_p s) (A (pcg_p s))) by (apply PA; apply O).
  destruct (pcg_body_inv _ _ _ B) as [N _]. assert (P' : 0 < / rdot (pcg_p s) (A (pcg_p s))) by (apply Rinv_0_lt_compat; lra).
  pose proof (Rle_0_sqr (pcg_gamma s)) as Q. unfold Rsqr in Q. pose proof (Rmult_le_pos _ _ Q (Rlt_le _ _ P')). lra.
Qed.

Section Run.
  Variables (n m : nat) (times trans : vec -> vec) (y : vec) (lambda tol xi : R) (t0 : option R) (max_iters pmi ff bf : nat).
  Hypothesis Adj : adjoint_ops n m times trans.
  Hypothesis Ly : length y = m.
  Hypothesis Hn : (0 < n)%nat.
  Hypothesis Hl : 0 <= lambda.
  Hypothesis Ht0 : forall t, t0 = Some t -> 0 < t.
  Let En : l1_n trans y = n. Proof. unfold l1_n. now apply Adj. Qed.
  Notation obj := (l1ls_obj times y lambda).
  Notation body := (l1_body times trans y lambda xi pmi ff bf).
  Notation cond := (l1_cond tol max_iters).
  Notation init := (l1_init times trans y lambda t0).
  Notation dir := (newton_direction times trans y lambda xi pmi).
  Notation grad s := (gradient_phi trans y lambda (l1_x s) (l1_u s) (l1_z s) (l1_t s)).
  Notation hess s := (hessian times trans y (l1_x s) (l1_u s) (l1_t s)).
  Definition l1_ok (s : l1ls_state) : Prop :=
    strictly_inside n (l1_x s) (l1_u s) /\ l1_z s = rsub (times (l1_x s)) y /\ length (l1_dxu s) = (2 * n)%nat /\ 0 < l1_t s /\
    length (l1_nu s) = m /\ nrminf (trans (l1_nu s)) <= lambda /\ l1_primal s = obj (l1_x s) /\ l1_gap s = l1_primal s - l1_dual s /\
    (forall w, length w = n -> l1_dual s <= obj w).
  Lemma t0_pos : 0 < l1_t0 trans y lambda t0.
  Proof.
    unfold l1_t0. destruct t0 as [t|]; [now apply Ht0|]. rewrite En. assert (0 < INR n) by (apply lt_0_INR; lia).
    assert (P : 0 < 2 * INR n * 1000) by lra. unfold xdiv, xmax, xmin.
    destruct (Reqb lambda 0); [destruct (Reqb 1 0); auto; destruct (Rltb 0 1); auto|].
    - apply Rmin_glb_lt; lra.
    - apply Rmin_glb_lt; auto. pose proof (Rmax_r (1 / lambda) 1). lra.
  Qed.
  Lemma init_ok x0 u0 : strictly_inside n x0 u0 -> l1_ok (init x0 u0).
  Proof.
    intros Hin. destruct Adj as [[A0 _] _]. assert (length (times x0) = m) by (apply A0; apply Hin).
    assert (Lz : length (rsub (times x0) y) = m) by vl. unfold l1_ok, l1_init. cbv zeta. cbn.
    split; auto. split; auto. split; [rewrite rzero_len, En; lia|]. split; [apply t0_pos|]. split; [eapply get_nu_len; eauto|].
    split; [eapply get_nu_feasible; eauto|]. split; [reflexivity|]. split; [reflexivity|]. intros w Lw.
    eapply weak_duality; eauto. - eapply get_nu_len; eauto. - eapply get_nu_feasible; eauto.
  Qed.
  (** *** the direction *)
  Lemma direction_ok s : l1_ok s -> exists p, dir s = Some p /\ length (pcg_x p) = (2 * n)%nat /\ (1 <= pcg_it p <= Nat.max 1 pmi)%nat /\
    energy (hess s) (ropp (grad s)) (pcg_x p) <= energy (hess s) (ropp (grad s)) (l1_dxu s) /\
    ((pmi <= pcg_it p)%nat \/
     nrm2 (radd (hess s (pcg_x p)) (grad s)) <= (pcg_tolerance xi (l1_gap s) (nrm (grad s)) * pcg_tolerance xi (l1_gap s) (nrm (grad s))) * nrm2 (grad s)).
  Proof.
    intros [Hin [Ez [Ld [Ht _]]]]. destruct Adj as [[A0 _] _]. pose proof (A0 _ (proj1 Hin)) as LA.
    assert (Lz : length (l1_z s) = m) by (rewrite Ez; vl).
    pose proof (@gradient_len n m times trans y lambda (l1_x s) (l1_u s) (l1_t s) Adj Ly (l1_z s) Lz) as Lg.
    pose proof (@hessian_linear n m times trans y (l1_x s) (l1_u s) (l1_t s) Adj Ly Hin) as LH.
    assert (SH : symmetric_op (2 * n) (hess s)) by (eapply hessian_sym; eauto).
    assert (PH : positive_op (2 * n) (hess s)) by (eapply hessian_pos; eauto).
    set (M := Some (preconditioner trans y (l1_x s) (l1_u s) (l1_t s))).
    assert (LM : forall v, length v = (2 * n)%nat -> length (pcg_M M v) = (2 * n)%nat) by (intros; eapply precond_len; eauto).
    assert (SM : symmetric_op (2 * n) (pcg_M M)) by (eapply precond_sym; eauto).
    assert (PM : positive_op (2 * n) (pcg_M M)) by (eapply precond_pos; eauto).
    set (tl := pcg_tolerance xi (l1_gap s) (nrm (grad s))). set (b := ropp (grad s)).
    assert (Lb : length b = (2 * n)%nat) by (unfold b; vl).
    unfold newton_direction. cbv zeta. fold M tl b.
    destruct (pcg_solve_from (hess s) b (l1_dxu s) pmi tl 0 M pmi) as [p| |] eqn:E.
    - exists p. split; auto. pose proof E as E'. apply while_done in E' as [k [_ [R _]]].
      destruct (pcg_reach_ok LH LM Lb Ld R) as [O It].
      destruct (@pcg_exit (2 * n) (hess s) M b (l1_dxu s) pmi tl 0 LH LM Lb Ld pmi p E) as [X1 [X2 X3]].
      split; [apply O|]. split; [lia|]. split.
      + exact (@pcg_energy (2 * n) (hess s) (pcg_M M) b (l1_dxu s) _ _ _ LH LM Lb Ld SH SM (pos_psd LH PH) k p R).
      + destruct X3 as [X3|X3]; [left; auto|right]. rewrite Rmult_0_r, Rmax_left in X3.
        * pose proof (proj1 LH (pcg_x p) (proj1 O)) as L1. unfold b in X3.
          replace (rsub (ropp (grad s)) (hess s (pcg_x p))) with (ropp (radd (hess s (pcg_x p)) (grad s))) in X3 by veq.
          unfold nrm2 in *. rewrite !rdot_opp_l, !rdot_opp_r, !Ropp_involutive in X3. exact X3.
        * apply Rmult_le_pos; [apply Rle_0_sqr|apply rdot_pos].
    - exfalso. apply (while_fail _ (reach_0 _ _ _)) in E as [k [p [R [C B]]]].
      destruct (@run_progress (2 * n) (hess s) (pcg_M M) b (l1_dxu s) _ _ _ LH LM Lb Ld SH SM PH PM k p R) as [_ [_ [N _]]]; [|contradiction].
      refine (@cond_nz (2 * n) (hess s) (pcg_M M) b (l1_dxu s) _ _ _ LH LM Lb Ld _ _ k p R C); [apply pcg_max_pos|discriminate].
    - exfalso. exact (@pcg_fuel (2 * n) (hess s) M b (l1_dxu s) pmi tl 0 LH LM Lb Ld pmi (le_n _) E).
  Qed.

  (** *** one iteration *)
  Lemma body_inv s s' : l1_ok s -> body s = Some s' -> exists p b j,
    dir s = Some p /\ let dx := firstn n (pcg_x p) in let du := skipn n (pcg_x p) in let gdx := rdot (grad s) (pcg_x p) in
    length dx = n /\ length du = n /\
    @bt_ok n times y lambda (l1_x s) (l1_u s) dx du (l1_t s) j b /\
    barrier n times y lambda (l1_t s) (bt_x b) (bt_u b) <= barrier n times y lambda (l1_t s) (l1_x s) (l1_u s) + L1LS_ALPHA * bt_s b * gdx /\
    let dual := Rmax (get_dual_obj y (get_nu trans lambda (bt_z b))) (l1_dual s) in
    l1_x s' = bt_x b /\ l1_u s' = bt_u b /\ l1_z s' = bt_z b /\ l1_nu s' = get_nu trans lambda (bt_z b) /\ l1_dxu s' = pcg_x p /\
    l1_primal s' = obj (bt_x b) /\ l1_dual s' = dual /\ l1_gap s' = obj (bt_x b) - dual /\ l1_rel_gap s' = xdiv (obj (bt_x b) - dual) (l1_dual s) /\
    l1_t s <= l1_t s' <= Rmax (l1_t s) (2 * l1_t s) /\ l1_iterations s' = S (l1_iterations s) /\
    l1_n_times s' = (l1_n_times s + pcg_it p + bt_count b)%nat /\ l1_n_trans s' = (l1_n_trans s + 1 + pcg_it p)%nat /\
    (bt_s b < 1 / 2 -> l1_t s' = l1_t s) /\ (1 / 2 <= bt_s b -> l1_gap s' = 0 -> l1_t s' = Rmax (2 * l1_t s) (l1_t s)) /\
    (1 / 2 <= bt_s b -> l1_gap s' <> 0 -> l1_t s' = Rmax (Rmin (2 * INR n * 2 / l1_gap s') (2 * l1_t s)) (l1_t s)).
  Proof.
    intros O B. destruct (direction_ok O) as [p [Ep [Lp _]]]. destruct O as [Hin [Ez [Ld [Ht _]]]].
    destruct (halves n Lp) as [K0 K1]. unfold l1_body in B. cbv zeta in B. rewrite Ep, En in B.
    destruct (line_search _ _ _ _ _ _ _ _ _ _ ff bf) as [b| |] eqn:E; try discriminate. injection B as <-. cbn.
    rewrite Ez in E at 1. destruct (@search_done n m times y lambda (l1_x s) (l1_u s) (firstn n (pcg_x p)) (skipn n (pcg_x p)) (l1_t s) _ Ly Hin Hn K0 K1 _ _ _ E) as [j [J D]].
    exists p, b, j. split; auto. split; auto. split; auto. split; auto. split; auto.
    destruct J as [st [_ [_ [_ [_ [_ [_ [Ez' _]]]]]]]]. rewrite Ez'. repeat (split; [solve [auto]|]). 
    assert (HT : forall q g : R, let t' := if Rltb q (1 / 2) then l1_t s else if Reqb g 0 then Rmax (L1LS_MU * l1_t s) (l1_t s) else
        Rmax (Rmin (2 * INR n * L1LS_MU / g) (L1LS_MU * l1_t s)) (l1_t s) in
      (q < 1 / 2 -> t' = l1_t s) /\ (1 / 2 <= q -> g = 0 -> t' = Rmax (2 * l1_t s) (l1_t s)) /\
      (1 / 2 <= q -> g <> 0 -> t' = Rmax (Rmin (2 * INR n * 2 / g) (2 * l1_t s)) (l1_t s))).
    { clear. intros q g. cbv zeta. unfold L1LS_MU. destruct (Rltb_spec q (1 / 2)); (split; [|split]); intros; auto; try lra.
      - destruct (Reqb_spec g 0); [auto|contradiction].
      - destruct (Reqb_spec g 0); [contradiction|auto]. }
    split; [|split; [auto|split; [auto|split; [auto|]]]].
    2:{ match goal with |- context[Rltb ?q _] => match goal with |- context[Reqb ?g _] => exact (HT q g) end end. }
    clear - Ht. pose proof (Rmax_r (l1_t s) (2 * l1_t s)). pose proof (Rmax_l (l1_t s) (2 * l1_t s)).
    unfold L1LS_MU. destruct (Rltb _ _); [lra|]. destruct (Reqb _ _).
    - split; [apply Rmax_r|]. apply Rmax_lub; lra.
    - split; [apply Rmax_r|]. apply Rmax_lub; [|lra]. eapply Rle_trans; [apply Rmin_r|lra].
  Qed.
  Lemma body_ok s s' : l1_ok s -> body s = Some s' -> l1_ok s'.
  Proof.
    intros O B. destruct (body_inv O B) as [p [b [j [Ep H]]]]. cbv zeta in H. destruct H as [K0 [K1 [J [D [Ex [Eu [Ez [En' [Ed [Epr [Edu [Eg [_ [Et _]]]]]]]]]]]]]].
    destruct J as [st [_ [_ [_ [_ [_ [Hin [Ez' _]]]]]]]]. destruct (direction_ok O) as [p' [Ep' [Lp _]]]. assert (p' = p) by congruence. subst p'.
    destruct O as [_ [_ [_ [Ht [_ [_ [_ [_ Hd]]]]]]]]. destruct Adj as [[A0 _] _]. pose proof (A0 _ (proj1 Hin)).
    assert (Lz : length (bt_z b) = m) by (rewrite Ez'; vl).
    unfold l1_ok. rewrite Ex, Eu, Ez, En', Ed, Epr, Eg, Edu. split; auto. split; auto. split; auto. split; [lra|].
    split; [eapply get_nu_len; eauto|]. split; [eapply get_nu_feasible; eauto|]. split; auto. split; auto.
    intros w Lw. apply Rmax_lub; [|auto]. eapply weak_duality; eauto; [eapply get_nu_len; eauto|eapply get_nu_feasible; eauto].
  Qed.
  Variables (x0 u0 : vec).
  Hypothesis Hin0 : strictly_inside n x0 u0.
  Notation Rch := (reaches cond body (init x0 u0)).
  Lemma reach_ok k s : Rch k s -> l1_ok s /\ l1_iterations s = S k /\ l1_dual (init x0 u0) <= l1_dual s /\ l1_t0 trans y lambda t0 <= l1_t s.
  Proof.
    induction 1 as [|k s s' H IH C B]; [split; [now apply init_ok|]; cbn; split; [auto|split; right; auto]|].
    destruct IH as [O [It [Du T]]]. split; [eapply body_ok; eauto|].
    destruct (body_inv O B) as [p [b [j [Ep Q]]]]. cbv zeta in Q. destruct Q as [_ [_ [_ [_ [_ [_ [_ [_ [_ [_ [Edu [_ [_ [Et [Ei _]]]]]]]]]]]]]]].
    split; [lia|]. split; [|lra]. rewrite Edu. pose proof (Rmax_r (get_dual_obj y (get_nu trans lambda (bt_z b))) (l1_dual s)). lra.
  Qed.
  Lemma xdiv_le a b c : 0 < b -> xgtb (xdiv a b) c = false -> a <= c * b.
  Proof.
    intros Hb. unfold xdiv. destruct (Reqb_spec b 0); [lra|]. cbn. intros H. apply Rltb_false in H.
    apply Rmult_le_compat_r with (r := b) in H; [|lra]. replace (a / b * b) with a in H by (field; lra). lra.
  Qed.
  (** a run that stops on its tolerance is nearly optimal *)
  Lemma certificate k s : 0 <= tol -> 0 < l1_dual (init x0 u0) -> Rch k s -> xgtb (l1_rel_gap s) tol = false ->
    forall w, length w = n -> obj (l1_x s) - obj w <= tol * obj w.
  Proof.
    intros Htol Hd H C w Lw. destruct (reach_ok H) as [O [_ [Du _]]]. pose proof O as O'.
    destruct O' as [_ [_ [_ [_ [_ [_ [Ep [Eg Hw]]]]]]]]. specialize (Hw w Lw).
    assert (G : l1_gap s <= tol * l1_dual s).
    { destruct H as [|k s s' H C' B].
      - cbn [l1_init l1_gap l1_rel_gap l1_dual] in *. apply xdiv_le; auto.
      - destruct (reach_ok H) as [O0 [_ [Du0 _]]]. destruct (body_inv O0 B) as [p [b [j [_ Q]]]]. cbv zeta in Q.
        destruct Q as [_ [_ [_ [_ [_ [_ [_ [_ [_ [_ [Edu [Egap [Er _]]]]]]]]]]]]].
        rewrite Er in C. apply xdiv_le in C; [|lra]. rewrite Egap. rewrite Edu in *.
        set (q := Rmax (get_dual_obj y (get_nu trans lambda (bt_z b))) (l1_dual s)) in *.
        assert (l1_dual s <= q) by (unfold q; apply Rmax_r). pose proof (Rmult_le_compat_l tol _ _ Htol H0). lra. }
    pose proof (Rmult_le_compat_l tol _ _ Htol Hw). rewrite Ep in Eg. lra.
  Qed.
End Run.

(** the step is defined whenever the model value of the previous direction is not positive *)
Lemma energy_dot A b x : energy A b x = / 2 * rdot x (A x) - rdot b x.
Proof. reflexivity. Qed.
Lemma step_defined n m times trans y lambda xi pmi s : adjoint_ops n m times trans -> length y = m -> (0 < n)%nat -> 0 <= lambda ->
  @l1_ok n m times trans y lambda s ->
  / 2 * rdot (l1_dxu s) (hessian times trans y (l1_x s) (l1_u s) (l1_t s) (l1_dxu s)) +
    rdot (gradient_phi trans y lambda (l1_x s) (l1_u s) (l1_z s) (l1_t s)) (l1_dxu s) <= 0 ->
  exists ff bf s', l1_body times trans y lambda xi pmi ff bf s = Some s'.
Proof.
  intros Adj Ly Hn Hl O He. destruct (@direction_ok n m times trans y lambda xi pmi Adj Ly Hn s O) as [p [Ep [Lp [_ [Hp _]]]]].
  assert (En : l1_n trans y = n) by (unfold l1_n; now apply Adj).
  set (g := gradient_phi trans y lambda (l1_x s) (l1_u s) (l1_z s) (l1_t s)) in *. set (H := hessian times trans y (l1_x s) (l1_u s) (l1_t s)) in *.
  rewrite !energy_dot, !rdot_opp_l in Hp. destruct O as [Hin [Ez [Ld [Ht _]]]]. destruct (halves n Lp) as [K0 K1].
  assert (Q : exists ff bf b, line_search times y lambda (l1_x s) (l1_u s) (firstn n (pcg_x p)) (skipn n (pcg_x p)) (l1_t s)
    (get_phi lambda (l1_u s) (l1_z s) (constraints (l1_x s) (l1_u s)) (l1_t s)) (rdot g (pcg_x p)) ff bf = Done b).
  { destruct (list_eq_dec Req_EM_T (pcg_x p) (rzero (2 * n))) as [Z|Z].
    - exists 0%nat, 0%nat. destruct (@search_zero n m times y lambda (l1_x s) (l1_u s) (firstn n (pcg_x p)) (skipn n (pcg_x p)) (l1_t s) (rdot g (pcg_x p))) as [b [B _]]; auto.
      + rewrite Z. apply rdot_zero_r.
      + rewrite Z. unfold rzero. replace (2 * n)%nat with (n + n)%nat by lia. rewrite repeat_app. apply firstn_app_len, repeat_length.
      + rewrite Z. unfold rzero. replace (2 * n)%nat with (n + n)%nat by lia. rewrite repeat_app. apply skipn_app_len, repeat_length.
      + exists b. rewrite Ez. exact B.
    - destruct (@search_total n m times trans y lambda (l1_x s) (l1_u s) (firstn n (pcg_x p)) (skipn n (pcg_x p)) (l1_t s) (rdot g (pcg_x p))) as [ff [bf [b B]]]; auto; [| |exists ff, bf, b; rewrite Ez; exact B].
      + unfold g. now rewrite firstn_skipn, Ez.
      + assert (0 < rdot (pcg_x p) (H (pcg_x p))) by (unfold H; eapply hessian_pos; eauto). lra. }
  destruct Q as [ff [bf [b B]]]. exists ff, bf. unfold l1_body. cbv zeta. rewrite Ep, En. fold g. rewrite B. eexists. reflexivity.
Qed.

(** large regularisation: zero is the solution and the solver returns it at once *)
Lemma zero_run n m times trans y lambda tol xi t0 mi pmi u0 ff bf fuel : adjoint_ops n m times trans -> length y = m -> 0 <= lambda -> 0 <= tol ->
  nrminf (trans (rscale 2 y)) <= lambda ->
  exists s, l1ls_run times trans y lambda tol xi t0 mi pmi (rzero n) u0 ff bf fuel = Done s /\ l1_x s = rzero n /\ l1_iterations s = 1%nat.
Proof.
  intros Adj Ly Hl Ht Hy. exists (l1_init times trans y lambda t0 (rzero n) u0). split; [|split; reflexivity].
  assert (C : l1_cond tol mi (l1_init times trans y lambda t0 (rzero n) u0) = false).
  { unfold l1_cond. apply andb_false_iff. left. unfold l1_init. cbv zeta. cbn.
    destruct Adj as [LA [LT AT]]. assert (E : times (rzero n) = rzero m).
    { destruct LA as [A0 [A1 A2]]. replace (rzero n) with (rscale 0 (rzero n)) by veq. rewrite A2 by vl. pose proof (A0 (rzero n) ltac:(vl)). veq. }
    rewrite E. assert (Z : rsub (rzero m) y = rscale (- (1)) y) by veq. rewrite Z.
    assert (N : get_nu trans lambda (rscale (- (1)) y) = rscale (- (2)) y).
    { unfold get_nu. cbv zeta. replace (rscale 2 (rscale (- (1)) y)) with (rscale (- (2)) y) by veq.
      assert (T : nrminf (trans (rscale (- (2)) y)) = nrminf (trans (rscale 2 y))).
      { replace (rscale (- (2)) y) with (rscale (- (1)) (rscale 2 y)) by veq. destruct LT as [_ [_ T2]]. rewrite T2 by vl.
        replace (rscale (- (1)) (trans (rscale 2 y))) with (ropp (trans (rscale 2 y))) by veq. apply SpglProofs3.nrminf_opp. }
      rewrite T. pose proof (nrminf_pos (trans (rscale 2 y))). destruct (Reqb_spec (nrminf (trans (rscale 2 y))) 0); auto.
      destruct (Rltb_spec (lambda / nrminf (trans (rscale 2 y))) 1) as [Q|Q]; auto. exfalso.
      apply Rmult_lt_compat_r with (r := nrminf (trans (rscale 2 y))) in Q; [|lra].
      replace (lambda / nrminf (trans (rscale 2 y)) * nrminf (trans (rscale 2 y))) with lambda in Q by (field; lra). lra. }
    rewrite N. unfold get_primal_obj, get_dual_obj. rewrite !rdot_scale_l, !rdot_scale_r, SpglProofs4.nrm1_zero.
    assert (G : - (1) * (- (1) * rdot y y) + lambda * 0 - (- (1 / 4) * (- (2) * (- (2) * rdot y y)) - - (2) * rdot y y) = 0) by field. rewrite G.
    unfold xdiv. destruct (Reqb _ 0).
    - destruct (Reqb_spec 0 0); [reflexivity|lra].
    - cbn. destruct (Rltb_spec tol (0 / (- (1 / 4) * (- (2) * (- (2) * rdot y y)) - - (2) * rdot y y))) as [Q|Q]; auto. unfold Rdiv in Q. rewrite Rmult_0_l in Q. lra. }
  unfold l1ls_run. destruct fuel; cbn [while_]; now rewrite C.
Qed.
Lemma zero_optimal n m times trans y lambda : adjoint_ops n m times trans -> length y = m -> nrminf (trans (rscale 2 y)) <= lambda ->
  forall w, length w = n -> l1ls_obj times y lambda (rzero n) <= l1ls_obj times y lambda w.
Proof.
  intros Adj Ly Hy w Lw. pose proof Adj as [LA [LT AT]].
  assert (E : times (rzero n) = rzero m).
  { destruct LA as [A0 [A1 A2]]. replace (rzero n) with (rscale 0 (rzero n)) by veq. rewrite A2 by vl. pose proof (A0 (rzero n) ltac:(vl)). veq. }
  assert (D : l1ls_obj times y lambda (rzero n) = get_dual_obj y (rscale (- (1)) (rscale 2 y))).
  { unfold l1ls_obj, get_dual_obj, nrm2. rewrite E, SpglProofs4.nrm1_zero. replace (rsub (rzero m) y) with (rscale (- (1)) y) by veq.
    rewrite !rdot_scale_l, !rdot_scale_r. field. }
  rewrite D. eapply weak_duality; eauto; [vl|].
  destruct LT as [_ [_ T2]]. rewrite T2 by vl. replace (rscale (- (1)) (trans (rscale 2 y))) with (ropp (trans (rscale 2 y))) by veq.
  now rewrite SpglProofs3.nrminf_opp.
Qed.
