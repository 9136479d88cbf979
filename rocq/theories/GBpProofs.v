(** Basis pursuit denoising of SPGL1 with the l1 norm replaced by any norm L1n with dual norm Lin and
    projection P, on real vectors: used for the complex solver, whose vectors are real vectors of twice
    the length. *)
From Coq Require Import List Arith Bool Lia Reals Lra Psatz.
From Verif Require Import Vec RVec RMat Loop LoopLemmas SolverSpec SolverLemmas OptSpec OptModel OptProofs OptProofs2 SelModel SelProofs SpgModel FomProofs2 SpglModel SpglSpec SpglProofs SpglProofs2 SpglProofs3 SpglProofs4 GSpglProofs.
Import ListNotations.
Set Implicit Arguments.
Local Open Scope R_scope.

Section Gen.
  Variables (n : nat) (L1n Lin : vec -> R) (P : vec -> R -> vec) (gapf : vec -> vec -> R -> R).
  Hypothesis HP : forall q, 0 <= q -> vi n (fun y => L1n y <= q) (fun x => P x q).
  Hypothesis HN1 : forall x, 0 <= L1n x.
  Hypothesis HNi : forall x, 0 <= Lin x.
  Hypothesis Hholder : forall x y, length x = n -> length y = n -> Rabs (rdot x y) <= Lin x * L1n y.
  Hypothesis Hopp : forall x, Lin (ropp x) = Lin x.
  Hypothesis Hself : forall x, length x = n -> P x (L1n x) = x.
  Hypothesis HZ : L1n (rzero n) = 0.
  Definition gbpic_metrics (b g r : vec) (f sigma tau : R) : metrics :=
    let g_dnorm := Lin g in
    let r_norm := nrm r in
    let gap := gapf r b (tau * g_dnorm) in
    let f_m := Rmax 1 f in
    let r_m := Rmax 1 r_norm in
    let res_error := r_norm - sigma in
    let f_error := f - sigma ^ 2 / 2 in
    Metrics g_dnorm r_norm (gap / f_m) (Rabs res_error / r_m) (Rabs f_error / f_m).
Section Model.
  Variables (times trans : vec -> vec) (b : vec) (sigma : R) (opt : spgl1_options).
  Definition gupdate_xrgf (x : vec) (tau : R) : vec * vec * vec * R :=
    let x := P x tau in
    let r := rsub b (times x) in
    let g := ropp (trans r) in
    (x, r, g, obj_val r).
  Definition gbp_init (x0 : vec) : option bp_state :=
    let tau := L1n x0 in
    let '(x, r, g, f) := gupdate_xrgf x0 tau in
    let m := gbpic_metrics b g r f sigma tau in
    match newton_tau tau (mt_r_norm m) sigma (mt_g_dnorm m) with
    | None => None
    | Some tau =>
      let d := rsub (P (rsub x g) 0) x in
      let alpha := first_step (go_alpha_min opt) (go_alpha_max opt) (Lin d) in
      let f_past := repeat f (go_memory opt) in
      Some (BPState x g r f_past tau true (mt_r_norm m) (mt_r_gap m) (mt_res m) (mt_f m) alpha alpha 1 2 2 1 0)
    end.
  Definition gbp_body (st : bp_state) : option bp_state :=
    let f_max := vmax (bp_f_past st) in
    match curvy_line_search times b (bp_x st) (bp_g st) (bp_alpha_next st) f_max P (bp_tau st) (go_gamma opt) with
    | Done l =>
      let n_times := (bp_n_times st + cl_iters l + 1)%nat in
      let x := cl_x l in
      let r := cl_r l in
      let g := ropp (trans r) in
      let n_trans := S (bp_n_trans st) in
      let f := cl_f l in
      let m := gbpic_metrics b g r f sigma (bp_tau st) in
      let r_norm := mt_r_norm m in
      let f_old := (bp_f_past st)@0 in
      let f_change := Rabs (f - f_old) in
      let tc_a := Rleb f_change (go_dec_tol opt * f) in
      let tc_b := Rleb f_change (1 / 10 * f * Rabs (r_norm - sigma)) in
      let flag_c := (tc_a && Rltb (2 * sigma) r_norm) || (tc_b && Rleb r_norm (2 * sigma)) in
      let change_tau := flag_c && negb (bp_tau_changed st) in
      match (if change_tau then newton_tau (bp_tau st) r_norm sigma (mt_g_dnorm m) else Some (bp_tau st)) with
      | None => None
      | Some tau =>
        let tau_reduced := Rltb tau (bp_tau st) in
        let '(x, r, g, f) := if tau_reduced then gupdate_xrgf x tau else (x, r, g, f) in
        let extra := if tau_reduced then 1%nat else 0%nat in
        let f_past := cbuf_push_left (bp_f_past st) f in
        let alpha_next := bb_step (go_alpha_min opt) (go_alpha_max opt) (rsub x (bp_x st)) (rsub g (bp_g st)) in
        Some (BPState x g r f_past tau change_tau (mt_r_norm m) (mt_r_gap m) (mt_res m) (mt_f m)
                (cl_alpha l) alpha_next (S (bp_iterations st)) (n_times + extra) (n_trans + extra)
                (if change_tau then S (bp_n_newton st) else bp_n_newton st) (bp_ls_iters st + cl_iters l))
      end
    | _ => None
    end.
  Definition gsolve_bpic_from (x0 : vec) (fuel : nat) : outcome bp_state :=
    match gbp_init x0 with Some s => while_ (bp_cond b sigma opt) gbp_body fuel s | None => Fail end.
  End Model.
  Definition gfits (A : vec -> vec) (b : vec) (sigma : R) (z : vec) : Prop := length z = n /\ nrm (rsub b (A z)) <= sigma.
  Definition gfigures_of (A T : vec -> vec) (b : vec) (sigma : R) (s : bp_state) (x : vec) (tau : R) : Prop :=
    let r := rsub b (A x) in
    bp_r_norm s = nrm r /\
    bp_r_gap s = gapf r b (tau * Lin (T r)) / Rmax 1 (misfit A b x) /\
    bp_r_res_error s = Rabs (nrm r - sigma) / Rmax 1 (nrm r) /\
    bp_r_f_error s = Rabs (misfit A b x - sigma ^ 2 / 2) / Rmax 1 (misfit A b x).
  Lemma newton_core m A T b sigma xl z : adjoint_ops n m A T -> length b = m -> length xl = n -> gfits A b sigma z ->
    - rdot (rsub b (A xl)) (rsub (rsub b (A xl)) b) <= L1n z * Lin (T (rsub b (A xl))) + nrm (rsub b (A xl)) * (sigma - nrm (rsub b (A xl))).
  Proof.
    intros AD Lb L [Lz Fz]. set (r := rsub b (A xl)). pose proof (@LAx n m A T AD _ L) as L1. pose proof (@LAx n m A T AD _ Lz) as L2. assert (Lr : length r = m) by (unfold r; vl).
    assert (LT : length (T r) = n) by (apply AD; exact Lr).
    rewrite rdot_sub_r by vl. rewrite <- nrm_sq.
    assert (E : rdot r b = rdot r (rsub b (A z)) + rdot r (A z)) by (rewrite rdot_sub_r by vl; ring).
    assert (E2 : rdot r (A z) = rdot (T r) z).
    { rewrite rdot_sym. destruct AD as [_ [_ Hadj]]. rewrite Hadj by auto. apply rdot_sym. }
    pose proof (Hholder _ _ LT Lz) as H. pose proof (Rle_abs (rdot (T r) z)). pose proof (cauchy_le r (rsub b (A z))) as Cc. pose proof (nrm_pos r) as Np.
    pose proof (Rmult_le_compat_l (nrm r) _ _ Np Fz). rewrite E, E2. lra.
  Qed.
Section BPIC.
  Variables (m : nat) (A T : vec -> vec) (b : vec) (sigma : R) (opt : spgl1_options) (x0 : vec).
  Hypothesis AD : adjoint_ops n m A T.
  Hypothesis Lb : length b = m.
  Hypothesis Lx0 : length x0 = n.
  Hypothesis Hamin : 0 < go_alpha_min opt.
  Hypothesis Hamax : go_alpha_min opt <= go_alpha_max opt.
  Notation cond := (bp_cond b sigma opt).
  Notation body := (gbp_body A T b sigma opt).
  Notation init := (gbp_init A T b sigma opt x0).

  (** the point, its residual and gradient belong together *)
  Definition bp_ok (s : bp_state) : Prop :=
    length (bp_x s) = n /\ bp_r s = rsub b (A (bp_x s)) /\ bp_g s = ropp (T (bp_r s)) /\ 0 <= bp_tau s /\
    go_alpha_min opt <= bp_alpha_next s <= go_alpha_max opt /\
    (bp_f_past s <> [] -> (bp_f_past s)@0 = misfit A b (bp_x s)) /\ length (bp_f_past s) = go_memory opt.
  Notation figures := (gfigures_of A T b sigma).

  Lemma bp_init_ok s : init = Some s ->
    bp_ok s /\ bp_x s = x0 /\ figures s x0 (L1n x0) /\ bp_iterations s = 1%nat /\ bp_tau_changed s = true /\
    bp_n_times s = 2%nat /\ bp_n_trans s = 2%nat /\ bp_n_newton s = 1%nat /\ bp_ls_iters s = 0%nat /\
    Lin (T (rsub b (A x0))) <> 0 /\
    bp_tau s = Rmax 0 (L1n x0 + nrm (rsub b (A x0)) * (nrm (rsub b (A x0)) - sigma) / Lin (T (rsub b (A x0)))).
  Proof.
    unfold gbp_init, gupdate_xrgf. cbv zeta. rewrite Hself by auto. unfold gbpic_metrics. cbv zeta. cbn [mt_r_norm mt_g_dnorm mt_r_gap mt_res mt_f].
    destruct (newton_tau _ _ _ _) as [t|] eqn:N; [|discriminate]. intros H. injection H as <-.
    apply newton_some in N as [N1 N2]. rewrite Hopp in *.
    unfold bp_ok, gfigures_of. cbv zeta. cbn [bp_x bp_r bp_g bp_tau bp_tau_changed bp_alpha_next bp_f_past bp_r_norm bp_r_gap bp_r_res_error bp_r_f_error bp_iterations bp_n_times bp_n_trans bp_n_newton bp_ls_iters].
    rewrite obj_val_eq. change (/ 2 * nrm2 (rsub b (A x0))) with (misfit A b x0).
    repeat split; auto; try (apply first_step_range; auto).
    - rewrite N2. apply Rmax_l.
    - destruct (go_memory opt); [now intros []|reflexivity].
    - apply repeat_length.
  Qed.
  Lemma cbuf_len buf v : length (cbuf_push_left buf v) = length buf.
  Proof.
    destruct buf as [|a buf]; [reflexivity|]. unfold cbuf_push_left. cbn [length].
    pose proof (@app_removelast_last _ (a :: buf) 0 ltac:(discriminate)) as E. apply (f_equal (@length R)) in E.
    rewrite app_length in E. cbn [length] in E. lia.
  Qed.
  (** one step: the line search result xl, then possibly a smaller radius *)
  Lemma bp_step s s' : bp_ok s -> body s = Some s' ->
    bp_ok s' /\ L1n (bp_x s') <= bp_tau s' /\ bp_iterations s' = S (bp_iterations s) /\
    exists xl, length xl = n /\ L1n xl <= bp_tau s /\ figures s' xl (bp_tau s) /\
      (bp_tau s <= bp_tau s' -> bp_x s' = xl) /\
      (bp_tau s' < bp_tau s -> bp_x s' = P xl (bp_tau s')) /\
      (bp_tau_changed s' = false -> bp_tau s' = bp_tau s) /\
      (bp_tau_changed s' = true -> bp_tau_changed s = false /\ Lin (T (rsub b (A xl))) <> 0 /\
        bp_tau s' = Rmax 0 (bp_tau s + nrm (rsub b (A xl)) * (nrm (rsub b (A xl)) - sigma) / Lin (T (rsub b (A xl))))) /\
      bp_n_newton s' = (bp_n_newton s + if bp_tau_changed s' then 1 else 0)%nat /\
      exists j e, (j <= 10)%nat /\ (e <= if bp_tau_changed s' then 1 else 0)%nat /\ bp_alpha s' = / 2 ^ j /\ bp_ls_iters s' = (bp_ls_iters s + j)%nat /\
        bp_n_times s' = (bp_n_times s + j + 1 + e)%nat /\ bp_n_trans s' = (bp_n_trans s + 1 + e)%nat /\
        (L1n (bp_x s) <= bp_tau s -> misfit A b xl + go_gamma opt * nrm2 (rsub xl (bp_x s)) < vmax (bp_f_past s) \/ xl = bp_x s \/ j = 10%nat \/ go_gamma opt < 0).
  Proof.
    intros [Lx [Er [Eg [Ht [Hal [Hf Hm]]]]]] B. unfold gbp_body in B. cbv zeta in B.
    pose proof (@LAx n m A T AD _ Lx) as LAx1. assert (Lg : length (bp_g s) = n) by (rewrite Eg, Er; assert (length (T (rsub b (A (bp_x s)))) = n) by (apply AD; vl); vl).
    destruct (curvy_line_search _ _ _ _ _ _ _ _ _) as [l| |] eqn:W; try discriminate.
    destruct (@search_result n L1n P HP A b (bp_x s) (bp_g s) (bp_alpha_next s) (vmax (bp_f_past s)) (bp_tau s) (go_gamma opt) Lx Lg ltac:(lra) Ht l W)
      as [Q1 [Q2 [Q3 [Q4 [Q5 [Q6 [Q7 [Q10 [Q8 [Q9 [Q11 Q12]]]]]]]]]]].
    rewrite Q3, Q4 in B. unfold gbpic_metrics in B. cbv zeta in B. cbn [mt_r_norm mt_g_dnorm mt_r_gap mt_res mt_f] in B. rewrite Hopp in B.
    set (xl := cl_x l) in *. set (r := rsub b (A xl)) in *.
    match type of B with context[if ?c then newton_tau _ _ _ _ else _] => set (ch := c) in * end.
    destruct (if ch then newton_tau (bp_tau s) (nrm r) sigma (Lin (T r)) else Some (bp_tau s)) as [t|] eqn:N; [|discriminate].
    assert (Ht' : 0 <= t /\ (ch = false -> t = bp_tau s) /\ (ch = true -> bp_tau_changed s = false /\ Lin (T r) <> 0 /\ t = Rmax 0 (bp_tau s + nrm r * (nrm r - sigma) / Lin (T r)))).
    { destruct ch eqn:Ech.
      - apply newton_some in N as [N1 N2]. split; [rewrite N2; apply Rmax_l|]. split; [discriminate|]. intros _. split; auto.
        unfold ch in Ech. apply andb_prop in Ech as [_ Ech]. now apply negb_true_iff in Ech.
      - injection N as <-. repeat split; auto; discriminate. }
    destruct Ht' as [Tn [T1 T2]].
    assert (DEC : L1n (bp_x s) <= bp_tau s -> misfit A b xl + go_gamma opt * nrm2 (rsub xl (bp_x s)) < vmax (bp_f_past s) \/ xl = bp_x s \/ cl_iters l = 10%nat \/ go_gamma opt < 0).
    { intros Hx. specialize (Q9 Hx). destruct (Q11 Hx) as [Q|[Q|Q]]; auto. rewrite Q4, Q10 in Q. destruct (Rlt_dec (go_gamma opt) 0); [auto|]. left.
      pose proof (Rmult_le_compat_l (go_gamma opt) _ _ ltac:(lra) Q9). fold xl in Q. lra. }
    assert (PUSH : forall v, cbuf_push_left (bp_f_past s) v <> [] -> (cbuf_push_left (bp_f_past s) v)@0 = v).
    { intros v. destruct (bp_f_past s); [now intros []|reflexivity]. }
    destruct (Rltb_spec t (bp_tau s)) as [R1|R1].
    - unfold gupdate_xrgf in B. cbv zeta in B. destruct (HP Tn xl Q1) as [Lp [Cp _]]. set (p := P xl t) in *.
      injection B as <-. unfold bp_ok, gfigures_of. cbv zeta.
      cbn [bp_x bp_r bp_g bp_tau bp_tau_changed bp_alpha_next bp_f_past bp_r_norm bp_r_gap bp_r_res_error bp_r_f_error bp_iterations bp_n_times bp_n_trans bp_n_newton bp_ls_iters bp_alpha].
      rewrite obj_val_eq. change (/ 2 * nrm2 (rsub b (A p))) with (misfit A b p). rewrite cbuf_len.
      split; [repeat split; auto; apply bb_step_range; auto|]. repeat (split; [auto; fail|]). exists xl. repeat (split; [auto; fail|]).
      repeat (split; [solve [auto | intros; exfalso; lra | repeat split; auto | destruct ch; lia]|]).
      exists (cl_iters l), 1%nat. assert (Ech : ch = true) by (destruct ch; [auto|]; rewrite T1 in R1 by auto; lra). rewrite Ech.
      repeat (split; [solve [auto | lia]|]). auto.
    - injection B as <-. unfold bp_ok, gfigures_of. cbv zeta.
      cbn [bp_x bp_r bp_g bp_tau bp_tau_changed bp_alpha_next bp_f_past bp_r_norm bp_r_gap bp_r_res_error bp_r_f_error bp_iterations bp_n_times bp_n_trans bp_n_newton bp_ls_iters bp_alpha].
      rewrite cbuf_len. split; [repeat split; auto; apply bb_step_range; auto|]. split; [lra|]. repeat (split; [auto; fail|]). exists xl. repeat (split; [auto; fail|]).
      repeat (split; [solve [auto | intros; exfalso; lra | repeat split; auto | destruct ch; lia]|]).
      exists (cl_iters l), 0%nat. repeat (split; [solve [auto | destruct ch; lia]|]). auto.
  Qed.

  Variable s0 : bp_state.
  Hypothesis HI : init = Some s0.
  Notation Rch := (reaches cond body s0).
  Lemma bp_reach k s : Rch k s ->
    bp_ok s /\ bp_iterations s = S k /\ ((1 <= k)%nat \/ L1n x0 <= bp_tau s0 -> L1n (bp_x s) <= bp_tau s) /\
    bp_n_times s = (bp_n_trans s + bp_ls_iters s)%nat /\ (S (bp_iterations s) <= bp_n_trans s <= bp_iterations s + bp_n_newton s)%nat /\
    (2 * bp_n_newton s <= bp_iterations s + if bp_tau_changed s then 1 else 0)%nat.
  Proof.
    intros H. induction H as [|k s s' H IH C B].
    - destruct (bp_init_ok HI) as [I [Ex [F [Ei [Ec [Et [En [Ew [El _]]]]]]]]]. rewrite Ei, Et, En, Ew, El, Ec, Ex.
      split; [auto|]. split; [auto|]. split; [intros [K|K]; [lia|auto]|]. lia.
    - destruct IH as [I [Ei [_ [Et [En Ew]]]]].
      destruct (bp_step I B) as [I' [Hx' [Ei' [xl [_ [_ [_ [_ [_ [_ [Hc [En' [j [e [_ [He [_ [El [Et' [Er' _]]]]]]]]]]]]]]]]]]]].
      split; auto. split; [lia|]. split; [auto|]. split; [lia|]. rewrite Ei', En', Er'. destruct (bp_tau_changed s') eqn:Q.
      + destruct (Hc eq_refl) as [Q' _]. rewrite Q' in Ew. lia.
      + destruct (bp_tau_changed s); lia.
  Qed.
  Lemma bp_limits k s : Rch k s -> (bp_iterations s <= Nat.max 1 (go_max_iters opt))%nat /\ (bp_n_times s + bp_n_trans s <= Nat.max 4 (go_max_matvec opt + 13))%nat.
  Proof.
    intros H. destruct H as [|k s s' H C B].
    - destruct (bp_init_ok HI) as [_ [_ [_ [Ei [_ [Et [En _]]]]]]]. lia.
    - destruct (bp_reach H) as [I _].
      destruct (bp_step I B) as [_ [_ [Ei' [xl [_ [_ [_ [_ [_ [_ [_ [_ [j [e [Hj [He [_ [_ [Et' [Er' _]]]]]]]]]]]]]]]]]]]].
      unfold bp_cond in C. apply andb_prop in C as [C C2]. apply andb_prop in C as [_ C]. apply Nat.ltb_lt in C, C2.
      destruct (bp_tau_changed s'); lia.
  Qed.
  (** figures of every state *)
  Lemma bp_figures k s : Rch k s -> exists xl t, length xl = n /\ (L1n xl <= t) /\ figures s xl t.
  Proof.
    intros H. destruct H as [|k s s' H C B].
    - destruct (bp_init_ok HI) as [_ [_ [F _]]]. exists x0, (L1n x0). repeat split; auto; try lra; apply F.
    - destruct (bp_reach H) as [I _]. destruct (bp_step I B) as [_ [_ [_ [xl [L [Hn [F _]]]]]]]. exists xl, (bp_tau s). auto.
  Qed.
  Lemma bp_body_none s : bp_ok s -> body s = None -> exists xl, length xl = n /\ Lin (T (rsub b (A xl))) = 0.
  Proof.
    intros [Lx [Er [Eg [Ht [Hal [Hf Hm]]]]]] B. unfold gbp_body in B. cbv zeta in B.
    pose proof (@LAx n m A T AD _ Lx) as LAx1. assert (Lg : length (bp_g s) = n) by (rewrite Eg, Er; assert (length (T (rsub b (A (bp_x s)))) = n) by (apply AD; vl); vl).
    destruct (@search_total n P A b (bp_x s) (bp_g s) (bp_alpha_next s) (vmax (bp_f_past s)) (bp_tau s) (go_gamma opt) Lx Lg) as [l E].
    destruct (@search_result n L1n P HP A b (bp_x s) (bp_g s) (bp_alpha_next s) (vmax (bp_f_past s)) (bp_tau s) (go_gamma opt) Lx Lg ltac:(lra) Ht l E)
      as [Q1 [Q2 [Q3 _]]].
    rewrite E, Q3 in B. unfold gbpic_metrics in B. cbv zeta in B. cbn [mt_r_norm mt_g_dnorm] in B. exists (cl_x l). split; auto.
    match type of B with context[if ?c then newton_tau _ _ _ _ else _] => set (ch := c) in * end. destruct ch.
    - destruct (newton_tau _ _ _ _) as [t|] eqn:N; [|apply newton_none in N; now rewrite Hopp in N].
      destruct (Rltb t (bp_tau s)); [unfold gupdate_xrgf in B; cbv zeta in B|]; discriminate.
    - destruct (Rltb (bp_tau s) (bp_tau s)); [unfold gupdate_xrgf in B; cbv zeta in B|]; discriminate.
  Qed.
End BPIC.

Section BPEnds.
  Variables (m : nat) (A T : vec -> vec) (b : vec) (sigma : R) (opt : spgl1_options) (x0 : vec).
  Hypothesis AD : adjoint_ops n m A T.
  Hypothesis Lb : length b = m.
  Hypothesis Lx0 : length x0 = n.
  Hypothesis Hamin : 0 < go_alpha_min opt.
  Hypothesis Hamax : go_alpha_min opt <= go_alpha_max opt.
  Lemma bp_ends fuel : (go_max_iters opt <= fuel)%nat ->
    (exists s, gsolve_bpic_from A T b sigma opt x0 fuel = Done s) \/
    (gsolve_bpic_from A T b sigma opt x0 fuel = Fail /\ exists x, length x = n /\ Lin (T (rsub b (A x))) = 0).
  Proof.
    intros Hf. unfold gsolve_bpic_from. destruct (gbp_init A T b sigma opt x0) as [s0|] eqn:I0.
    - destruct (while_ _ _ _ _) as [s| |] eqn:W; [left; eauto| |].
      + right. split; auto. destruct (while_fail fuel (reach_0 _ _ _) W) as [j [s' [H [C B]]]].
        eapply bp_body_none; eauto. eapply bp_reach; eauto.
      + exfalso. destruct (while_fuel fuel (reach_0 _ _ _) W) as [s' [H C]].
        destruct (@bp_reach m A T b sigma opt x0 AD Lb Lx0 Hamin Hamax s0 I0 _ _ H) as [_ [E _]]. unfold bp_cond in C.
        apply andb_prop in C as [C _]. apply andb_prop in C as [_ C]. apply Nat.ltb_lt in C. lia.
    - right. split; auto. exists x0. split; auto. unfold gbp_init, gupdate_xrgf in I0. cbv zeta in I0. rewrite Hself in I0 by auto.
      unfold gbpic_metrics in I0. cbv zeta in I0. cbn [mt_r_norm mt_g_dnorm mt_r_gap mt_res mt_f] in I0. destruct (newton_tau _ _ _ _) eqn:N; [discriminate|].
      apply newton_none in N. now rewrite Hopp in N.
  Qed.
  Lemma bp_done fuel s : gsolve_bpic_from A T b sigma opt x0 fuel = Done s ->
    exists s0 k, gbp_init A T b sigma opt x0 = Some s0 /\ reaches (bp_cond b sigma opt) (gbp_body A T b sigma opt) s0 k s /\ bp_cond b sigma opt s = false.
  Proof.
    unfold gsolve_bpic_from. destruct (gbp_init A T b sigma opt x0) as [s0|] eqn:I0; [|discriminate].
    intros W. apply while_done in W as [k [_ [W C]]]. eauto.
  Qed.
  Lemma bp_stop fuel s : gsolve_bpic_from A T b sigma opt x0 fuel = Done s ->
    (bp_iterations s < go_max_iters opt)%nat -> (bp_n_times s + bp_n_trans s < go_max_matvec opt)%nat ->
    exists xl t, length xl = n /\ L1n xl <= t /\ gfigures_of A T b sigma s xl t /\
      (nrm (rsub b (A xl)) <= sigma \/ nrm (rsub b (A xl)) <= sigma + go_opt_tol opt * Rmax 1 (nrm (rsub b (A xl))) \/
       nrm (rsub b (A xl)) <= go_bp_tol opt * nrm b) /\
      (bp_r_gap s <= Rmax (go_opt_tol opt) (bp_r_f_error s) \/
       Rabs (nrm (rsub b (A xl)) - sigma) <= go_opt_tol opt * Rmax 1 (nrm (rsub b (A xl)))).
  Proof.
    intros H Hi Hm. destruct (bp_done _ H) as [s0 [k [I0 [HR C]]]].
    destruct (@bp_figures m A T b sigma opt x0 AD Lb Lx0 Hamin Hamax s0 I0 _ _ HR) as [xl [t [L [Hn F]]]]. exists xl, t. repeat (split; [auto; fail|]).
    destruct F as [F1 [F2 [F3 F4]]]. cbv zeta in *. unfold bp_cond in C.
    apply andb_false_iff in C as [C|C]; [|apply Nat.ltb_ge in C; lia]. apply andb_false_iff in C as [C|C]; [|apply Nat.ltb_ge in C; lia].
    apply orb_false_iff in C as [C1 C2].
    assert (RES : bp_r_res_error s <= go_opt_tol opt -> Rabs (nrm (rsub b (A xl)) - sigma) <= go_opt_tol opt * Rmax 1 (nrm (rsub b (A xl)))).
    { intros Q. rewrite F3 in Q. apply ratio_le; auto. pose proof (Rmax_l 1 (nrm (rsub b (A xl)))). lra. }
    split.
    - apply andb_false_iff in C2 as [C2|C2]; [apply andb_false_iff in C2 as [C2|C2]|].
      + apply Rltb_false in C2. rewrite F1 in C2. auto.
      + apply Rltb_false in C2. specialize (RES C2). pose proof (Rle_abs (nrm (rsub b (A xl)) - sigma)). right; left. lra.
      + apply Rltb_false in C2. rewrite F1 in C2. auto.
    - apply andb_false_iff in C1 as [C1|C1]; apply Rltb_false in C1; auto.
  Qed.
End BPEnds.
  Lemma figures_bound m A T b sigma s xl t z : adjoint_ops n m A T -> length b = m -> gap_ok n L1n Lin gapf A T b t -> length xl = n -> L1n xl <= t -> gfigures_of A T b sigma s xl t -> gfits A b sigma z ->
    t * Lin (T (rsub b (A xl))) <= L1n z * Lin (T (rsub b (A xl))) + bp_r_gap s * Rmax 1 (misfit A b xl) + bp_r_norm s * (sigma - bp_r_norm s).
  Proof.
    intros AD Lb G L Hn [F1 [F2 _]] Fz. cbv zeta in *. destruct (G xl L Hn) as [G1 _]. cbv zeta in G1. rewrite Hopp in G1. rewrite F1, F2. pose proof (@newton_core m A T b sigma xl z AD Lb L Fz) as N.
    pose proof (Rmax_l 1 (misfit A b xl)). unfold Rdiv. rewrite Rmult_assoc, Rinv_l, Rmult_1_r by lra. lra.
  Qed.
  Lemma first_radius m A T b sigma opt s0 z : adjoint_ops n m A T -> length b = m -> go_alpha_min opt <= go_alpha_max opt ->
    gbp_init A T b sigma opt (rzero n) = Some s0 -> gfits A b sigma z -> bp_tau s0 <= L1n z.
  Proof.
    intros AD Lb Ha E Fz. assert (L0 : length (rzero n) = n) by vl.
    destruct (@bp_init_ok A T b sigma opt (rzero n) L0 Ha s0 E) as [_ [_ [_ [_ [_ [_ [_ [_ [_ [Eg Et]]]]]]]]]].
    rewrite HZ in *. rewrite Et. apply Rmax_lub; [apply HN1|]. rewrite Rplus_0_l.
    assert (Er : rsub b (A (rzero n)) = b) by (rewrite (linear_zero (proj1 AD)); veq).
    pose proof (@newton_core m A T b sigma (rzero n) z AD Lb L0 Fz) as N. rewrite Er in *. replace (rsub b b) with (rzero m) in N by veq. rewrite rdot_zero_r in N.
    pose proof (HNi (T b)). apply Rmult_le_reg_r with (Lin (T b)); [lra|]. unfold Rdiv. rewrite Rmult_assoc, Rinv_l by auto. lra.
  Qed.
End Gen.
