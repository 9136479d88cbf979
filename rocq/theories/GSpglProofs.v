(** The l1-constrained solver of SPGL1 with the l1 norm replaced by any norm N1 with dual norm Ni and
    projection P, on real vectors: used for the complex solver, whose vectors are real vectors of twice
    the length. *)
From Coq Require Import ZArith List Arith Bool Lia Reals Lra Psatz.
From Verif Require Import Vec RVec RMat Loop LoopLemmas SolverSpec SolverLemmas OptSpec OptModel OptProofs OptProofs2 SelModel SelProofs SpgModel FomProofs2 SpglModel SpglSpec SpglProofs SpglProofs2 SpgConv L1RecSpec L1RecProofs EigenProofs SeqSpec SeqProofs SpglProofs4 ConvProofs2 ConvProofs3 SpglConv.
Import ListNotations.
Set Implicit Arguments.
Local Open Scope R_scope.

Section Gen.
  Variables (n : nat) (N1 Ni : vec -> R) (P : vec -> R -> vec) (gapf : vec -> vec -> R -> R).
  Hypothesis HP : forall q, 0 <= q -> vi n (fun y => N1 y <= q) (fun x => P x q).
  Hypothesis HN1 : forall x, 0 <= N1 x.
  Hypothesis HNi : forall x, 0 <= Ni x.
  Hypothesis Hholder : forall x y, length x = n -> length y = n -> Rabs (rdot x y) <= Ni x * N1 y.
  Hypothesis Hnrm1 : forall x, length x = n -> nrm x <= N1 x.
  Hypothesis HnrmI : forall x, length x = n -> Ni x <= nrm x.
  Hypothesis Hdual : forall tau g, 0 <= tau -> length g = n -> exists z, length z = n /\ N1 z <= tau /\ rdot g z = - (tau * Ni g).
  Hypothesis Hclosed : forall q, closed n (fun y => N1 y <= q).
  Hypothesis HZ : N1 (rzero n) = 0.
  Definition glasso_solution (A : vec -> vec) (b : vec) (tau : R) (x : vec) : Prop :=
    length x = n /\ N1 x <= tau /\ forall z, length z = n -> N1 z <= tau -> misfit A b x <= misfit A b z.
  Definition glasso_metrics (b g r : vec) (f tau : R) : R * R := (nrm r, gapf r b (tau * Ni g) / Rmax 1 f).
  (** what the reported gap is worth *)
  Definition gap_ok (A T : vec -> vec) (b : vec) (tau : R) : Prop := forall x, length x = n -> N1 x <= tau ->
    let r := rsub b (A x) in let g := ropp (T r) in let d := rdot r (rsub r b) + tau * Ni g in
    d <= gapf r b (tau * Ni g) /\ 0 <= gapf r b (tau * Ni g) /\ gapf r b (tau * Ni g) * gapf r b (tau * Ni g) <= 2 * (tau * Ni g) * d.
  Section Model.
  Variables (times trans : vec -> vec) (b : vec) (tau : R) (opt : spgl1_options).
  Definition glasso_init (x0 : vec) : lasso_state :=
    let x := P x0 tau in
    let r := rsub b (times x) in
    let g := ropp (trans r) in
    let f := obj_val r in
    let f_past := repeat f (go_memory opt) in
    let d := rsub (P (rsub x g) tau) x in
    let d_norm := Ni d in
    let alpha := first_step (go_alpha_min opt) (go_alpha_max opt) d_norm in
    let '(r_norm, r_gap) := glasso_metrics b g r f tau in
    LassoState x g r f_past r_norm r_gap alpha alpha 1 1 1 0.
  Definition glasso_body (st : lasso_state) : option lasso_state :=
    let f_max := vmax (la_f_past st) in
    match curvy_line_search times b (la_x st) (la_g st) (la_alpha_next st) f_max P tau (go_gamma opt) with
    | Done l =>
      let n_times := (la_n_times st + cl_iters l + 1)%nat in
      let x := cl_x l in
      let r := cl_r l in
      let g := ropp (trans r) in
      let f := cl_f l in
      let f_past := cbuf_push_left (la_f_past st) f in
      let '(r_norm, r_gap) := glasso_metrics b g r f tau in
      let alpha_next := bb_step (go_alpha_min opt) (go_alpha_max opt) (rsub x (la_x st)) (rsub g (la_g st)) in
      Some (LassoState x g r f_past r_norm r_gap (cl_alpha l) alpha_next (S (la_iterations st))
              n_times n_times (la_ls_iters st + cl_iters l))
    | _ => None
    end.
  Definition gsolve_lasso_from (x0 : vec) (fuel : nat) : outcome lasso_state :=
    while_ (lasso_cond b opt) glasso_body fuel (glasso_init x0).
  End Model.
Section Search.
  Variables (m : nat) (A : vec -> vec) (b x g : vec) (al fmax tau gamma : R).
  Hypothesis LA : linear_op n m A.
  Hypothesis Lx : length x = n.
  Hypothesis Lg : length g = n.
  Hypothesis Hal : 0 < al.
  Hypothesis Ht : 0 <= tau.
  Notation cand := (cls_candidate A b x g al fmax P tau gamma).
  Notation cond := cls_cond.
  Notation next := (cls_next A b x g al fmax P tau gamma).
  Notation init := (cls_init A b x g al fmax P tau gamma).
  Notation Rch := (reaches cond next init).

  (** the step direction is a descent direction *)
  Lemma cand_descent a s dn it sf : 0 < a -> 0 < s -> let c := cand a s dn it sf in
    length (cl_x c) = n /\ N1 (cl_x c) <= tau /\ cl_r c = rsub b (A (cl_x c)) /\ cl_f c = misfit A b (cl_x c) /\
    cl_d c = rsub (cl_x c) x /\ (N1 x <= tau -> nrm2 (rsub (cl_x c) x) <= - (a * cl_gtd c)) /\
    cl_lim c = fmax + gamma * cl_alpha c * cl_gtd c /\
    (forall z, length z = n -> N1 z <= tau -> nrm2 (rsub (cl_x c) x) = 0 -> 0 <= rdot g (rsub z x)).
  Proof.
    intros Ha Hs. cbv zeta. unfold cls_candidate. cbv zeta. cbn [cl_x cl_r cl_f cl_d cl_gtd cl_lim cl_alpha].
    set (v := rsub x (rscale (a * s) (cls_g g al))). assert (Lc : length (cls_g g al) = n) by (unfold cls_g; vl).
    assert (Lv : length v = n) by (unfold v; vl).
    destruct (@HP tau Ht v Lv) as [Lp [Cp V]]. set (p := P v tau) in *.
    assert (Ev : forall z, length z = n -> rdot (rsub v p) (rsub z p) = rdot (rsub x p) (rsub z p) - a * s * al * rdot g (rsub z p)).
    { intros z Lz. replace (rsub v p) with (rsub (rsub x p) (rscale (a * s * al) g)).
      - rewrite rdot_sub_l by vl. rewrite rdot_scale_l. reflexivity.
      - unfold v, cls_g. veq. }
    repeat split; auto.
    - rewrite obj_val_eq. reflexivity.
    - intros Hx. specialize (V x Lx Hx). rewrite Ev in V by auto. unfold cls_g. rewrite rdot_scale_l.
      replace (nrm2 (rsub p x)) with (rdot (rsub x p) (rsub x p)) by (apply (@nrm2_sub_sym x p); vl).
      replace (rdot g (rsub p x)) with (- rdot g (rsub x p)) by (rewrite !rdot_sub_r by vl; ring). lra.
    - intros z Lz Cz H0. assert (Epx : p = x) by (apply rdot_sub_eq0; [vl|exact H0]).
      specialize (V z Lz Cz). rewrite Ev in V by auto. rewrite Epx in V.
      replace (rdot (rsub x x) (rsub z x)) with 0 in V by (rewrite rdot_sub_l by vl; ring).
      apply Rmult_le_reg_l with (a * s * al); [repeat apply Rmult_lt_0_compat; auto|]. lra.
  Qed.
  Lemma search_inv k s : Rch k s -> exists a sc dn sf, 0 < a <= 1 /\ 0 < sc /\ a = / 2 ^ k /\ s = cand a sc dn k sf.
  Proof.
    intros H. induction H as [|k s s' H IH C B].
    - exists 1, 1, 0, 0%nat. repeat split; try lra. 
    - destruct IH as [a [sc [dn [sf [Ha [Hs [Ek E]]]]]]]. unfold cls_next in B. cbv zeta in B. injection B as <-.
      unfold cls_cond in C. apply andb_prop in C as [C1 C2]. apply andb_prop in C1 as [C1 C3]. apply Rltb_true in C3.
      assert (Pd : 0 < nrm (cl_d s) / cls_n2 x / cls_g_norm x g al / 2 ^ cl_safe s).
      { rewrite E in C3. unfold cls_candidate in C3. cbv zeta in C3. cbn [cl_gtd] in C3.
        assert (G : rdot (cls_g g al) (cl_d s) < 0).
        { rewrite E. unfold cls_candidate. cbv zeta. cbn [cl_d]. nra. }
        destruct (rdot_nonzero_l _ _ G) as [G1 G2].
        assert (N : 0 < cls_n2 x).
        { unfold cls_n2. apply sqrt_lt_R0. apply lt_0_INR. destruct x; [|cbn; lia]. exfalso. cbn in Lx.
          unfold cls_g in G. destruct g; [|cbn in Lg; lia]. cbn in G. unfold rdot in G. cbn in G. lra. }
        unfold cls_g_norm, Rdiv. repeat apply Rmult_lt_0_compat; auto; apply Rinv_0_lt_compat; auto.
        - apply Rmult_lt_0_compat; auto. now apply Rinv_0_lt_compat.
        - apply pow_lt. lra. }
      replace (cl_alpha s) with a by now rewrite E. replace (cl_iters s) with k by now rewrite E.
      match goal with |- context[if ?c then _ else cl_scale s] => destruct c end.
      + exists (a / 2), (nrm (cl_d s) / cls_n2 x / cls_g_norm x g al / 2 ^ cl_safe s), (nrm (cl_d s) / cls_n2 x), (S (cl_safe s)).
        assert (a / 2 = / 2 ^ S k) by (rewrite Ek; cbn [pow]; field; apply pow_nonzero; lra).
        repeat split; auto; lra.
      + exists (a / 2), (cl_scale s), (nrm (cl_d s) / cls_n2 x), (cl_safe s).
        assert (a / 2 = / 2 ^ S k) by (rewrite Ek; cbn [pow]; field; apply pow_nonzero; lra).
        assert (0 < cl_scale s) by (rewrite E; cbn; lra). repeat split; auto; lra.
  Qed.
  Lemma search_total : exists l, curvy_line_search A b x g al fmax P tau gamma = Done l.
  Proof.
    apply while_total.
    - intros k s H C. unfold cls_next. cbv zeta. discriminate.
    - intros k s H C. destruct (search_inv H) as [a [sc [dn [sf [_ [_ [_ E]]]]]]]. unfold cls_cond in C.
      apply andb_prop in C as [C1 _]. apply andb_prop in C1 as [C1 _]. apply Nat.ltb_lt in C1. rewrite E in C1. exact C1.
  Qed.
  Lemma search_result l : curvy_line_search A b x g al fmax P tau gamma = Done l ->
    length (cl_x l) = n /\ N1 (cl_x l) <= tau /\ cl_r l = rsub b (A (cl_x l)) /\ cl_f l = misfit A b (cl_x l) /\
    0 < cl_alpha l <= 1 /\ cl_alpha l = / 2 ^ cl_iters l /\ (cl_iters l <= 10)%nat /\
    cl_lim l = fmax + gamma * cl_alpha l * cl_gtd l /\
    (N1 x <= tau -> cl_gtd l <= 0) /\
    (N1 x <= tau -> nrm2 (rsub (cl_x l) x) <= - (cl_alpha l * cl_gtd l)) /\
    (N1 x <= tau -> cl_f l < cl_lim l \/ cl_x l = x \/ cl_iters l = 10%nat) /\
    (cl_x l = x -> forall z, length z = n -> N1 z <= tau -> 0 <= rdot g (rsub z x)).
  Proof.
    intros H. apply while_done in H as [k [Hk [H C]]]. destruct (search_inv H) as [a [sc [dn [sf [Ha [Hs [Ek E]]]]]]].
    destruct (@cand_descent a sc dn k sf ltac:(lra) Hs) as [D1 [D2 [D3 [D4 [D5 [D6 [D7 D8]]]]]]]. rewrite <- E in *.
    assert (Ea : cl_alpha l = a) by now rewrite E. assert (Ei : cl_iters l = k) by now rewrite E.
    rewrite Ea, Ei in *. assert (G : N1 x <= tau -> cl_gtd l <= 0).
    { intros Hx. specialize (D6 Hx). pose proof (rdot_pos (rsub (cl_x l) x)). unfold nrm2 in D6. apply Rnot_lt_le. intros G.
      assert (0 < a * cl_gtd l) by (apply Rmult_lt_0_compat; lra). lra. }
    repeat (split; [auto; try lra; try lia; fail|]). split.
    - intros Hx. specialize (D6 Hx). specialize (G Hx). unfold cls_cond in C. apply andb_false_iff in C as [C|C].
      + apply andb_false_iff in C as [C|C].
        * apply Nat.ltb_ge in C. right; right. lia.
        * apply Rltb_false in C. right; left. assert (cl_gtd l = 0) by lra. rewrite H0 in D6. apply rdot_sub_eq0; [vl|].
          pose proof (rdot_pos (rsub (cl_x l) x)). unfold nrm2 in D6. lra.
      + left. destruct (Rleb_spec (cl_lim l) (cl_f l)); [discriminate|lra].
    - intros Ex z Lz Cz. apply D8; auto. rewrite Ex. unfold nrm2. rewrite rdot_sub_l by vl. ring.
  Qed.
End Search.

(** weak duality *)
Section Duality.
  Variables (m : nat) (A T : vec -> vec) (b x : vec) (tau : R).
  Hypothesis AD : adjoint_ops n m A T.
  Hypothesis Lb : length b = m.
  Hypothesis Lx : length x = n.
  Notation r := (rsub b (A x)).
  Notation g := (ropp (T r)).
  Lemma LAx z : length z = n -> length (A z) = m. Proof. apply AD. Qed.
  Lemma gap_eq : rdot r (rsub r b) = rdot g x.
  Proof.
    pose proof (LAx _ Lx) as L. destruct AD as [_ [HT Hadj]]. replace (rsub r b) with (ropp (A x)) by veq.
    rewrite rdot_opp_r, rdot_opp_l, (rdot_sym r), Hadj by vl. f_equal. apply rdot_sym.
  Qed.
  Lemma gap_nonneg : N1 x <= tau -> 0 <= rdot r (rsub r b) + tau * Ni g.
  Proof.
    intros Ht. rewrite gap_eq. assert (LT : length (T r) = n) by (pose proof (LAx _ Lx); apply AD; vl). pose proof (@Hholder g x ltac:(vl) Lx) as H. pose proof (HNi g).
    pose proof (Rle_abs (- rdot g x)) as H1. rewrite Rabs_Ropp in H1.
    pose proof (Rmult_le_compat_l (Ni g) (N1 x) tau ltac:(lra) Ht). lra.
  Qed.
  Lemma misfit_expand z : length z = n -> misfit A b z = misfit A b x + rdot g (rsub z x) + / 2 * nrm2 (A (rsub z x)).
  Proof.
    intros Lz. pose proof (LAx _ Lx) as L1. pose proof (LAx _ Lz) as L2. destruct AD as [HA [HT Hadj]].
    assert (E : A (rsub z x) = rsub (A z) (A x)) by (apply linear_sub with (n := n) (m := m); auto).
    assert (L3 : length (T r) = n) by (apply HT; vl).
    rewrite rdot_opp_l, (rdot_sym (T r)), <- Hadj by vl. rewrite E. unfold misfit, nrm2.
    replace (rsub b (A z)) with (rsub r (rsub (A z) (A x))) by veq.
    set (u := rsub (A z) (A x)) in *. assert (Lu : length u = m) by (unfold u; vl).
    assert (Lr : length r = m) by vl. generalize dependent r. intros w _ Lw.
    rewrite (rdot_sub_l w u) by vl. rewrite !rdot_sub_r by vl.
    rewrite (rdot_sym u w). lra.
  Qed.
  Lemma lasso_gap z : length z = n -> N1 z <= tau ->
    misfit A b x - misfit A b z <= rdot r (rsub r b) + tau * Ni g.
  Proof.
    intros Lz Hz. rewrite gap_eq, (misfit_expand z Lz). pose proof (rdot_pos (A (rsub z x))). unfold nrm2.
    assert (LT : length (T r) = n) by (pose proof (LAx _ Lx); apply AD; vl).
    rewrite rdot_sub_r by vl. pose proof (@Hholder g z ltac:(vl) Lz) as H1. pose proof (Rle_abs (- rdot g z)) as H2. rewrite Rabs_Ropp in H2.
    pose proof (HNi g). pose proof (Rmult_le_compat_l (Ni g) (N1 z) tau ltac:(lra) Hz). lra.
  Qed.
  Lemma stationary : (forall z, length z = n -> N1 z <= tau -> 0 <= rdot g (rsub z x)) -> N1 x <= tau -> glasso_solution A b tau x.
  Proof.
    intros H Hx. repeat split; auto. intros z Lz Hz. rewrite (misfit_expand z Lz). specialize (H z Lz Hz).
    pose proof (rdot_pos (A (rsub z x))). unfold nrm2. lra.
  Qed.
End Duality.
Section Lasso.
  Variables (m : nat) (A T : vec -> vec) (b : vec) (tau : R) (opt : spgl1_options) (x0 : vec).
  Hypothesis AD : adjoint_ops n m A T.
  Hypothesis Lb : length b = m.
  Hypothesis Lx0 : length x0 = n.
  Hypothesis Ht : 0 <= tau.
  Hypothesis Hamin : 0 < go_alpha_min opt.
  Hypothesis Hamax : go_alpha_min opt <= go_alpha_max opt.
  Hypothesis HGap : gap_ok A T b tau.
  Notation cond := (lasso_cond b opt).
  Notation body := (glasso_body A T b tau opt).
  Notation init := (glasso_init A T b tau opt x0).
  Notation Rch := (reaches cond body init).
  Notation Tr := (traj cond body init).

  Definition lasso_ok (s : lasso_state) : Prop :=
    length (la_x s) = n /\ N1 (la_x s) <= tau /\ la_r s = rsub b (A (la_x s)) /\ la_g s = ropp (T (la_r s)) /\
    la_r_norm s = nrm (rsub b (A (la_x s))) /\
    la_r_gap s = gapf (la_r s) b (tau * Ni (la_g s)) / Rmax 1 (misfit A b (la_x s)) /\
    go_alpha_min opt <= la_alpha_next s <= go_alpha_max opt /\
    la_n_times s = (la_iterations s + la_ls_iters s)%nat.
  Lemma metrics_ok x f : length x = n -> N1 x <= tau -> f = misfit A b x ->
    let r := rsub b (A x) in let g := ropp (T r) in
    glasso_metrics b g r f tau = (nrm r, gapf r b (tau * Ni g) / Rmax 1 (misfit A b x)).
  Proof.
    intros Lx Hx Ef. cbv zeta. unfold glasso_metrics. cbv zeta. rewrite Ef.
    reflexivity.
  Qed.
  Lemma lasso_init_ok : lasso_ok init /\ la_iterations init = 1%nat /\ la_n_trans init = 1%nat /\ la_ls_iters init = 0%nat /\
    la_f_past init = repeat (misfit A b (la_x init)) (go_memory opt).
  Proof.
    destruct (@HP tau Ht x0 Lx0) as [L [C _]]. unfold glasso_init. cbv zeta.
    set (x := P x0 tau) in *. rewrite (@metrics_ok x _ L C) by (now rewrite obj_val_eq).
    unfold lasso_ok. cbn [la_x la_r la_g la_r_norm la_r_gap la_alpha_next la_n_times la_iterations la_n_trans la_ls_iters la_f_past].
    rewrite obj_val_eq. repeat split; auto; apply first_step_range; auto.
  Qed.
  Lemma lasso_step s s' : lasso_ok s -> body s = Some s' ->
    lasso_ok s' /\ la_iterations s' = S (la_iterations s) /\ la_n_trans s' = la_n_times s' /\
    la_f_past s' = cbuf_push_left (la_f_past s) (misfit A b (la_x s')) /\
    (exists j, (j <= 10)%nat /\ la_alpha s' = / 2 ^ j /\ la_ls_iters s' = (la_ls_iters s + j)%nat /\
      (misfit A b (la_x s') + go_gamma opt * nrm2 (rsub (la_x s') (la_x s)) < vmax (la_f_past s) \/ la_x s' = la_x s \/ j = 10%nat \/ go_gamma opt < 0)) /\
    (la_x s' = la_x s -> glasso_solution A b tau (la_x s)).
  Proof.
    intros [Lx [Hx [Er [Eg [En [Egap [Hal Ent]]]]]]] B. unfold glasso_body in B. cbv zeta in B.
    pose proof (@LAx m A T AD _ Lx) as LAx1. assert (Lg : length (la_g s) = n) by (rewrite Eg, Er; assert (length (T (rsub b (A (la_x s)))) = n) by (apply AD; vl); vl).
    destruct (curvy_line_search _ _ _ _ _ _ _ _ _) as [l| |] eqn:W; try discriminate.
    destruct (@search_result A b (la_x s) (la_g s) (la_alpha_next s) (vmax (la_f_past s)) tau (go_gamma opt) Lx Lg ltac:(lra) Ht l W)
      as [Q1 [Q2 [Q3 [Q4 [Q5 [Q6 [Q7 [Q10 [Q8 [Q9 [Q11 Q12]]]]]]]]]]]. specialize (Q8 Hx). specialize (Q9 Hx). specialize (Q11 Hx).
    rewrite Q3, Q4 in B. rewrite (@metrics_ok (cl_x l) _ Q1 Q2 eq_refl) in B. injection B as <-.
    unfold lasso_ok. cbn [la_x la_r la_g la_r_norm la_r_gap la_alpha_next la_n_times la_iterations la_n_trans la_ls_iters la_f_past la_alpha].
    split; [|split; [|split; [|split; [|split]]]]; auto.
    - repeat (split; [auto; fail|]). split; [now apply bb_step_range|]. rewrite Ent. lia.
    - exists (cl_iters l). repeat (split; [auto; fail|]). destruct Q11 as [Q|[Q|Q]]; auto. rewrite Q4, Q10 in Q.
      destruct (Rlt_dec (go_gamma opt) 0); [auto|]. left.
      pose proof (Rmult_le_compat_l (go_gamma opt) _ _ ltac:(lra) Q9). lra.
    - intros Ex. apply stationary with (m := m) (T := T); auto. rewrite <- Er, <- Eg. auto.
  Qed.
  Lemma lasso_step_total s : lasso_ok s -> body s <> None.
  Proof.
    intros [Lx [Hx [Er [Eg [En [Egap [Hal Ent]]]]]]]. unfold glasso_body. cbv zeta.
    pose proof (@LAx m A T AD _ Lx) as LAx1. assert (Lg : length (la_g s) = n) by (rewrite Eg, Er; assert (length (T (rsub b (A (la_x s)))) = n) by (apply AD; vl); vl).
    destruct (@search_total A b (la_x s) (la_g s) (la_alpha_next s) (vmax (la_f_past s)) tau (go_gamma opt) Lx Lg) as [l E].
    rewrite E. destruct (glasso_metrics _ _ _ _ _). discriminate.
  Qed.
  Lemma lasso_reach k s : Rch k s -> lasso_ok s /\ la_iterations s = S k.
  Proof.
    intros H. induction H as [|k s s' H [IH1 IH2] C B]; [destruct lasso_init_ok as [? [? _]]; auto|].
    destruct (lasso_step IH1 B) as [? [E _]]. split; auto. rewrite E, IH2. auto.
  Qed.
  Lemma lasso_memory k s : Rch k s -> la_f_past s = tab (go_memory opt) (fun i => misfit A b (la_x (Tr (k - i)))).
  Proof.
    intros H. induction H as [|k s s' H IH C B].
    - destruct lasso_init_ok as [_ [_ [_ [_ E]]]]. rewrite E, repeat_tab. apply tab_ext. reflexivity.
    - destruct (lasso_reach H) as [I _]. destruct (lasso_step I B) as [_ [_ [_ [E _]]]]. rewrite E, IH.
      assert (RS : Rch (S k) s') by (econstructor; eauto).
      destruct (Nat.eq_dec (go_memory opt) 0) as [Z|Z]; [rewrite Z; reflexivity|]. rewrite cbuf_push_tab by lia.
      apply tab_ext. intros [|i] Hi.
      + now rewrite Nat.sub_0_r, (reaches_traj RS).
      + reflexivity.
  Qed.
  Lemma lasso_bound k s : Rch k s -> (la_iterations s <= Nat.max 1 (go_max_iters opt))%nat.
  Proof.
    intros H. destruct H as [|k s s' H C B]; [destruct lasso_init_ok as [_ [E _]]; rewrite E; lia|].
    destruct (lasso_reach H) as [I _]. destruct (lasso_step I B) as [_ [E _]]. unfold lasso_cond in C.
    apply andb_prop in C as [C _]. apply andb_prop in C as [C _]. apply Nat.ltb_lt in C. lia.
  Qed.
  Lemma lasso_total fuel : (go_max_iters opt <= fuel)%nat -> exists s, gsolve_lasso_from A T b tau opt x0 fuel = Done s.
  Proof.
    intros Hf. apply while_total.
    - intros k s H _. apply lasso_step_total. now apply lasso_reach in H.
    - intros k s H C. destruct (lasso_reach H) as [_ E]. unfold lasso_cond in C.
      apply andb_prop in C as [C _]. apply andb_prop in C as [C _]. apply Nat.ltb_lt in C. lia.
  Qed.
  Lemma lasso_done fuel s : gsolve_lasso_from A T b tau opt x0 fuel = Done s ->
    lasso_ok s /\ (1 <= la_iterations s <= Nat.max 1 (go_max_iters opt))%nat /\
    ((la_iterations s < go_max_iters opt)%nat ->
      nrm (rsub b (A (la_x s))) < go_opt_tol opt * nrm b \/
      forall z, length z = n -> N1 z <= tau -> misfit A b (la_x s) - misfit A b z <= go_opt_tol opt * Rmax 1 (misfit A b (la_x s))).
  Proof.
    intros H. apply while_done in H as [k [_ [H C]]]. destruct (lasso_reach H) as [I E]. pose proof (lasso_bound H) as Hm.
    split; auto. split; [lia|]. intros Hi. destruct I as [Lx [Hx [Er [Eg [En [Egap _]]]]]].
    unfold lasso_cond in C. apply andb_false_iff in C as [C|C]; [apply andb_false_iff in C as [C|C]|].
    - apply Nat.ltb_ge in C. lia.
    - right. intros z Lz Hz. apply Rltb_false in C. rewrite Egap, Eg, Er in C.
      pose proof (@lasso_gap m A T b _ tau AD Lb Lx z Lz Hz) as G. destruct (HGap Lx Hx) as [Ga [G0 _]].
      assert (G1 := @div_max_le _ (misfit A b (la_x s)) (go_opt_tol opt) G0). rewrite Rabs_pos_eq in G1 by auto. specialize (G1 C). lra.
    - left. rewrite En in C. destruct (Rleb_spec (go_opt_tol opt * nrm b) (nrm (rsub b (A (la_x s))))); [discriminate|lra].
  Qed.
End Lasso.
Unset Strict Implicit.
(** *** the projection arc *)
Section Arc.
  Variables (tau : R) (x g : vec).
  Hypothesis Ht : 0 <= tau.
  Hypothesis Lx : length x = n.
  Hypothesis Lg : length g = n.
  Hypothesis Hx : N1 x <= tau.
  Definition arc (t : R) : vec := P (rsub x (rscale t g)) tau.
  Definition dir (t : R) : vec := rsub (arc t) x.
  Lemma arc_ok t : length (arc t) = n /\ N1 (arc t) <= tau /\ forall z, length z = n -> N1 z <= tau -> 0 <= rdot (dir t) (rsub z (arc t)) + t * rdot g (rsub z (arc t)).
  Proof.
    assert (Lv : length (rsub x (rscale t g)) = n) by vl. destruct (@HP tau Ht _ Lv) as [Lp [Cp V]]. fold (arc t) in *.
    split; auto. split; auto. intros z Lz Cz. specialize (V z Lz Cz).
    assert (E : rsub (rsub x (rscale t g)) (arc t) = ropp (radd (dir t) (rscale t g))) by (unfold dir; veq).
    assert (Ld : length (dir t) = n) by (unfold dir; vl). rewrite E, rdot_opp_l, rdot_add_l, rdot_scale_l in V by vl. lra.
  Qed.
  Lemma dir_len t : length (dir t) = n.
  Proof. destruct (arc_ok t) as [L _]. unfold dir. vl. Qed.
  Lemma dir_descent t : nrm2 (dir t) <= - (t * rdot g (dir t)).
  Proof.
    destruct (arc_ok t) as [L [_ V]]. specialize (V x Lx Hx). assert (Ld := dir_len t).
    assert (E : rsub x (arc t) = ropp (dir t)) by (unfold dir; veq). rewrite E, !rdot_opp_r in V. unfold nrm2. lra.
  Qed.
  Lemma dir_le t : 0 <= t -> nrm (dir t) <= t * nrm g.
  Proof.
    intros T0. pose proof (dir_descent t) as D. pose proof (cauchy g (dir t)) as Cs. pose proof (Rle_abs (- rdot g (dir t))) as A. rewrite Rabs_Ropp in A.
    unfold nrm2 in D. rewrite <- nrm_sq in D. pose proof (nrm_pos (dir t)) as N. pose proof (nrm_pos g).
    assert (Q : nrm (dir t) * nrm (dir t) <= (t * nrm g) * nrm (dir t)). { assert (t * - rdot g (dir t) <= t * (nrm g * nrm (dir t))) by (apply Rmult_le_compat_l; lra). lra. }
    destruct (Rle_lt_or_eq_dec 0 (nrm (dir t)) N) as [Np|Nz]; [now apply Rmult_le_reg_r in Q|]. rewrite <- Nz. now apply Rmult_le_pos.
  Qed.
  (** the length of the step grows, its ratio to the step size falls *)
  Lemma arc_mono s t : 0 < s -> s <= t -> nrm (dir s) <= nrm (dir t) /\ s * nrm (dir t) <= t * nrm (dir s).
  Proof.
    intros Hs Hst. destruct (arc_ok s) as [Ls [Cs Vs]]. destruct (arc_ok t) as [Lt [Ct Vt]]. specialize (Vs _ Lt Ct). specialize (Vt _ Ls Cs).
    pose proof (dir_len s) as Ds. pose proof (dir_len t) as Dt.
    assert (E1 : rsub (arc t) (arc s) = rsub (dir t) (dir s)) by (unfold dir; veq). assert (E2 : rsub (arc s) (arc t) = rsub (dir s) (dir t)) by (unfold dir; veq).
    rewrite E1 in Vs. rewrite E2 in Vt. rewrite !rdot_sub_r in Vs, Vt by vl. rewrite (rdot_sym (dir t) (dir s)) in Vt.
    pose proof (nrm_sq (dir s)) as Qs. pose proof (nrm_sq (dir t)) as Qt. pose proof (cauchy (dir s) (dir t)) as Cc. pose proof (Rle_abs (rdot (dir s) (dir t))) as Ca.
    set (a := nrm (dir t)) in *. set (c := nrm (dir s)) in *. pose proof (nrm_pos (dir t)) as Pa. pose proof (nrm_pos (dir s)) as Pc. fold a in Pa. fold c in Pc.
    set (w := rdot (dir s) (dir t)) in *. set (gs := rdot g (dir s)) in *. set (gt := rdot g (dir t)) in *.
    assert (K : s * (a * a) - (s + t) * w + t * (c * c) <= 0).
    { rewrite Qs, Qt. assert (A1 : 0 <= t * (w - rdot (dir s) (dir s) + s * (gt - gs))) by (apply Rmult_le_pos; lra).
      assert (A2 : 0 <= s * (w - rdot (dir t) (dir t) + t * (gs - gt))) by (apply Rmult_le_pos; lra). lra. }
    assert (W : w <= c * a) by lra. assert (K2 : (a - c) * (s * a - t * c) <= 0).
    { assert ((s + t) * w <= (s + t) * (c * a)) by (apply Rmult_le_compat_l; lra). lra. }
    assert (Q1 : c <= a). { destruct (Rle_lt_dec c a) as [|Hl]; auto. exfalso. assert (s * a - t * c < 0) by nra. assert (0 < (c - a) * (t * c - s * a)) by (apply Rmult_lt_0_compat; lra). lra. }
    split; auto. destruct (Rle_lt_or_eq_dec c a Q1) as [Hl|He]; [|rewrite He; nra].
    destruct (Rle_lt_dec (s * a) (t * c)) as [|Hl2]; auto. exfalso. assert (0 < (a - c) * (s * a - t * c)) by (apply Rmult_lt_0_compat; lra). lra.
  Qed.
  Lemma arc_gap t z : 0 < t -> length z = n -> N1 z <= tau -> rdot g (rsub x z) <= / t * nrm (dir t) * (nrm (rsub x z) + nrm (dir t)) + nrm g * nrm (dir t).
  Proof.
    intros T0 Lz Cz. destruct (arc_ok t) as [L [_ V]]. specialize (V z Lz Cz). assert (Ld := dir_len t).
    assert (E : rsub z (arc t) = ropp (radd (rsub x z) (dir t))) by (unfold dir; veq). rewrite E, !rdot_opp_r in V.
    assert (Lxz : length (rsub x z) = n) by vl. rewrite (rdot_add_r g) in V by vl.
    pose proof (cauchy (dir t) (radd (rsub x z) (dir t))) as C1. pose proof (Rle_abs (- rdot (dir t) (radd (rsub x z) (dir t)))) as A1. rewrite Rabs_Ropp in A1.
    pose proof (cauchy g (dir t)) as C2. pose proof (Rle_abs (- rdot g (dir t))) as A2. rewrite Rabs_Ropp in A2.
    pose proof (nrm_triang (rsub x z) (dir t) ltac:(vl)) as Tr. pose proof (nrm_pos (dir t)) as N.
    assert (C3 : nrm (dir t) * nrm (radd (rsub x z) (dir t)) <= nrm (dir t) * (nrm (rsub x z) + nrm (dir t))) by (now apply Rmult_le_compat_l).
    assert (Q : t * (rdot g (rsub x z) + rdot g (dir t)) <= nrm (dir t) * (nrm (rsub x z) + nrm (dir t))) by lra.
    apply Rmult_le_compat_l with (r := / t) in Q; [|left; now apply Rinv_0_lt_compat]. rewrite <- Rmult_assoc, Rinv_l, Rmult_1_l in Q by lra.
    rewrite <- Rmult_assoc in Q. lra.
  Qed.
End Arc.

Section Search2.
  Variables (m : nat) (A : vec -> vec) (b x g : vec) (al fmax tau gamma K : R).
  Hypothesis Lx : length x = n.
  Hypothesis Lg : length g = n.
  Hypothesis Hx : N1 x <= tau.
  Hypothesis Hal : 0 < al.
  Hypothesis Ht : 0 <= tau.
  Hypothesis HK : 0 < K.
  Hypothesis HKg : 2 ^ 11 * al * nrm g <= K.
  Notation cand := (cls_candidate A b x g al fmax P tau gamma).
  Notation Rch := (reaches cls_cond (cls_next A b x g al fmax P tau gamma) (cls_init A b x g al fmax P tau gamma)).
  Notation dd := (dir tau x g).
  Lemma cand_arc a sc dn it sf : cl_x (cand a sc dn it sf) = arc tau x g (a * sc * al) /\ cl_d (cand a sc dn it sf) = dd (a * sc * al) /\
    cl_alpha (cand a sc dn it sf) * cl_gtd (cand a sc dn it sf) = a * sc * al * rdot g (dd (a * sc * al)).
  Proof.
    assert (E : rsub x (rscale (a * sc) (cls_g g al)) = rsub x (rscale (a * sc * al) g)) by (unfold cls_g; veq).
    unfold cls_candidate. cbv zeta. cbn [cl_x cl_d cl_alpha cl_gtd]. rewrite E. split; [reflexivity|]. split; [reflexivity|]. unfold cls_g. rewrite rdot_scale_l. unfold dir, arc. ring.
  Qed.
  Lemma search_strong k s : Rch k s -> exists a sc dn sf, a = / 2 ^ k /\ 0 < sc <= 1 /\ (sf <= k)%nat /\ (k <= 10)%nat /\ s = cand a sc dn k sf /\
    shrink_iter K k (nrm (dd al)) <= nrm (dd (a * sc * al)).
  Proof.
    intros H. induction H as [|k s s' H IH C B].
    - exists 1, 1, 0, 0%nat. split; [cbn; lra|]. split; [lra|]. split; [lia|]. split; [lia|]. split; [reflexivity|]. cbn [shrink_iter]. rewrite !Rmult_1_l. lra.
    - destruct IH as [a [sc [dn [sf [Ek [Hs [Hsf [_ [E Hd]]]]]]]]]. unfold cls_next in B. cbv zeta in B. injection B as <-.
      unfold cls_cond in C. apply andb_prop in C as [C1 C2]. apply andb_prop in C1 as [C1 C3]. apply Rltb_true in C3. apply Nat.ltb_lt in C1.
      assert (Ei : cl_iters s = k) by now rewrite E. rewrite Ei in *. assert (Ea : cl_alpha s = a) by now rewrite E. assert (Esc : cl_scale s = sc) by now rewrite E. assert (Esf : cl_safe s = sf) by now rewrite E.
      destruct (cand_arc a sc dn k sf) as [Ex [Ed Eg]]. rewrite <- E in Ex, Ed, Eg. set (t := a * sc * al) in *.
      assert (A0 : 0 < a) by (rewrite Ek; apply Rinv_0_lt_compat, pow_lt; lra). assert (A1 : a <= 1).
      { rewrite Ek. rewrite <- Rinv_1. apply Rinv_le_contravar; [lra|]. apply pow_R1_Rle. lra. }
      assert (T0 : 0 < t) by (unfold t; apply Rmult_lt_0_compat; [apply Rmult_lt_0_compat; lra|lra]).
      assert (Gd : rdot g (dd t) < 0). { rewrite Ea in Eg. assert (a * cl_gtd s < 0) by nra. rewrite Eg in H0. nra. }
      destruct (rdot_nonzero_l _ _ Gd) as [G1 G2]. rewrite Ed in *. rewrite Ea, Esc, Esf.
      assert (N2 : 0 < cls_n2 x). { unfold cls_n2. apply sqrt_lt_R0, lt_0_INR. destruct x; [|cbn; lia]. exfalso. cbn in Lx. destruct g; [|cbn in Lg; lia]. cbn in G1. unfold nrm, rdot in G1. cbn in G1. rewrite sqrt_0 in G1. lra. }
      assert (Ek2 : a / 2 = / 2 ^ S k) by (rewrite Ek; cbn [pow]; field; apply pow_nonzero; lra).
      set (u := nrm (dd t)) in *. assert (Hu : 0 <= shrink_iter K k (nrm (dd al)) <= u) by (split; [apply (@shrink_iter_mono K k _ _ HK (conj (nrm_pos (dd al)) (Rle_refl _)))|exact Hd]).
      assert (Key : forall sc', 0 < sc' <= sc -> Rmin (1 / 2) (u / K) * sc <= 1 / 2 * sc' -> shrink_len K (shrink_iter K k (nrm (dd al))) <= nrm (dd (a / 2 * sc' * al))).
      { intros sc' Hsc Hr. eapply Rle_trans; [apply (@shrink_len_mono K _ _ HK Hu)|]. set (t' := a / 2 * sc' * al).
        assert (T1 : 0 < t') by (unfold t'; repeat apply Rmult_lt_0_compat; lra). assert (T2 : t' <= t).
        { unfold t', t. apply Rmult_le_compat_r; [lra|]. apply Rmult_le_compat; lra. }
        destruct (@arc_mono tau x g Ht Lx Lg t' t T1 T2) as [_ M]. fold u in M.
        apply Rmult_le_reg_l with t; auto. eapply Rle_trans; [|exact M]. unfold shrink_len. rewrite <- Rmult_assoc. apply Rmult_le_compat_r; [lra|].
        unfold t, t'. replace (a * sc * al * Rmin (1 / 2) (u / K)) with (a * al * (Rmin (1 / 2) (u / K) * sc)) by ring. replace (a / 2 * sc' * al) with (a * al * (1 / 2 * sc')) by field.
        apply Rmult_le_compat_l; [apply Rmult_le_pos; lra|exact Hr]. }
      match goal with |- context[if ?c then _ else sc] => destruct c end.
      + set (sc' := u / cls_n2 x / cls_g_norm x g al / 2 ^ sf). assert (P2 : 0 < 2 ^ sf) by (apply pow_lt; lra).
        assert (Es : sc' = u / (al * nrm g * 2 ^ sf)).
        { unfold sc', cls_g_norm, cls_g. rewrite nrm_scale, (Rabs_pos_eq al) by lra. field. repeat split; lra. }
        assert (Pg : 0 < al * nrm g) by (now apply Rmult_lt_0_compat). assert (Pgs : 0 < al * nrm g * 2 ^ sf) by (now apply Rmult_lt_0_compat).
        assert (S0 : 0 < sc') by (rewrite Es; now apply Rdiv_lt_0_compat).
        assert (S1 : sc' <= sc).
        { rewrite Es. apply Rmult_le_reg_r with (al * nrm g * 2 ^ sf); auto. unfold Rdiv. rewrite Rmult_assoc, Rinv_l, Rmult_1_r by lra.
          pose proof (@dir_le tau x g Ht Lx Lg Hx t ltac:(lra)) as Q. fold u in Q. eapply Rle_trans; [exact Q|]. unfold t.
          assert (1 <= 2 ^ sf) by (apply pow_R1_Rle; lra). replace (a * sc * al * nrm g) with (sc * (al * nrm g * a)) by ring. apply Rmult_le_compat_l; [lra|]. apply Rmult_le_compat_l; lra. }
        exists (a / 2), sc', (u / cls_n2 x), (S sf). split; [exact Ek2|]. split; [lra|]. split; [lia|]. split; [lia|]. split; [reflexivity|]. cbn [shrink_iter]. apply Key; [lra|].
        apply Rle_trans with (u / K * 1).
        * apply Rmult_le_compat; [apply Rmin_glb; [lra|apply Rmult_le_pos; [lra|left; now apply Rinv_0_lt_compat]]|lra|apply Rmin_r|lra].
        * rewrite Rmult_1_r, Es. replace (1 / 2 * (u / (al * nrm g * 2 ^ sf))) with (u / (2 * (al * nrm g * 2 ^ sf))) by (field; lra).
          apply Rmult_le_compat_l; [lra|]. apply Rinv_le_contravar; [lra|]. eapply Rle_trans; [|exact HKg].
          assert (2 ^ sf <= 2 ^ 10) by (apply Rle_pow; [lra|lia]). replace (2 * (al * nrm g * 2 ^ sf)) with (2 * (al * nrm g) * 2 ^ sf) by ring. replace (2 ^ 11 * al * nrm g) with (2 * (al * nrm g) * 2 ^ 10) by (cbn [pow]; ring).
          apply Rmult_le_compat_l; lra.
      + exists (a / 2), sc, (u / cls_n2 x), sf. split; [exact Ek2|]. split; [lra|]. split; [lia|]. split; [lia|]. split; [reflexivity|]. cbn [shrink_iter]. apply Key; [lra|].
        apply Rmult_le_compat_r; [lra|apply Rmin_l].
  Qed.
End Search2.

Lemma lasso_exists m A T b tau : adjoint_ops n m A T -> length b = m -> 0 <= tau -> exists q, glasso_solution A b tau q.
Proof.
  intros AD Lb T0. assert (Z : N1 (rzero n) <= tau) by (rewrite HZ; auto).
  destruct (@attains n (fun x => N1 x <= tau) (misfit A b)) with (x0 := rzero n) (c := 0) (B := tau) as [q Hq]; auto.
  - intros l Ll. exists (nrm (ropp (T (rsub b (A l))))). split; [apply nrm_pos|]. intros x Lx. rewrite (@misfit_expand m A T b l AD Lb Ll x Lx).
    pose proof (cauchy (ropp (T (rsub b (A l)))) (rsub x l)) as Cs. pose proof (Rle_abs (- rdot (ropp (T (rsub b (A l)))) (rsub x l))) as Ab. rewrite Rabs_Ropp in Ab. pose proof (rdot_pos (A (rsub x l))). unfold nrm2. lra.
  - apply rzero_len.
  - intros z Lz _. unfold misfit. pose proof (rdot_pos (rsub b (A z))). unfold nrm2. lra.
  - intros z Lz Dz _. eapply Rle_trans; [now apply Hnrm1|exact Dz].
  - exists q. destruct Hq as [Lq [Dq Hq]]. split; auto.
Qed.

Section LConv.
  Variables (m : nat) (A T : vec -> vec) (b : vec) (tau : R) (opt : spgl1_options) (x0 : vec).
  Hypothesis AD : adjoint_ops n m A T.
  Hypothesis Lb : length b = m.
  Hypothesis Lx0 : length x0 = n.
  Hypothesis Ht : 0 <= tau.
  Hypothesis Hamin : 0 < go_alpha_min opt.
  Hypothesis Hamax : go_alpha_min opt <= go_alpha_max opt.
  Hypothesis Hmem : (1 <= go_memory opt)%nat.
  Hypothesis Hgam : 0 < go_gamma opt.
  Variable L : R.
  Hypothesis HL0 : 0 <= L.
  Hypothesis HL : forall v, length v = n -> nrm2 (A v) <= L * nrm2 v.
  Notation gr x := (ropp (T (rsub b (A x)))).
  Variable G : R.
  Hypothesis HG : forall x, length x = n -> N1 x <= tau -> nrm (gr x) <= G.
  Notation cond := (lasso_cond b opt).
  Notation body := (glasso_body A T b tau opt).
  Notation init := (glasso_init A T b tau opt x0).
  Notation Rch := (reaches cond body init).
  Hypothesis HLa : go_alpha_max opt * (L / 2 + go_gamma opt) <= 2 ^ 10 \/
    forall k s s', Rch k s -> cond s = true -> body s = Some s' -> (la_ls_iters s' < la_ls_iters s + 10)%nat.
  Notation f x := (misfit A b x).
  Notation K := (2 ^ 11 * go_alpha_max opt * G + 1).
  Definition step_len (s : lasso_state) : R := nrm (dir tau (la_x s) (la_g s) (la_alpha_next s)).
  Lemma G_pos : 0 <= G.
  Proof. destruct (@HP tau Ht x0 Lx0) as [L1 [C1 _]]. pose proof (HG L1 C1) as Q. pose proof (nrm_pos (gr (P x0 tau))). lra. Qed.
  Lemma K_pos : 0 < K.
  Proof. pose proof G_pos. assert (0 <= 2 ^ 11 * go_alpha_max opt * G) by (apply Rmult_le_pos; [|auto]; apply Rmult_le_pos; lra). lra. Qed.
  Lemma lasso_step_decrease k s s' : Rch k s -> cond s = true -> lasso_ok A T b tau opt s -> f (la_x s) <= vmax (la_f_past s) -> body s = Some s' ->
    exists v, shrink_iter K 10 (step_len s) <= v <= step_len s /\ 0 <= v /\ f (la_x s') <= vmax (la_f_past s) - go_gamma opt * (v * v) /\ f (la_x s') <= f (la_x s) + L / 2 * (step_len s * step_len s).
  Proof.
    intros Rs Cs I Hf B. pose proof I as [Lx [Hx [Er [Eg [En [Egap [Hal Ent]]]]]]]. pose proof B as B0.
    pose proof (@LAx m A T AD _ Lx) as LAx1. assert (Lg : length (la_g s) = n) by (rewrite Eg, Er; assert (length (T (rsub b (A (la_x s)))) = n) by (apply AD; vl); vl).
    unfold glasso_body in B. cbv zeta in B.
    destruct (curvy_line_search _ _ _ _ _ _ _ _ _) as [l| |] eqn:W; try discriminate.
    destruct (@search_result A b (la_x s) (la_g s) (la_alpha_next s) (vmax (la_f_past s)) tau (go_gamma opt) Lx Lg ltac:(lra) Ht l W)
      as [Q1 [Q2 [Q3 [Q4 [Q5 [Q6 [Q7 [Q10 [Q8 [Q9 [Q11 Q12]]]]]]]]]]]. specialize (Q9 Hx). specialize (Q11 Hx).
    rewrite Q3, Q4 in B. destruct (glasso_metrics _ _ _ _ _) as [r1 r2]. injection B as <-. cbn [la_x].
    pose proof W as W'. apply while_done in W' as [i [_ [Hr _]]]. pose proof K_pos as KP.
    assert (HKg : 2 ^ 11 * la_alpha_next s * nrm (la_g s) <= K).
    { assert (Ng : nrm (la_g s) <= G) by (rewrite Eg, Er; now apply HG). pose proof (nrm_pos (la_g s)).
      assert (2 ^ 11 * la_alpha_next s * nrm (la_g s) <= 2 ^ 11 * go_alpha_max opt * G); [|lra]. apply Rmult_le_compat; auto; [apply Rmult_le_pos; lra|]. apply Rmult_le_compat_l; lra. }
    destruct (@search_strong A b (la_x s) (la_g s) (la_alpha_next s) (vmax (la_f_past s)) tau (go_gamma opt) K Lx Lg Hx ltac:(lra) Ht KP HKg i l Hr) as [a [sc [dn [sf [Ek [Hs [Hsf [Hk10 [E Hd]]]]]]]]].
    assert (A0 : 0 < a) by (rewrite Ek; apply Rinv_0_lt_compat, pow_lt; lra). assert (A1 : a <= 1).
    { rewrite Ek. rewrite <- Rinv_1. apply Rinv_le_contravar; [lra|]. apply pow_R1_Rle. lra. }
    set (t := a * sc * la_alpha_next s) in *. assert (T0 : 0 < t) by (unfold t; repeat apply Rmult_lt_0_compat; lra).
    assert (Asc : a * sc <= a) by nra. assert (T1 : t <= la_alpha_next s) by (unfold t; assert (a * sc * la_alpha_next s <= 1 * la_alpha_next s) by (apply Rmult_le_compat_r; lra); lra).
    destruct (@cand_arc A b (la_x s) (la_g s) (la_alpha_next s) (vmax (la_f_past s)) tau (go_gamma opt) Lx Lg a sc dn i sf) as [Ex _]. rewrite <- E in Ex. fold t in Ex.
    assert (Edir : rsub (cl_x l) (la_x s) = dir tau (la_x s) (la_g s) t) by (rewrite Ex; reflexivity).
    pose proof (@dir_descent tau (la_x s) (la_g s) Ht Lx Lg Hx t) as Dd. pose proof (@arc_mono tau (la_x s) (la_g s) Ht Lx Lg t _ T0 T1) as [M1 _].
    pose proof (@dir_len tau (la_x s) (la_g s) Ht Lx Lg t) as Ld.
    rewrite Edir in Q9. set (d := dir tau (la_x s) (la_g s) t) in *. unfold nrm2 in Dd, Q9. rewrite <- nrm_sq in Dd, Q9. fold (step_len s) in M1, Hd. set (v := nrm d) in *. assert (V0 : 0 <= v) by apply nrm_pos.
    assert (Ef : f (cl_x l) <= f (la_x s) + rdot (la_g s) d + L / 2 * (v * v)).
    { rewrite (@misfit_expand m A T b (la_x s) AD Lb Lx _ Q1), Edir. rewrite Eg, Er. pose proof (HL Ld) as HLd. unfold nrm2 at 2 in HLd. rewrite <- nrm_sq in HLd. fold v in HLd. lra. }
    assert (Pvv : 0 <= v * v) by nra. assert (Gd : rdot (la_g s) d <= 0) by nra.
    exists v. split; [split; [|exact M1]|].
    { eapply Rle_trans; [|exact Hd]. apply shrink_iter_dec; auto. apply nrm_pos. }
    split; auto. split.
    - destruct Q11 as [Q|[Q|Q]].
      + rewrite Q4, Q10 in Q. pose proof (Rmult_le_compat_l (go_gamma opt) _ _ ltac:(lra) Q9). lra.
      + assert (Z : v = 0). { unfold v. rewrite <- Edir, Q. unfold nrm. rewrite rdot_sub_l by vl. rewrite Rminus_diag_eq by reflexivity. apply sqrt_0. }
        rewrite Z, Q. lra.
      + assert (Ei : cl_iters l = i) by now rewrite E. destruct HLa as [HLa'|HLa']; [|specialize (HLa' _ _ _ Rs Cs B0); cbn [la_ls_iters] in HLa'; lia]. rewrite Ei in Q. subst i.
        assert (T2 : t * (L / 2 + go_gamma opt) <= 1).
        { assert (t <= a * go_alpha_max opt). { unfold t. apply Rmult_le_compat; try lra. apply Rmult_le_pos; lra. }
          assert (t * (L / 2 + go_gamma opt) <= a * go_alpha_max opt * (L / 2 + go_gamma opt)) by (apply Rmult_le_compat_r; lra).
          assert (a * (go_alpha_max opt * (L / 2 + go_gamma opt)) <= a * 2 ^ 10) by (apply Rmult_le_compat_l; lra). assert (a * 2 ^ 10 = 1) by (rewrite Ek; apply Rinv_l; apply pow_nonzero; lra). lra. }
        assert (T3 : (L / 2 + go_gamma opt) * (v * v) <= - rdot (la_g s) d).
        { apply Rmult_le_reg_l with t; auto. rewrite <- Rmult_assoc. apply Rle_trans with (1 * (v * v)); [apply Rmult_le_compat_r; lra|lra]. }
        lra.
    - assert (v * v <= step_len s * step_len s) by (apply Rmult_le_compat; lra). assert (L / 2 * (v * v) <= L / 2 * (step_len s * step_len s)) by (apply Rmult_le_compat_l; lra). lra.
  Qed.
  (** the duality gap is small when the step is *)
  Lemma gap_len s : lasso_ok A T b tau opt s -> rdot (la_r s) (rsub (la_r s) b) + tau * Ni (la_g s) <= step_len s * (/ go_alpha_min opt * (2 * tau + step_len s) + G).
  Proof.
    intros [Lx [Hx [Er [Eg [_ [_ [Hal _]]]]]]]. pose proof (@LAx m A T AD _ Lx) as LAx1. assert (Lg : length (la_g s) = n) by (rewrite Eg, Er; assert (length (T (rsub b (A (la_x s)))) = n) by (apply AD; vl); vl).
    destruct (@Hdual tau (la_g s) Ht Lg) as [z [Lz [Hz Ez]]]. rewrite Er, (@gap_eq m A T b _ AD Lb Lx), <- Er, <- Eg.
    pose proof (@arc_gap tau (la_x s) (la_g s) Ht Lx Lg _ z ltac:(instantiate (1 := la_alpha_next s); lra) Lz Hz) as Q. fold (step_len s) in Q.
    assert (Nx : nrm (rsub (la_x s) z) <= 2 * tau).
    { assert (E : rsub (la_x s) z = radd (la_x s) (ropp z)) by veq. rewrite E. pose proof (nrm_triang (la_x s) (ropp z) ltac:(vl)) as Tr. rewrite nrm_opp in Tr. pose proof (@Hnrm1 (la_x s) Lx). pose proof (@Hnrm1 z Lz). lra. }
    assert (Ng : nrm (la_g s) <= G) by (rewrite Eg, Er; now apply HG). assert (U0 : 0 <= step_len s) by apply nrm_pos. pose proof (nrm_pos (rsub (la_x s) z)) as P1.
    assert (I1 : / la_alpha_next s <= / go_alpha_min opt) by (apply Rinv_le_contravar; lra). assert (I0 : 0 < / la_alpha_next s) by (apply Rinv_0_lt_compat; lra).
    rewrite rdot_sub_r, Ez in Q by vl.
    assert (B1 : / la_alpha_next s * step_len s * (nrm (rsub (la_x s) z) + step_len s) <= / go_alpha_min opt * step_len s * (2 * tau + step_len s)).
    { apply Rmult_le_compat; try lra; [apply Rmult_le_pos; lra|]. apply Rmult_le_compat_r; lra. }
    assert (B2 : nrm (la_g s) * step_len s <= G * step_len s) by (apply Rmult_le_compat_r; lra). lra.
  Qed.
  Lemma newest k s : Rch k s -> f (la_x s) <= vmax (la_f_past s) /\ length (la_f_past s) = go_memory opt.
  Proof.
    intros H. pose proof (@lasso_memory m A T b tau opt x0 AD Lb Lx0 Ht Hamin Hamax k s H) as E. assert (Lf : length (la_f_past s) = go_memory opt) by (rewrite E; apply tab_length). split; auto.
    assert (Ef : (la_f_past s)@0 = f (la_x s)) by (rewrite E, nth_tab by lia; now rewrite Nat.sub_0_r, (reaches_traj H)).
    rewrite <- Ef. apply vmax_spec; [intros E0; rewrite E0 in Lf; simpl in Lf; lia|]. apply nth_In. lia.
  Qed.
  Variables (q : vec) (eps u0 : R).
  Hypothesis Hq : glasso_solution A b tau q.
  Hypothesis He : 0 < eps.
  Hypothesis Hu0 : 0 < u0.
  Hypothesis Hug : forall u, 0 <= u <= u0 -> u * (/ go_alpha_min opt * (2 * tau + u) + G) + L / 2 * (u * u) <= eps.
  Definition lasso_dl : R := go_gamma opt * (shrink_iter K 10 u0 * shrink_iter K 10 u0).
  Lemma lasso_dl_pos : 0 < lasso_dl.
  Proof. assert (0 < shrink_iter K 10 u0) by (apply shrink_iter_pos; auto; apply K_pos). unfold lasso_dl. apply Rmult_lt_0_compat; auto. now apply Rmult_lt_0_compat. Qed.
  Lemma big_step s v : u0 <= step_len s -> shrink_iter K 10 (step_len s) <= v -> lasso_dl <= go_gamma opt * (v * v).
  Proof.
    intros Hd Hv. pose proof (@shrink_iter_mono K 10 u0 (step_len s) K_pos ltac:(lra)) as M. unfold lasso_dl. apply Rmult_le_compat_l; [lra|]. apply Rmult_le_compat; lra.
  Qed.
  Lemma lasso_push k s s' : Rch k s -> cond s = true -> body s = Some s' -> f (la_x s') <= Rmax (f q + eps) (vmax (la_f_past s) - lasso_dl).
  Proof.
    intros H Cd B. destruct (@lasso_reach m A T b tau opt x0 AD Lb Lx0 Ht Hamin Hamax k s H) as [I _]. destruct (newest H) as [Hf _].
    destruct (lasso_step_decrease H Cd I Hf B) as [v [Hv [V0 [D1 D2]]]]. assert (U0 : 0 <= step_len s) by apply nrm_pos.
    destruct (Rle_lt_dec (step_len s) u0) as [Hd|Hd].
    - eapply Rle_trans; [|apply Rmax_l]. pose proof (gap_len I) as Gp. specialize (Hug (conj U0 Hd)). pose proof I as [Lx [Hx [Er [Eg _]]]]. destruct Hq as [Lq [Cq _]].
      pose proof (@lasso_gap m A T b _ tau AD Lb Lx q Lq Cq) as Q. rewrite Eg, Er in Gp. lra.
    - eapply Rle_trans; [|apply Rmax_r]. pose proof (@big_step s v ltac:(lra) ltac:(lra)). lra.
  Qed.
  Let e0 := f (la_x init) - f q.
  Lemma lasso_mem k s : Rch k s -> mem_ok (go_memory opt) (level_ (f q) eps e0 lasso_dl) k (la_f_past s).
  Proof.
    intros H. induction H as [|k s s' H IH Cd Bd].
    - destruct (@lasso_init_ok A T b tau opt x0 Lx0 Ht Hamax) as [_ [_ [_ [_ E]]]]. rewrite E. apply mem_init; auto. unfold level_, e0. cbn [INR].
      pose proof (Rmax_r eps (f (la_x init) - f q - 0 * lasso_dl)). lra.
    - destruct (@lasso_reach m A T b tau opt x0 AD Lb Lx0 Ht Hamin Hamax k s H) as [I _].
      destruct (@lasso_step m A T b tau opt x0 AD Lb Lx0 Ht Hamin Hamax s s' I Bd) as [_ [_ [_ [E _]]]]. destruct (newest H) as [_ Lf].
      rewrite E. unfold cbuf_push_left. destruct (la_f_past s) as [|p0 P0] eqn:EP; [simpl in Lf; lia|]. rewrite <- EP in *.
      apply mem_push; auto; [left; apply lasso_dl_pos|]. eapply lasso_push; eauto.
  Qed.
  Lemma lasso_late J k s : e0 <= INR J * lasso_dl -> (go_memory opt * J + go_memory opt <= k)%nat -> Rch k s -> vmax (la_f_past s) <= f q + eps.
  Proof.
    intros HJ Hk H. eapply mem_late_max; [exact Hmem|left; apply lasso_dl_pos|lra|exact HJ|exact Hk|]. now apply lasso_mem.
  Qed.
End LConv.
Lemma grad_bounded m A T b tau : adjoint_ops n m A T -> length b = m -> exists G, 0 <= G /\ forall x, length x = n -> N1 x <= tau -> nrm (ropp (T (rsub b (A x)))) <= G.
Proof.
  intros AD Lb. destruct (op_bounded AD) as [C [C0 HC]]. assert (AD' : adjoint_ops m n T A). { destruct AD as [H1 [H2 H3]]. split; auto. split; auto. intros x y Lx Ly. rewrite (rdot_sym (T x)), <- H3 by auto. apply rdot_sym. }
  destruct (op_bounded AD') as [C' [C0' HC']]. exists (C' * (nrm b + C * Rabs tau)). pose proof (nrm_pos b). pose proof (Rabs_pos tau).
  assert (0 <= C * Rabs tau) by (now apply Rmult_le_pos). split; [apply Rmult_le_pos; lra|].
  intros x Lx Hx. rewrite nrm_opp. pose proof (@LAx m A T AD _ Lx) as LA. eapply Rle_trans; [apply HC'; vl|]. apply Rmult_le_compat_l; auto.
  assert (E : rsub b (A x) = radd b (ropp (A x))) by veq. rewrite E. eapply Rle_trans; [apply nrm_triang; vl|]. rewrite nrm_opp. apply Rplus_le_compat_l.
  eapply Rle_trans; [now apply HC|]. apply Rmult_le_compat_l; auto. pose proof (@Hnrm1 x Lx). pose proof (Rle_abs tau). lra.
Qed.
Lemma lasso_conv m A T b tau x0 amin amax gam M L : adjoint_ops n m A T -> length b = m -> length x0 = n -> 0 <= tau -> 0 < amin -> amin <= amax -> (1 <= M)%nat -> 0 < gam ->
  0 <= L -> (forall v, length v = n -> nrm2 (A v) <= L * nrm2 v) ->
  forall q eps, glasso_solution A b tau q -> 0 < eps -> exists N, forall opt k s,
    go_alpha_min opt = amin -> go_alpha_max opt = amax -> go_gamma opt = gam -> go_memory opt = M -> (N <= k)%nat ->
    (amax * (L / 2 + gam) <= 2 ^ 10 \/ forall k s s', reaches (lasso_cond b opt) (glasso_body A T b tau opt) (glasso_init A T b tau opt x0) k s ->
       lasso_cond b opt s = true -> glasso_body A T b tau opt s = Some s' -> (la_ls_iters s' < la_ls_iters s + 10)%nat) ->
    reaches (lasso_cond b opt) (glasso_body A T b tau opt) (glasso_init A T b tau opt x0) k s ->
    misfit A b (la_x s) <= misfit A b q + eps /\
    forall s', lasso_cond b opt s = true -> glasso_body A T b tau opt s = Some s' -> rdot (la_r s) (rsub (la_r s) b) + tau * Ni (la_g s) <= eps.
Proof.
  intros AD Lb Lx0 T0 Ha1 Ha2 HM Hg L0 HL q eps Hq He. destruct (grad_bounded tau AD Lb) as [G [G0 HG]].
  assert (I0 : 0 < / amin) by now apply Rinv_0_lt_compat. set (c := / amin * (2 * tau + 1) + G + L / 2 + 1). assert (P1 : 0 <= / amin * (2 * tau + 1)) by (apply Rmult_le_pos; lra). assert (C0 : 0 < c) by (unfold c; lra).
  set (u0 := Rmin 1 (eps / c)). assert (U0 : 0 < u0) by (apply Rmin_glb_lt; [lra|now apply Rdiv_lt_0_compat]). assert (U1 : u0 <= 1) by apply Rmin_l. assert (Uc : u0 * c <= eps).
  { apply Rle_trans with (eps / c * c); [apply Rmult_le_compat_r; [lra|apply Rmin_r]|]. right. field. lra. }
  assert (Hug : forall u, 0 <= u <= u0 -> u * (/ amin * (2 * tau + u) + G) + L / 2 * (u * u) <= eps).
  { intros u [V0 V1]. apply Rle_trans with (u * c); [|eapply Rle_trans; [|exact Uc]; apply Rmult_le_compat_r; lra]. unfold c.
    assert (/ amin * (2 * tau + u) <= / amin * (2 * tau + 1)) by (apply Rmult_le_compat_l; lra).
    assert (L / 2 * (u * u) <= u * (L / 2)) by (replace (L / 2 * (u * u)) with (u * (L / 2 * u)) by ring; apply Rmult_le_compat_l; auto; assert (L / 2 * u <= L / 2 * 1) by (apply Rmult_le_compat_l; lra); lra).
    assert (u * (/ amin * (2 * tau + u) + G) <= u * (/ amin * (2 * tau + 1) + G)) by (apply Rmult_le_compat_l; lra). lra. }
  set (K := 2 ^ 11 * amax * G + 1). assert (KP : 0 < K) by (unfold K; assert (0 <= 2 ^ 11 * amax * G) by (apply Rmult_le_pos; [apply Rmult_le_pos; lra|auto]); lra).
  set (dl := gam * (shrink_iter K 10 u0 * shrink_iter K 10 u0)). assert (dl0 : 0 < dl) by (pose proof (shrink_iter_pos 10 KP U0); unfold dl; apply Rmult_lt_0_compat; auto; now apply Rmult_lt_0_compat).
  (* the memory is late for eps and for dl / 2 *)
  set (eps2 := Rmin eps (dl / 2)). assert (E2 : 0 < eps2) by (apply Rmin_glb_lt; lra).
  set (u2 := Rmin u0 (eps2 / c)). assert (U2 : 0 < u2) by (apply Rmin_glb_lt; [auto|now apply Rdiv_lt_0_compat]).
  assert (Hug2 : forall u, 0 <= u <= u2 -> u * (/ amin * (2 * tau + u) + G) + L / 2 * (u * u) <= eps2).
  { assert (U21 : u2 <= 1) by (eapply Rle_trans; [apply Rmin_l|exact U1]). assert (Uc2 : u2 * c <= eps2).
    { apply Rle_trans with (eps2 / c * c); [apply Rmult_le_compat_r; [lra|apply Rmin_r]|]. right. field. lra. }
    intros u [V0 V1]. apply Rle_trans with (u * c); [|eapply Rle_trans; [|exact Uc2]; apply Rmult_le_compat_r; lra]. unfold c.
    assert (/ amin * (2 * tau + u) <= / amin * (2 * tau + 1)) by (apply Rmult_le_compat_l; lra).
    assert (L / 2 * (u * u) <= u * (L / 2)) by (replace (L / 2 * (u * u)) with (u * (L / 2 * u)) by ring; apply Rmult_le_compat_l; auto; assert (L / 2 * u <= L / 2 * 1) by (apply Rmult_le_compat_l; lra); lra).
    assert (u * (/ amin * (2 * tau + u) + G) <= u * (/ amin * (2 * tau + 1) + G)) by (apply Rmult_le_compat_l; lra). lra. }
  set (dl2 := gam * (shrink_iter K 10 u2 * shrink_iter K 10 u2)). assert (dl20 : 0 < dl2) by (pose proof (shrink_iter_pos 10 KP U2); unfold dl2; apply Rmult_lt_0_compat; auto; now apply Rmult_lt_0_compat).
  set (f1 := misfit A b (P x0 tau)). destruct (nat_above ((f1 - misfit A b q) / dl2)) as [J HJ].
  exists (M * J + M)%nat. intros opt k s E1 E3 E4 E5 Hk HLa H. subst amin amax gam M.
  assert (HJ' : misfit A b (la_x (glasso_init A T b tau opt x0)) - misfit A b q <= INR J * dl2).
  { assert (Ei : la_x (glasso_init A T b tau opt x0) = P x0 tau) by (unfold glasso_init; cbv zeta; destruct (glasso_metrics _ _ _ _ _); reflexivity). rewrite Ei. fold f1.
    apply Rlt_le in HJ. apply Rmult_le_compat_r with (r := dl2) in HJ; [|lra]. replace ((f1 - misfit A b q) / dl2 * dl2) with (f1 - misfit A b q) in HJ by (field; lra). lra. }
  assert (Late : vmax (la_f_past s) <= misfit A b q + eps2). { eapply (@lasso_late m A T b tau opt x0) with (L := L) (G := G) (u0 := u2) (J := J); eauto. }
  destruct (@newest m A T b tau opt x0 AD Lb Lx0 T0 Ha1 Ha2 HM k s H) as [Hf _]. assert (E2e : eps2 <= eps) by apply Rmin_l. assert (E2d : eps2 <= dl / 2) by apply Rmin_r. split; [lra|].
  intros s' Cd B. destruct (@lasso_reach m A T b tau opt x0 AD Lb Lx0 T0 Ha1 Ha2 k s H) as [I _].
  destruct (@lasso_step_decrease m A T b tau opt x0 AD Lb Lx0 T0 Ha1 Ha2 HM Hg L L0 HL G HG HLa k s s' H Cd I Hf B) as [v [Hv [V0 [D1 _]]]].
  destruct (@lasso_step m A T b tau opt x0 AD Lb Lx0 T0 Ha1 Ha2 s s' I B) as [[Lx' [Hx' _]] _]. destruct Hq as [Lq [Cq Mq]]. specialize (Mq _ Lx' Hx').
  destruct (Rle_lt_dec (step_len tau s) u0) as [Hd|Hd].
  - assert (S0 : 0 <= step_len tau s) by apply nrm_pos. eapply Rle_trans; [apply (@gap_len m A T b tau opt x0) with (G := G); auto|]. specialize (Hug (step_len tau s) (conj S0 Hd)).
    assert (0 <= L / 2 * (step_len tau s * step_len tau s)) by (apply Rmult_le_pos; [lra|now apply Rmult_le_pos]). lra.
  - exfalso. pose proof (@shrink_iter_mono K 10 u0 (step_len tau s) KP ltac:(lra)) as Mo. fold K in Hv.
    assert (dl <= go_gamma opt * (v * v)); [|lra]. unfold dl. apply Rmult_le_compat_l; [lra|]. apply Rmult_le_compat; lra.
Qed.

(** with a positive tolerance the duality gap ends the run *)
Lemma lasso_stops m A T b tau x0 amin amax gam M L : adjoint_ops n m A T -> length b = m -> length x0 = n -> 0 <= tau -> 0 < amin -> amin <= amax -> (1 <= M)%nat -> 0 < gam ->
  0 <= L -> (forall v, length v = n -> nrm2 (A v) <= L * nrm2 v) -> gap_ok A T b tau ->
  forall tol, 0 < tol -> exists N, forall opt k s,
    go_alpha_min opt = amin -> go_alpha_max opt = amax -> go_gamma opt = gam -> go_memory opt = M -> tol <= go_opt_tol opt ->
    (amax * (L / 2 + gam) <= 2 ^ 10 \/ forall k s s', reaches (lasso_cond b opt) (glasso_body A T b tau opt) (glasso_init A T b tau opt x0) k s ->
       lasso_cond b opt s = true -> glasso_body A T b tau opt s = Some s' -> (la_ls_iters s' < la_ls_iters s + 10)%nat) ->
    reaches (lasso_cond b opt) (glasso_body A T b tau opt) (glasso_init A T b tau opt x0) k s -> (k <= N)%nat.
Proof.
  intros AD Lb Lx0 T0 Ha1 Ha2 HM Hg L0 HL HGap tol Htol. destruct (lasso_exists AD Lb T0) as [q Hq]. destruct (grad_bounded tau AD Lb) as [G [G0 HG]].
  assert (D0 : 0 < 2 * tau * G + 1) by (assert (0 <= tau * G) by (now apply Rmult_le_pos); lra). set (eps := tol * tol / (2 * tau * G + 1)).
  assert (He : 0 < eps) by (apply Rdiv_lt_0_compat; auto; now apply Rmult_lt_0_compat). assert (Hee : 2 * tau * G * eps <= tol * tol).
  { apply Rle_trans with ((2 * tau * G + 1) * eps); [lra|]. right. unfold eps. field. lra. }
  destruct (lasso_conv AD Lb Lx0 T0 Ha1 Ha2 HM Hg L0 HL Hq He) as [N HN]. exists N. intros opt k s E1 E2 E3 E4 Ho HLa H.
  destruct (Nat.le_gt_cases k N) as [|Hk]; auto. exfalso. destruct H as [|k s s' H Cd B]; [lia|].
  destruct (HN opt k s E1 E2 E3 E4 ltac:(lia) HLa H) as [_ Gp]. specialize (Gp s' Cd B). subst amin amax.
  destruct (@lasso_reach m A T b tau opt x0 AD Lb Lx0 T0 Ha1 Ha2 k s H) as [[Lx [Hx [Er [Egr [_ [Eg _]]]]]] _].
  unfold lasso_cond in Cd. apply andb_prop in Cd as [Cd _]. apply andb_prop in Cd as [_ Cd]. apply Rltb_true in Cd. rewrite Eg in Cd.
  pose proof (HG _ Lx Hx) as Ng. destruct (HGap _ Lx Hx) as [_ [P0 Q]]. rewrite <- Er, <- Egr in *. assert (Lg : length (la_g s) = n) by (rewrite Egr, Er; pose proof (@LAx m A T AD _ Lx); assert (length (T (rsub b (A (la_x s)))) = n) by (apply AD; vl); vl).
  pose proof (@HnrmI _ Lg) as Ni1. pose proof (HNi (la_g s)) as Ni0. pose proof (Rmax_l 1 (misfit A b (la_x s))) as R1. set (D := Rmax 1 (misfit A b (la_x s))) in *. set (w := rdot (la_r s) (rsub (la_r s) b) + tau * Ni (la_g s)) in *. set (gp := gapf (la_r s) b (tau * Ni (la_g s))) in *.
  assert (W : gp * gp <= tol * tol).
  { eapply Rle_trans; [exact Q|]. assert (M1 : tau * Ni (la_g s) <= tau * G) by (apply Rmult_le_compat_l; lra). assert (M0 : 0 <= tau * Ni (la_g s)) by (now apply Rmult_le_pos).
    apply Rle_trans with (2 * (tau * Ni (la_g s)) * eps); [apply Rmult_le_compat_l; lra|]. apply Rle_trans with (2 * tau * G * eps); [|exact Hee]. apply Rmult_le_compat_r; lra. }
  assert (W1 : gp <= tol) by (apply Rnot_lt_le; intros F; assert (tol * tol < gp * gp) by (apply Rmult_le_0_lt_compat; lra); lra).
  assert (gp / D <= tol); [|lra]. apply Rmult_le_reg_r with D; [lra|]. unfold Rdiv. rewrite Rmult_assoc, Rinv_l, Rmult_1_r by lra. apply Rle_trans with (tol * 1); [lra|]. apply Rmult_le_compat_l; lra.
Qed.
End Gen.
