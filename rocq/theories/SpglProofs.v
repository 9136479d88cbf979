From Coq Require Import List Arith Bool Lia Reals Lra Psatz.
From Verif Require Import Vec RVec RMat Loop LoopLemmas SolverSpec SolverLemmas OptSpec OptModel OptProofs OptProofs2 SelModel SelProofs SpgModel FomProofs2 SpglModel SpglSpec.
Import ListNotations.
Set Implicit Arguments.
Local Open Scope R_scope.

Lemma holder x y : Rabs (rdot x y) <= nrminf x * nrm1 y.
Proof.
  revert y; induction x as [|a x IH]; intros [|c y].
  1,2,3: match goal with |- Rabs (rdot ?u ?v) <= ?M * ?N => replace (rdot u v) with 0 by reflexivity; rewrite Rabs_R0;
           apply Rmult_le_pos; [apply nrminf_pos|apply nrm1_pos] end.
  - replace (rdot (a :: x) (c :: y)) with (a * c + rdot x y) by (unfold rdot; cbn; ring).
    replace (nrm1 (c :: y)) with (Rabs c + nrm1 y) by (unfold nrm1; cbn; ring). cbn [nrminf].
    specialize (IH y). pose proof (Rabs_triang (a * c) (rdot x y)) as T. rewrite Rabs_mult in T.
    pose proof (Rmax_l (Rabs a) (nrminf x)). pose proof (Rmax_r (Rabs a) (nrminf x)). pose proof (Rabs_pos c).
    assert (0 <= nrm1 y) by (apply nrm1_pos). set (M := Rmax (Rabs a) (nrminf x)) in *.
    pose proof (Rmult_le_compat_r (Rabs c) (Rabs a) M ltac:(lra) ltac:(lra)).
    pose proof (Rmult_le_compat_r (nrm1 y) (nrminf x) M ltac:(lra) ltac:(lra)). lra.
Qed.
Lemma obj_val_eq r : obj_val r = / 2 * nrm2 r.
Proof. unfold obj_val, nrm2. rewrite Rabs_pos_eq by apply rdot_pos. lra. Qed.
Lemma nrm2_zero v n : length v = n -> nrm2 v <= 0 -> v = rzero n.
Proof.
  intros L H. pose proof (rdot_pos v). assert (E : nrm2 v = 0) by (unfold nrm2 in *; lra).
  apply rdot_sub_eq0; [vl|]. replace (rsub v (rzero n)) with v by veq. exact E.
Qed.
Lemma rdot_nonzero_l g d : rdot g d < 0 -> 0 < nrm g /\ 0 < nrm d.
Proof.
  intros H. assert (Q : forall u v, rdot u v < 0 -> 0 < nrm u).
  { intros u v Huv. pose proof (nrm_pos u). destruct (Req_dec (nrm u) 0) as [E|E]; [|lra]. exfalso.
    pose proof (cauchy u v) as Cv. rewrite E, Rmult_0_l in Cv. pose proof (Rle_abs (- rdot u v)) as Cw. rewrite Rabs_Ropp in Cw. lra. }
  split; [exact (Q _ _ H)|]. rewrite rdot_sym in H. exact (Q _ _ H).
Qed.

Section Search.
  Variables (n m : nat) (A : vec -> vec) (b x g : vec) (al fmax tau gamma : R).
  Hypothesis LA : linear_op n m A.
  Hypothesis Lx : length x = n.
  Hypothesis Lg : length g = n.
  Hypothesis Hal : 0 < al.
  Hypothesis Ht : 0 <= tau.
  Notation P := spgl1_project_to_l1_ball.
  Notation cand := (cls_candidate A b x g al fmax P tau gamma).
  Notation cond := cls_cond.
  Notation next := (cls_next A b x g al fmax P tau gamma).
  Notation init := (cls_init A b x g al fmax P tau gamma).
  Notation Rch := (reaches cond next init).

  (** the step direction is a descent direction *)
  Lemma cand_descent a s dn it sf : 0 < a -> 0 < s -> let c := cand a s dn it sf in
    length (cl_x c) = n /\ nrm1 (cl_x c) <= tau /\ cl_r c = rsub b (A (cl_x c)) /\ cl_f c = misfit A b (cl_x c) /\
    cl_d c = rsub (cl_x c) x /\ (nrm1 x <= tau -> nrm2 (rsub (cl_x c) x) <= - (a * cl_gtd c)) /\
    cl_lim c = fmax + gamma * cl_alpha c * cl_gtd c /\
    (forall z, length z = n -> nrm1 z <= tau -> nrm2 (rsub (cl_x c) x) = 0 -> 0 <= rdot g (rsub z x)).
  Proof.
    intros Ha Hs. cbv zeta. unfold cls_candidate. cbv zeta. cbn [cl_x cl_r cl_f cl_d cl_gtd cl_lim cl_alpha].
    set (v := rsub x (rscale (a * s) (cls_g g al))). assert (Lc : length (cls_g g al) = n) by (unfold cls_g; vl).
    assert (Lv : length v = n) by (unfold v; vl).
    destruct (@vi_spgl1 n tau Ht v Lv) as [Lp [Cp V]]. set (p := P v tau) in *.
    assert (Ev : forall z, length z = n -> rdot (rsub v p) (rsub z p) = rdot (rsub x p) (rsub z p) - a * s * al * rdot g (rsub z p)).
    { intros z Lz. replace (rsub v p) with (rsub (rsub x p) (rscale (a * s * al) g)).
      - rewrite rdot_sub_l by vl. rewrite rdot_scale_l. reflexivity.
      - unfold v, cls_g. veq. }
    repeat split; auto.
    - rewrite obj_val_eq. reflexivity.
    - intros Hx. specialize (V x Lx Hx). rewrite Ev in V by auto. unfold cls_g. rewrite rdot_scale_l.
      replace (nrm2 (rsub p x)) with (rdot (rsub x p) (rsub x p)) by (apply (@nrm2_sub_sym x p); vl).
      replace (rdot g (rsub p x)) with (- rdot g (rsub x p)) by (rewrite !rdot_sub_r by vl; ring). lra.
    - intros z Lz Cz H0. assert (Epx : p = x) by (apply rdot_sub_eq0; [vl|exact H0]).
      specialize (V z Lz Cz). rewrite Ev in V by auto. rewrite Epx in V.
      replace (rdot (rsub x x) (rsub z x)) with 0 in V by (rewrite rdot_sub_l by vl; ring).
      apply Rmult_le_reg_l with (a * s * al); [repeat apply Rmult_lt_0_compat; auto|]. lra.
  Qed.
  Lemma search_inv k s : Rch k s -> exists a sc dn sf, 0 < a <= 1 /\ 0 < sc /\ a = / 2 ^ k /\ s = cand a sc dn k sf.
  Proof.
    intros H. induction H as [|k s s' H IH C B].
    - exists 1, 1, 0, 0%nat. repeat split; try lra. 
    - destruct IH as [a [sc [dn [sf [Ha [Hs [Ek E]]]]]]]. unfold cls_next in B. cbv zeta in B. injection B as <-.
      unfold cls_cond in C. apply andb_prop in C as [C1 C2]. apply andb_prop in C1 as [C1 C3]. apply Rltb_true in C3.
      assert (Pd : 0 < nrm (cl_d s) / cls_n2 x / cls_g_norm x g al / 2 ^ cl_safe s).
      { rewrite E in C3. unfold cls_candidate in C3. cbv zeta in C3. cbn [cl_gtd] in C3.
        assert (G : rdot (cls_g g al) (cl_d s) < 0).
        { rewrite E. unfold cls_candidate. cbv zeta. cbn [cl_d]. nra. }
        destruct (rdot_nonzero_l _ _ G) as [G1 G2].
        assert (N : 0 < cls_n2 x).
        { unfold cls_n2. apply sqrt_lt_R0. apply lt_0_INR. destruct x; [|cbn; lia]. exfalso. cbn in Lx.
          unfold cls_g in G. destruct g; [|cbn in Lg; lia]. cbn in G. unfold rdot in G. cbn in G. lra. }
        unfold cls_g_norm, Rdiv. repeat apply Rmult_lt_0_compat; auto; apply Rinv_0_lt_compat; auto.
        - apply Rmult_lt_0_compat; auto. now apply Rinv_0_lt_compat.
        - apply pow_lt. lra. }
      replace (cl_alpha s) with a by now rewrite E. replace (cl_iters s) with k by now rewrite E.
      match goal with |- context[if ?c then _ else cl_scale s] => destruct c end.
      + exists (a / 2), (nrm (cl_d s) / cls_n2 x / cls_g_norm x g al / 2 ^ cl_safe s), (nrm (cl_d s) / cls_n2 x), (S (cl_safe s)).
        assert (a / 2 = / 2 ^ S k) by (rewrite Ek; cbn [pow]; field; apply pow_nonzero; lra).
        repeat split; auto; lra.
      + exists (a / 2), (cl_scale s), (nrm (cl_d s) / cls_n2 x), (cl_safe s).
        assert (a / 2 = / 2 ^ S k) by (rewrite Ek; cbn [pow]; field; apply pow_nonzero; lra).
        assert (0 < cl_scale s) by (rewrite E; cbn; lra). repeat split; auto; lra.
  Qed.
  Lemma search_total : exists l, curvy_line_search A b x g al fmax P tau gamma = Done l.
  Proof.
    apply while_total.
    - intros k s H C. unfold cls_next. cbv zeta. discriminate.
    - intros k s H C. destruct (search_inv H) as [a [sc [dn [sf [_ [_ [_ E]]]]]]]. unfold cls_cond in C.
      apply andb_prop in C as [C1 _]. apply andb_prop in C1 as [C1 _]. apply Nat.ltb_lt in C1. rewrite E in C1. exact C1.
  Qed.
  Lemma search_result l : curvy_line_search A b x g al fmax P tau gamma = Done l ->
    length (cl_x l) = n /\ nrm1 (cl_x l) <= tau /\ cl_r l = rsub b (A (cl_x l)) /\ cl_f l = misfit A b (cl_x l) /\
    0 < cl_alpha l <= 1 /\ cl_alpha l = / 2 ^ cl_iters l /\ (cl_iters l <= 10)%nat /\
    cl_lim l = fmax + gamma * cl_alpha l * cl_gtd l /\
    (nrm1 x <= tau -> cl_gtd l <= 0) /\
    (nrm1 x <= tau -> nrm2 (rsub (cl_x l) x) <= - (cl_alpha l * cl_gtd l)) /\
    (nrm1 x <= tau -> cl_f l < cl_lim l \/ cl_x l = x \/ cl_iters l = 10%nat) /\
    (cl_x l = x -> forall z, length z = n -> nrm1 z <= tau -> 0 <= rdot g (rsub z x)).
  Proof.
    intros H. apply while_done in H as [k [Hk [H C]]]. destruct (search_inv H) as [a [sc [dn [sf [Ha [Hs [Ek E]]]]]]].
    destruct (@cand_descent a sc dn k sf ltac:(lra) Hs) as [D1 [D2 [D3 [D4 [D5 [D6 [D7 D8]]]]]]]. rewrite <- E in *.
    assert (Ea : cl_alpha l = a) by now rewrite E. assert (Ei : cl_iters l = k) by now rewrite E.
    rewrite Ea, Ei in *. assert (G : nrm1 x <= tau -> cl_gtd l <= 0).
    { intros Hx. specialize (D6 Hx). pose proof (rdot_pos (rsub (cl_x l) x)). unfold nrm2 in D6. apply Rnot_lt_le. intros G.
      assert (0 < a * cl_gtd l) by (apply Rmult_lt_0_compat; lra). lra. }
    repeat (split; [auto; try lra; try lia; fail|]). split.
    - intros Hx. specialize (D6 Hx). specialize (G Hx). unfold cls_cond in C. apply andb_false_iff in C as [C|C].
      + apply andb_false_iff in C as [C|C].
        * apply Nat.ltb_ge in C. right; right. lia.
        * apply Rltb_false in C. right; left. assert (cl_gtd l = 0) by lra. rewrite H0 in D6. apply rdot_sub_eq0; [vl|].
          pose proof (rdot_pos (rsub (cl_x l) x)). unfold nrm2 in D6. lra.
      + left. destruct (Rleb_spec (cl_lim l) (cl_f l)); [discriminate|lra].
    - intros Ex z Lz Cz. apply D8; auto. rewrite Ex. unfold nrm2. rewrite rdot_sub_l by vl. ring.
  Qed.
End Search.

(** weak duality *)
Section Duality.
  Variables (n m : nat) (A T : vec -> vec) (b x : vec) (tau : R).
  Hypothesis AD : adjoint_ops n m A T.
  Hypothesis Lb : length b = m.
  Hypothesis Lx : length x = n.
  Notation r := (rsub b (A x)).
  Notation g := (ropp (T r)).
  Lemma LAx z : length z = n -> length (A z) = m. Proof. apply AD. Qed.
  Lemma gap_eq : rdot r (rsub r b) = rdot g x.
  Proof.
    pose proof (LAx _ Lx) as L. destruct AD as [_ [HT Hadj]]. replace (rsub r b) with (ropp (A x)) by veq.
    rewrite rdot_opp_r, rdot_opp_l, (rdot_sym r), Hadj by vl. f_equal. apply rdot_sym.
  Qed.
  Lemma gap_nonneg : nrm1 x <= tau -> 0 <= rdot r (rsub r b) + tau * nrminf g.
  Proof.
    intros Ht. rewrite gap_eq. pose proof (holder g x) as H. pose proof (nrminf_pos g).
    pose proof (Rle_abs (- rdot g x)) as H1. rewrite Rabs_Ropp in H1.
    pose proof (Rmult_le_compat_l (nrminf g) (nrm1 x) tau ltac:(lra) Ht). lra.
  Qed.
  Lemma misfit_expand z : length z = n -> misfit A b z = misfit A b x + rdot g (rsub z x) + / 2 * nrm2 (A (rsub z x)).
  Proof.
    intros Lz. pose proof (LAx _ Lx) as L1. pose proof (LAx _ Lz) as L2. destruct AD as [HA [HT Hadj]].
    assert (E : A (rsub z x) = rsub (A z) (A x)) by (apply linear_sub with (n := n) (m := m); auto).
    assert (L3 : length (T r) = n) by (apply HT; vl).
    rewrite rdot_opp_l, (rdot_sym (T r)), <- Hadj by vl. rewrite E. unfold misfit, nrm2.
    replace (rsub b (A z)) with (rsub r (rsub (A z) (A x))) by veq.
    set (u := rsub (A z) (A x)) in *. assert (Lu : length u = m) by (unfold u; vl).
    assert (Lr : length r = m) by vl. generalize dependent r. intros w _ Lw.
    rewrite (rdot_sub_l w u) by vl. rewrite !rdot_sub_r by vl.
    rewrite (rdot_sym u w). lra.
  Qed.
  Lemma lasso_gap z : length z = n -> nrm1 z <= tau ->
    misfit A b x - misfit A b z <= rdot r (rsub r b) + tau * nrminf g.
  Proof.
    intros Lz Hz. rewrite gap_eq, (misfit_expand z Lz). pose proof (rdot_pos (A (rsub z x))). unfold nrm2.
    assert (LT : length (T r) = n) by (pose proof (LAx _ Lx); apply AD; vl).
    rewrite rdot_sub_r by vl. pose proof (holder g z) as H1. pose proof (Rle_abs (- rdot g z)) as H2. rewrite Rabs_Ropp in H2.
    pose proof (nrminf_pos g). pose proof (Rmult_le_compat_l (nrminf g) (nrm1 z) tau ltac:(lra) Hz). lra.
  Qed.
  Lemma stationary : (forall z, length z = n -> nrm1 z <= tau -> 0 <= rdot g (rsub z x)) -> nrm1 x <= tau -> lasso_solution n A b tau x.
  Proof.
    intros H Hx. repeat split; auto. intros z Lz Hz. rewrite (misfit_expand z Lz). specialize (H z Lz Hz).
    pose proof (rdot_pos (A (rsub z x))). unfold nrm2. lra.
  Qed.
  (** the Newton update never overshoots by more than the duality gap *)
  Lemma newton_bound sigma z : 0 < nrminf g -> fits n A b sigma z ->
    tau + (nrm r * (nrm r - sigma) - (rdot r (rsub r b) + tau * nrminf g)) / nrminf g <= nrm1 z.
  Proof.
    intros Hg [Lz Fz]. pose proof (LAx _ Lx) as L1. pose proof (LAx _ Lz) as L2.
    assert (E : nrm r * (nrm r - sigma) - rdot r (rsub r b) <= nrminf g * nrm1 z).
    { replace (rdot r (rsub r b)) with (nrm r * nrm r - rdot r b) by (rewrite rdot_sub_r, nrm_sq by vl; ring).
      pose proof (cauchy r (rsub b (A z))) as C. pose proof (nrm_pos r).
      pose proof (Rmult_le_compat_l (nrm r) _ _ ltac:(lra) Fz). pose proof (Rle_abs (rdot r (rsub b (A z)))).
      assert (Q : rdot r (A z) = - rdot g z).
      { destruct AD as [_ [HT Hadj]]. rewrite rdot_opp_l, rdot_sym, Hadj by vl. rewrite (rdot_sym z). ring. }
      pose proof (holder g z) as Q1. pose proof (Rle_abs (- rdot g z)) as Q3. rewrite Rabs_Ropp in Q3.
      assert (Q2 : rdot r (rsub b (A z)) = rdot r b - rdot r (A z)) by (apply rdot_sub_r; vl). lra. }
    apply Rmult_le_reg_r with (nrminf g); [auto|]. unfold Rdiv.
    replace ((tau + (nrm r * (nrm r - sigma) - (rdot r (rsub r b) + tau * nrminf g)) * / nrminf g) * nrminf g)
      with (nrm r * (nrm r - sigma) - rdot r (rsub r b)) by (field; lra). lra.
  Qed.
End Duality.
