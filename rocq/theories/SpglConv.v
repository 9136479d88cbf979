(** The l1-constrained least squares solver of SPGL1 converges. *)
From Coq Require Import ZArith List Arith Bool Lia Reals Lra Psatz.
From Verif Require Import Vec RVec RMat Loop LoopLemmas SolverSpec SolverLemmas OptSpec OptModel OptProofs OptProofs2 SelModel SelProofs SpgModel FomProofs2 SpglModel SpglSpec SpglProofs SpglProofs2 SpgConv L1RecSpec L1RecProofs EigenProofs SeqSpec SeqProofs SpglProofs4 ConvProofs2 ConvProofs3.
Import ListNotations.
Set Implicit Arguments.
Unset Strict Implicit.
Local Open Scope R_scope.

(** *** the projection arc *)
Section Arc.
  Variables (n : nat) (tau : R) (x g : vec).
  Hypothesis Ht : 0 <= tau.
  Hypothesis Lx : length x = n.
  Hypothesis Lg : length g = n.
  Hypothesis Hx : nrm1 x <= tau.
  Notation P := spgl1_project_to_l1_ball.
  Definition arc (t : R) : vec := P (rsub x (rscale t g)) tau.
  Definition dir (t : R) : vec := rsub (arc t) x.
  Lemma arc_ok t : length (arc t) = n /\ nrm1 (arc t) <= tau /\ forall z, length z = n -> nrm1 z <= tau -> 0 <= rdot (dir t) (rsub z (arc t)) + t * rdot g (rsub z (arc t)).
  Proof.
    assert (Lv : length (rsub x (rscale t g)) = n) by vl. destruct (@vi_spgl1 n tau Ht _ Lv) as [Lp [Cp V]]. fold (arc t) in *.
    split; auto. split; auto. intros z Lz Cz. specialize (V z Lz Cz).
    assert (E : rsub (rsub x (rscale t g)) (arc t) = ropp (radd (dir t) (rscale t g))) by (unfold dir; veq).
    assert (Ld : length (dir t) = n) by (unfold dir; vl). rewrite E, rdot_opp_l, rdot_add_l, rdot_scale_l in V by vl. lra.
  Qed.
  Lemma dir_len t : length (dir t) = n.
  Proof. destruct (arc_ok t) as [L _]. unfold dir. vl. Qed.
  Lemma dir_descent t : nrm2 (dir t) <= - (t * rdot g (dir t)).
  Proof.
    destruct (arc_ok t) as [L [_ V]]. specialize (V x Lx Hx). assert (Ld := dir_len t).
    assert (E : rsub x (arc t) = ropp (dir t)) by (unfold dir; veq). rewrite E, !rdot_opp_r in V. unfold nrm2. lra.
  Qed.
  Lemma dir_le t : 0 <= t -> nrm (dir t) <= t * nrm g.
  Proof.
    intros T0. pose proof (dir_descent t) as D. pose proof (cauchy g (dir t)) as Cs. pose proof (Rle_abs (- rdot g (dir t))) as A. rewrite Rabs_Ropp in A.
    unfold nrm2 in D. rewrite <- nrm_sq in D. pose proof (nrm_pos (dir t)) as N. pose proof (nrm_pos g).
    assert (Q : nrm (dir t) * nrm (dir t) <= (t * nrm g) * nrm (dir t)). { assert (t * - rdot g (dir t) <= t * (nrm g * nrm (dir t))) by (apply Rmult_le_compat_l; lra). lra. }
    destruct (Rle_lt_or_eq_dec 0 (nrm (dir t)) N) as [Np|Nz]; [now apply Rmult_le_reg_r in Q|]. rewrite <- Nz. now apply Rmult_le_pos.
  Qed.
  (** the length of the step grows, its ratio to the step size falls *)
  Lemma arc_mono s t : 0 < s -> s <= t -> nrm (dir s) <= nrm (dir t) /\ s * nrm (dir t) <= t * nrm (dir s).
  Proof.
    intros Hs Hst. destruct (arc_ok s) as [Ls [Cs Vs]]. destruct (arc_ok t) as [Lt [Ct Vt]]. specialize (Vs _ Lt Ct). specialize (Vt _ Ls Cs).
    pose proof (dir_len s) as Ds. pose proof (dir_len t) as Dt.
    assert (E1 : rsub (arc t) (arc s) = rsub (dir t) (dir s)) by (unfold dir; veq). assert (E2 : rsub (arc s) (arc t) = rsub (dir s) (dir t)) by (unfold dir; veq).
    rewrite E1 in Vs. rewrite E2 in Vt. rewrite !rdot_sub_r in Vs, Vt by vl. rewrite (rdot_sym (dir t) (dir s)) in Vt.
    pose proof (nrm_sq (dir s)) as Qs. pose proof (nrm_sq (dir t)) as Qt. pose proof (cauchy (dir s) (dir t)) as Cc. pose proof (Rle_abs (rdot (dir s) (dir t))) as Ca.
    set (a := nrm (dir t)) in *. set (c := nrm (dir s)) in *. pose proof (nrm_pos (dir t)) as Pa. pose proof (nrm_pos (dir s)) as Pc. fold a in Pa. fold c in Pc.
    set (w := rdot (dir s) (dir t)) in *. set (gs := rdot g (dir s)) in *. set (gt := rdot g (dir t)) in *.
    assert (K : s * (a * a) - (s + t) * w + t * (c * c) <= 0).
    { rewrite Qs, Qt. assert (A1 : 0 <= t * (w - rdot (dir s) (dir s) + s * (gt - gs))) by (apply Rmult_le_pos; lra).
      assert (A2 : 0 <= s * (w - rdot (dir t) (dir t) + t * (gs - gt))) by (apply Rmult_le_pos; lra). lra. }
    assert (W : w <= c * a) by lra. assert (K2 : (a - c) * (s * a - t * c) <= 0).
    { assert ((s + t) * w <= (s + t) * (c * a)) by (apply Rmult_le_compat_l; lra). lra. }
    assert (Q1 : c <= a). { destruct (Rle_lt_dec c a) as [|Hl]; auto. exfalso. assert (s * a - t * c < 0) by nra. assert (0 < (c - a) * (t * c - s * a)) by (apply Rmult_lt_0_compat; lra). lra. }
    split; auto. destruct (Rle_lt_or_eq_dec c a Q1) as [Hl|He]; [|rewrite He; nra].
    destruct (Rle_lt_dec (s * a) (t * c)) as [|Hl2]; auto. exfalso. assert (0 < (a - c) * (s * a - t * c)) by (apply Rmult_lt_0_compat; lra). lra.
  Qed.
  Lemma arc_gap t z : 0 < t -> length z = n -> nrm1 z <= tau -> rdot g (rsub x z) <= / t * nrm (dir t) * (nrm (rsub x z) + nrm (dir t)) + nrm g * nrm (dir t).
  Proof.
    intros T0 Lz Cz. destruct (arc_ok t) as [L [_ V]]. specialize (V z Lz Cz). assert (Ld := dir_len t).
    assert (E : rsub z (arc t) = ropp (radd (rsub x z) (dir t))) by (unfold dir; veq). rewrite E, !rdot_opp_r in V.
    assert (Lxz : length (rsub x z) = n) by vl. rewrite (rdot_add_r g) in V by vl.
    pose proof (cauchy (dir t) (radd (rsub x z) (dir t))) as C1. pose proof (Rle_abs (- rdot (dir t) (radd (rsub x z) (dir t)))) as A1. rewrite Rabs_Ropp in A1.
    pose proof (cauchy g (dir t)) as C2. pose proof (Rle_abs (- rdot g (dir t))) as A2. rewrite Rabs_Ropp in A2.
    pose proof (nrm_triang (rsub x z) (dir t) ltac:(vl)) as Tr. pose proof (nrm_pos (dir t)) as N.
    assert (C3 : nrm (dir t) * nrm (radd (rsub x z) (dir t)) <= nrm (dir t) * (nrm (rsub x z) + nrm (dir t))) by (now apply Rmult_le_compat_l).
    assert (Q : t * (rdot g (rsub x z) + rdot g (dir t)) <= nrm (dir t) * (nrm (rsub x z) + nrm (dir t))) by lra.
    apply Rmult_le_compat_l with (r := / t) in Q; [|left; now apply Rinv_0_lt_compat]. rewrite <- Rmult_assoc, Rinv_l, Rmult_1_l in Q by lra.
    rewrite <- Rmult_assoc in Q. lra.
  Qed.
End Arc.

(** a lower bound of the step lengths of the search *)
Definition shrink_len (K u : R) : R := Rmin (1 / 2) (u / K) * u.
Fixpoint shrink_iter (K : R) (k : nat) (u : R) : R := match k with O => u | S k => shrink_len K (shrink_iter K k u) end.
Lemma shrink_len_mono K u v : 0 < K -> 0 <= u <= v -> 0 <= shrink_len K u <= shrink_len K v.
Proof.
  intros HK [U0 Uv]. assert (0 < / K) by now apply Rinv_0_lt_compat. assert (Q : u / K <= v / K) by (apply Rmult_le_compat_r; lra). assert (Q0 : 0 <= u / K) by (apply Rmult_le_pos; lra).
  unfold shrink_len. assert (M0 : 0 <= Rmin (1 / 2) (u / K)) by (apply Rmin_glb; lra). split; [now apply Rmult_le_pos|].
  apply Rmult_le_compat; auto. apply Rmin_glb; [apply Rmin_l|]. eapply Rle_trans; [apply Rmin_r|exact Q].
Qed.
Lemma shrink_len_half K u : 0 < K -> 0 <= u -> shrink_len K u <= 1 / 2 * u.
Proof. intros HK U0. unfold shrink_len. apply Rmult_le_compat_r; auto. apply Rmin_l. Qed.
Lemma shrink_iter_mono K k u v : 0 < K -> 0 <= u <= v -> 0 <= shrink_iter K k u <= shrink_iter K k v.
Proof. intros HK H. induction k; [exact H|]. cbn [shrink_iter]. now apply shrink_len_mono. Qed.
Lemma shrink_iter_dec K k m u : 0 < K -> 0 <= u -> (k <= m)%nat -> shrink_iter K m u <= shrink_iter K k u.
Proof.
  intros HK U0 H. induction H; [lra|]. cbn [shrink_iter]. assert (Q := @shrink_iter_mono K m u u HK ltac:(lra)). pose proof (@shrink_len_half K (shrink_iter K m u) HK ltac:(lra)). lra.
Qed.
Lemma shrink_iter_pos K k u : 0 < K -> 0 < u -> 0 < shrink_iter K k u.
Proof.
  intros HK U0. induction k; [exact U0|]. cbn [shrink_iter]. unfold shrink_len. apply Rmult_lt_0_compat; auto. apply Rmin_glb_lt; [lra|]. now apply Rdiv_lt_0_compat.
Qed.

Section Search.
  Variables (n m : nat) (A : vec -> vec) (b x g : vec) (al fmax tau gamma K : R).
  Hypothesis Lx : length x = n.
  Hypothesis Lg : length g = n.
  Hypothesis Hx : nrm1 x <= tau.
  Hypothesis Hal : 0 < al.
  Hypothesis Ht : 0 <= tau.
  Hypothesis HK : 0 < K.
  Hypothesis HKg : 2 ^ 11 * al * nrm g <= K.
  Notation P := spgl1_project_to_l1_ball.
  Notation cand := (cls_candidate A b x g al fmax P tau gamma).
  Notation Rch := (reaches cls_cond (cls_next A b x g al fmax P tau gamma) (cls_init A b x g al fmax P tau gamma)).
  Notation dd := (dir tau x g).
  Lemma cand_arc a sc dn it sf : cl_x (cand a sc dn it sf) = arc tau x g (a * sc * al) /\ cl_d (cand a sc dn it sf) = dd (a * sc * al) /\
    cl_alpha (cand a sc dn it sf) * cl_gtd (cand a sc dn it sf) = a * sc * al * rdot g (dd (a * sc * al)).
  Proof.
    assert (E : rsub x (rscale (a * sc) (cls_g g al)) = rsub x (rscale (a * sc * al) g)) by (unfold cls_g; veq).
    unfold cls_candidate. cbv zeta. cbn [cl_x cl_d cl_alpha cl_gtd]. rewrite E. split; [reflexivity|]. split; [reflexivity|]. unfold cls_g. rewrite rdot_scale_l. unfold dir, arc. ring.
  Qed.
  Lemma search_strong k s : Rch k s -> exists a sc dn sf, a = / 2 ^ k /\ 0 < sc <= 1 /\ (sf <= k)%nat /\ (k <= 10)%nat /\ s = cand a sc dn k sf /\
    shrink_iter K k (nrm (dd al)) <= nrm (dd (a * sc * al)).
  Proof.
    intros H. induction H as [|k s s' H IH C B].
    - exists 1, 1, 0, 0%nat. split; [cbn; lra|]. split; [lra|]. split; [lia|]. split; [lia|]. split; [reflexivity|]. cbn [shrink_iter]. rewrite !Rmult_1_l. lra.
    - destruct IH as [a [sc [dn [sf [Ek [Hs [Hsf [_ [E Hd]]]]]]]]]. unfold cls_next in B. cbv zeta in B. injection B as <-.
      unfold cls_cond in C. apply andb_prop in C as [C1 C2]. apply andb_prop in C1 as [C1 C3]. apply Rltb_true in C3. apply Nat.ltb_lt in C1.
      assert (Ei : cl_iters s = k) by now rewrite E. rewrite Ei in *. assert (Ea : cl_alpha s = a) by now rewrite E. assert (Esc : cl_scale s = sc) by now rewrite E. assert (Esf : cl_safe s = sf) by now rewrite E.
      destruct (cand_arc a sc dn k sf) as [Ex [Ed Eg]]. rewrite <- E in Ex, Ed, Eg. set (t := a * sc * al) in *.
      assert (A0 : 0 < a) by (rewrite Ek; apply Rinv_0_lt_compat, pow_lt; lra). assert (A1 : a <= 1).
      { rewrite Ek. rewrite <- Rinv_1. apply Rinv_le_contravar; [lra|]. apply pow_R1_Rle. lra. }
      assert (T0 : 0 < t) by (unfold t; apply Rmult_lt_0_compat; [apply Rmult_lt_0_compat; lra|lra]).
      assert (Gd : rdot g (dd t) < 0). { rewrite Ea in Eg. assert (a * cl_gtd s < 0) by nra. rewrite Eg in H0. nra. }
      destruct (rdot_nonzero_l _ _ Gd) as [G1 G2]. rewrite Ed in *. rewrite Ea, Esc, Esf.
      assert (N2 : 0 < cls_n2 x). { unfold cls_n2. apply sqrt_lt_R0, lt_0_INR. destruct x; [|cbn; lia]. exfalso. cbn in Lx. destruct g; [|cbn in Lg; lia]. cbn in G1. unfold nrm, rdot in G1. cbn in G1. rewrite sqrt_0 in G1. lra. }
      assert (Ek2 : a / 2 = / 2 ^ S k) by (rewrite Ek; cbn [pow]; field; apply pow_nonzero; lra).
      set (u := nrm (dd t)) in *. assert (Hu : 0 <= shrink_iter K k (nrm (dd al)) <= u) by (split; [apply (@shrink_iter_mono K k _ _ HK (conj (nrm_pos (dd al)) (Rle_refl _)))|exact Hd]).
      assert (Key : forall sc', 0 < sc' <= sc -> Rmin (1 / 2) (u / K) * sc <= 1 / 2 * sc' -> shrink_len K (shrink_iter K k (nrm (dd al))) <= nrm (dd (a / 2 * sc' * al))).
      { intros sc' Hsc Hr. eapply Rle_trans; [apply (@shrink_len_mono K _ _ HK Hu)|]. set (t' := a / 2 * sc' * al).
        assert (T1 : 0 < t') by (unfold t'; repeat apply Rmult_lt_0_compat; lra). assert (T2 : t' <= t).
        { unfold t', t. apply Rmult_le_compat_r; [lra|]. apply Rmult_le_compat; lra. }
        destruct (@arc_mono n tau x g Ht Lx Lg t' t T1 T2) as [_ M]. fold u in M.
        apply Rmult_le_reg_l with t; auto. eapply Rle_trans; [|exact M]. unfold shrink_len. rewrite <- Rmult_assoc. apply Rmult_le_compat_r; [lra|].
        unfold t, t'. replace (a * sc * al * Rmin (1 / 2) (u / K)) with (a * al * (Rmin (1 / 2) (u / K) * sc)) by ring. replace (a / 2 * sc' * al) with (a * al * (1 / 2 * sc')) by field.
        apply Rmult_le_compat_l; [apply Rmult_le_pos; lra|exact Hr]. }
      match goal with |- context[if ?c then _ else sc] => destruct c end.
      + set (sc' := u / cls_n2 x / cls_g_norm x g al / 2 ^ sf). assert (P2 : 0 < 2 ^ sf) by (apply pow_lt; lra).
        assert (Es : sc' = u / (al * nrm g * 2 ^ sf)).
        { unfold sc', cls_g_norm, cls_g. rewrite nrm_scale, (Rabs_pos_eq al) by lra. field. repeat split; lra. }
        assert (Pg : 0 < al * nrm g) by (now apply Rmult_lt_0_compat). assert (Pgs : 0 < al * nrm g * 2 ^ sf) by (now apply Rmult_lt_0_compat).
        assert (S0 : 0 < sc') by (rewrite Es; now apply Rdiv_lt_0_compat).
        assert (S1 : sc' <= sc).
        { rewrite Es. apply Rmult_le_reg_r with (al * nrm g * 2 ^ sf); auto. unfold Rdiv. rewrite Rmult_assoc, Rinv_l, Rmult_1_r by lra.
          pose proof (@dir_le n tau x g Ht Lx Lg Hx t ltac:(lra)) as Q. fold u in Q. eapply Rle_trans; [exact Q|]. unfold t.
          assert (1 <= 2 ^ sf) by (apply pow_R1_Rle; lra). replace (a * sc * al * nrm g) with (sc * (al * nrm g * a)) by ring. apply Rmult_le_compat_l; [lra|]. apply Rmult_le_compat_l; lra. }
        exists (a / 2), sc', (u / cls_n2 x), (S sf). split; [exact Ek2|]. split; [lra|]. split; [lia|]. split; [lia|]. split; [reflexivity|]. cbn [shrink_iter]. apply Key; [lra|].
        apply Rle_trans with (u / K * 1).
        * apply Rmult_le_compat; [apply Rmin_glb; [lra|apply Rmult_le_pos; [lra|left; now apply Rinv_0_lt_compat]]|lra|apply Rmin_r|lra].
        * rewrite Rmult_1_r, Es. replace (1 / 2 * (u / (al * nrm g * 2 ^ sf))) with (u / (2 * (al * nrm g * 2 ^ sf))) by (field; lra).
          apply Rmult_le_compat_l; [lra|]. apply Rinv_le_contravar; [lra|]. eapply Rle_trans; [|exact HKg].
          assert (2 ^ sf <= 2 ^ 10) by (apply Rle_pow; [lra|lia]). replace (2 * (al * nrm g * 2 ^ sf)) with (2 * (al * nrm g) * 2 ^ sf) by ring. replace (2 ^ 11 * al * nrm g) with (2 * (al * nrm g) * 2 ^ 10) by (cbn [pow]; ring).
          apply Rmult_le_compat_l; lra.
      + exists (a / 2), sc, (u / cls_n2 x), sf. split; [exact Ek2|]. split; [lra|]. split; [lia|]. split; [lia|]. split; [reflexivity|]. cbn [shrink_iter]. apply Key; [lra|].
        apply Rmult_le_compat_r; [lra|apply Rmin_l].
  Qed.
End Search.

Lemma nrminf_attained (v : vec) : v <> [] -> exists i, (i < length v)%nat /\ Rabs (v@i) = nrminf v.
Proof.
  induction v as [|a v IH]; [congruence|]. intros _. destruct v as [|c v].
  - exists 0%nat. split; [cbn; lia|]. cbn. pose proof (Rabs_pos a). rewrite Rmax_left; lra.
  - destruct IH as [i [Hi Ei]]; [congruence|]. change (nrminf (a :: c :: v)) with (Rmax (Rabs a) (nrminf (c :: v))). unfold Rmax. destruct (Rle_dec (Rabs a) (nrminf (c :: v))) as [Q|Q].
    + exists (S i). split; [cbn in *; lia|exact Ei].
    + exists 0%nat. split; [cbn; lia|reflexivity].
Qed.
Lemma nrm1_coord n i : (i < n)%nat -> nrm1 (coordinate n i) = 1.
Proof.
  intros Hi. rewrite (@nrm1_sum n) by apply coord_len. rewrite (@rsum_single n i); auto.
  - unfold coordinate. rewrite nth_tab, Nat.eqb_refl by auto. now rewrite Rabs_R1.
  - intros j Hj Hne. unfold coordinate. rewrite nth_tab by auto. apply Nat.eqb_neq in Hne. rewrite Hne. apply Rabs_R0.
Qed.
(** the l1 ball attains the dual norm *)
Lemma dual_attained n tau g : 0 <= tau -> length g = n -> exists z, length z = n /\ nrm1 z <= tau /\ rdot g z = - (tau * nrminf g).
Proof.
  intros T0 Lg. destruct g as [|a g].
  - exists []. cbn in *. split; auto. split; [exact T0|]. unfold rdot. cbn. ring.
  - destruct (@nrminf_attained (a :: g) ltac:(congruence)) as [i [Hi Ei]]. rewrite Lg in Hi. set (v := a :: g) in *. pose proof (@coord_len n i) as Lc.
    exists (rscale (if Rle_dec 0 (v@i) then - tau else tau) (coordinate n i)). split; [vl|]. split.
    + rewrite nrm1_rscale, nrm1_coord by auto. destruct (Rle_dec 0 (v@i)); [rewrite Rabs_Ropp|]; rewrite Rabs_pos_eq; lra.
    + rewrite rdot_scale_r, (rdot_sym v), (coord_dot Lg Hi), <- Ei. destruct (Rle_dec 0 (v@i)) as [Q|Q]; [rewrite Rabs_pos_eq by auto; ring|]. rewrite Rabs_left by lra. ring.
Qed.
Lemma lasso_exists n m A T b tau : adjoint_ops n m A T -> length b = m -> 0 <= tau -> exists q, lasso_solution n A b tau q.
Proof.
  intros AD Lb T0. assert (Z : nrm1 (rzero n) <= tau) by (rewrite nrm1_zero; auto).
  destruct (@attains n (fun x => nrm1 x <= tau) (misfit A b)) with (x0 := rzero n) (c := 0) (B := tau) as [q Hq]; auto.
  - apply ball_closed.
  - intros l Ll. exists (nrm (ropp (T (rsub b (A l))))). split; [apply nrm_pos|]. intros x Lx. rewrite (@misfit_expand n m A T b l AD Lb Ll x Lx).
    pose proof (cauchy (ropp (T (rsub b (A l)))) (rsub x l)) as Cs. pose proof (Rle_abs (- rdot (ropp (T (rsub b (A l)))) (rsub x l))) as Ab. rewrite Rabs_Ropp in Ab. pose proof (rdot_pos (A (rsub x l))). unfold nrm2. lra.
  - apply rzero_len.
  - intros z Lz _. unfold misfit. pose proof (rdot_pos (rsub b (A z))). unfold nrm2. lra.
  - intros z Lz Dz _. eapply Rle_trans; [apply nrm_le_nrm1|exact Dz].
  - exists q. destruct Hq as [Lq [Dq Hq]]. split; auto.
Qed.

Section LConv.
  Variables (n m : nat) (A T : vec -> vec) (b : vec) (tau : R) (opt : spgl1_options) (x0 : vec).
  Hypothesis AD : adjoint_ops n m A T.
  Hypothesis Lb : length b = m.
  Hypothesis Lx0 : length x0 = n.
  Hypothesis Ht : 0 <= tau.
  Hypothesis Hamin : 0 < go_alpha_min opt.
  Hypothesis Hamax : go_alpha_min opt <= go_alpha_max opt.
  Hypothesis Hmem : (1 <= go_memory opt)%nat.
  Hypothesis Hgam : 0 < go_gamma opt.
  Variable L : R.
  Hypothesis HL0 : 0 <= L.
  Hypothesis HL : forall v, length v = n -> nrm2 (A v) <= L * nrm2 v.
  Notation gr x := (ropp (T (rsub b (A x)))).
  Variable G : R.
  Hypothesis HG : forall x, length x = n -> nrm1 x <= tau -> nrm (gr x) <= G.
  Notation cond := (lasso_cond b opt).
  Notation body := (lasso_body A T b tau opt).
  Notation init := (lasso_init A T b tau opt x0).
  Notation Rch := (reaches cond body init).
  Hypothesis HLa : go_alpha_max opt * (L / 2 + go_gamma opt) <= 2 ^ 10 \/
    forall k s s', Rch k s -> cond s = true -> body s = Some s' -> (la_ls_iters s' < la_ls_iters s + 10)%nat.
  Notation f x := (misfit A b x).
  Notation K := (2 ^ 11 * go_alpha_max opt * G + 1).
  Definition step_len (s : lasso_state) : R := nrm (dir tau (la_x s) (la_g s) (la_alpha_next s)).
  Lemma G_pos : 0 <= G.
  Proof. destruct (@vi_spgl1 n tau Ht x0 Lx0) as [L1 [C1 _]]. pose proof (HG L1 C1) as Q. pose proof (nrm_pos (gr (spgl1_project_to_l1_ball x0 tau))). lra. Qed.
  Lemma K_pos : 0 < K.
  Proof. pose proof G_pos. assert (0 <= 2 ^ 11 * go_alpha_max opt * G) by (apply Rmult_le_pos; [|auto]; apply Rmult_le_pos; lra). lra. Qed.
  Lemma lasso_step_decrease k s s' : Rch k s -> cond s = true -> lasso_ok n A T b tau opt s -> f (la_x s) <= vmax (la_f_past s) -> body s = Some s' ->
    exists v, shrink_iter K 10 (step_len s) <= v <= step_len s /\ 0 <= v /\ f (la_x s') <= vmax (la_f_past s) - go_gamma opt * (v * v) /\ f (la_x s') <= f (la_x s) + L / 2 * (step_len s * step_len s).
  Proof.
    intros Rs Cs I Hf B. pose proof I as [Lx [Hx [Er [Eg [En [Egap [Hal Ent]]]]]]]. pose proof B as B0.
    pose proof (@LAx n m A T AD _ Lx) as LAx1. assert (Lg : length (la_g s) = n) by (rewrite Eg, Er; assert (length (T (rsub b (A (la_x s)))) = n) by (apply AD; vl); vl).
    unfold lasso_body in B. cbv zeta in B.
    destruct (curvy_line_search _ _ _ _ _ _ _ _ _) as [l| |] eqn:W; try discriminate.
    destruct (@search_result n A b (la_x s) (la_g s) (la_alpha_next s) (vmax (la_f_past s)) tau (go_gamma opt) Lx Lg ltac:(lra) Ht l W)
      as [Q1 [Q2 [Q3 [Q4 [Q5 [Q6 [Q7 [Q10 [Q8 [Q9 [Q11 Q12]]]]]]]]]]]. specialize (Q9 Hx). specialize (Q11 Hx).
    rewrite Q3, Q4 in B. destruct (lasso_metrics _ _ _ _ _) as [r1 r2]. injection B as <-. cbn [la_x].
    pose proof W as W'. apply while_done in W' as [i [_ [Hr _]]]. pose proof K_pos as KP.
    assert (HKg : 2 ^ 11 * la_alpha_next s * nrm (la_g s) <= K).
    { assert (Ng : nrm (la_g s) <= G) by (rewrite Eg, Er; now apply HG). pose proof (nrm_pos (la_g s)).
      assert (2 ^ 11 * la_alpha_next s * nrm (la_g s) <= 2 ^ 11 * go_alpha_max opt * G); [|lra]. apply Rmult_le_compat; auto; [apply Rmult_le_pos; lra|]. apply Rmult_le_compat_l; lra. }
    destruct (@search_strong n A b (la_x s) (la_g s) (la_alpha_next s) (vmax (la_f_past s)) tau (go_gamma opt) K Lx Lg Hx ltac:(lra) Ht KP HKg i l Hr) as [a [sc [dn [sf [Ek [Hs [Hsf [Hk10 [E Hd]]]]]]]]].
    assert (A0 : 0 < a) by (rewrite Ek; apply Rinv_0_lt_compat, pow_lt; lra). assert (A1 : a <= 1).
    { rewrite Ek. rewrite <- Rinv_1. apply Rinv_le_contravar; [lra|]. apply pow_R1_Rle. lra. }
    set (t := a * sc * la_alpha_next s) in *. assert (T0 : 0 < t) by (unfold t; repeat apply Rmult_lt_0_compat; lra).
    assert (Asc : a * sc <= a) by nra. assert (T1 : t <= la_alpha_next s) by (unfold t; assert (a * sc * la_alpha_next s <= 1 * la_alpha_next s) by (apply Rmult_le_compat_r; lra); lra).
    destruct (@cand_arc n A b (la_x s) (la_g s) (la_alpha_next s) (vmax (la_f_past s)) tau (go_gamma opt) Lx Lg a sc dn i sf) as [Ex _]. rewrite <- E in Ex. fold t in Ex.
    assert (Edir : rsub (cl_x l) (la_x s) = dir tau (la_x s) (la_g s) t) by (rewrite Ex; reflexivity).
    pose proof (@dir_descent n tau (la_x s) (la_g s) Ht Lx Lg Hx t) as Dd. pose proof (@arc_mono n tau (la_x s) (la_g s) Ht Lx Lg t _ T0 T1) as [M1 _].
    pose proof (@dir_len n tau (la_x s) (la_g s) Ht Lx Lg t) as Ld.
    rewrite Edir in Q9. set (d := dir tau (la_x s) (la_g s) t) in *. unfold nrm2 in Dd, Q9. rewrite <- nrm_sq in Dd, Q9. fold (step_len s) in M1, Hd. set (v := nrm d) in *. assert (V0 : 0 <= v) by apply nrm_pos.
    assert (Ef : f (cl_x l) <= f (la_x s) + rdot (la_g s) d + L / 2 * (v * v)).
    { rewrite (@misfit_expand n m A T b (la_x s) AD Lb Lx _ Q1), Edir. rewrite Eg, Er. pose proof (HL Ld) as HLd. unfold nrm2 at 2 in HLd. rewrite <- nrm_sq in HLd. fold v in HLd. lra. }
    assert (Pvv : 0 <= v * v) by nra. assert (Gd : rdot (la_g s) d <= 0) by nra.
    exists v. split; [split; [|exact M1]|].
    { eapply Rle_trans; [|exact Hd]. apply shrink_iter_dec; auto. apply nrm_pos. }
    split; auto. split.
    - destruct Q11 as [Q|[Q|Q]].
      + rewrite Q4, Q10 in Q. pose proof (Rmult_le_compat_l (go_gamma opt) _ _ ltac:(lra) Q9). lra.
      + assert (Z : v = 0). { unfold v. rewrite <- Edir, Q. unfold nrm. rewrite rdot_sub_l by vl. rewrite Rminus_diag_eq by reflexivity. apply sqrt_0. }
        rewrite Z, Q. lra.
      + assert (Ei : cl_iters l = i) by now rewrite E. destruct HLa as [HLa'|HLa']; [|specialize (HLa' _ _ _ Rs Cs B0); cbn [la_ls_iters] in HLa'; lia]. rewrite Ei in Q. subst i.
        assert (T2 : t * (L / 2 + go_gamma opt) <= 1).
        { assert (t <= a * go_alpha_max opt). { unfold t. apply Rmult_le_compat; try lra. apply Rmult_le_pos; lra. }
          assert (t * (L / 2 + go_gamma opt) <= a * go_alpha_max opt * (L / 2 + go_gamma opt)) by (apply Rmult_le_compat_r; lra).
          assert (a * (go_alpha_max opt * (L / 2 + go_gamma opt)) <= a * 2 ^ 10) by (apply Rmult_le_compat_l; lra). assert (a * 2 ^ 10 = 1) by (rewrite Ek; apply Rinv_l; apply pow_nonzero; lra). lra. }
        assert (T3 : (L / 2 + go_gamma opt) * (v * v) <= - rdot (la_g s) d).
        { apply Rmult_le_reg_l with t; auto. rewrite <- Rmult_assoc. apply Rle_trans with (1 * (v * v)); [apply Rmult_le_compat_r; lra|lra]. }
        lra.
    - assert (v * v <= step_len s * step_len s) by (apply Rmult_le_compat; lra). assert (L / 2 * (v * v) <= L / 2 * (step_len s * step_len s)) by (apply Rmult_le_compat_l; lra). lra.
  Qed.
  (** the duality gap is small when the step is *)
  Lemma gap_len s : lasso_ok n A T b tau opt s -> rdot (la_r s) (rsub (la_r s) b) + tau * nrminf (la_g s) <= step_len s * (/ go_alpha_min opt * (2 * tau + step_len s) + G).
  Proof.
    intros [Lx [Hx [Er [Eg [_ [_ [Hal _]]]]]]]. pose proof (@LAx n m A T AD _ Lx) as LAx1. assert (Lg : length (la_g s) = n) by (rewrite Eg, Er; assert (length (T (rsub b (A (la_x s)))) = n) by (apply AD; vl); vl).
    destruct (dual_attained Ht Lg) as [z [Lz [Hz Ez]]]. rewrite Er, (@gap_eq n m A T b _ AD Lb Lx), <- Er, <- Eg.
    pose proof (@arc_gap n tau (la_x s) (la_g s) Ht Lx Lg _ z ltac:(instantiate (1 := la_alpha_next s); lra) Lz Hz) as Q. fold (step_len s) in Q.
    assert (Nx : nrm (rsub (la_x s) z) <= 2 * tau).
    { assert (E : rsub (la_x s) z = radd (la_x s) (ropp z)) by veq. rewrite E. pose proof (nrm_triang (la_x s) (ropp z) ltac:(vl)) as Tr. rewrite nrm_opp in Tr. pose proof (nrm_le_nrm1 (la_x s)). pose proof (nrm_le_nrm1 z). lra. }
    assert (Ng : nrm (la_g s) <= G) by (rewrite Eg, Er; now apply HG). assert (U0 : 0 <= step_len s) by apply nrm_pos. pose proof (nrm_pos (rsub (la_x s) z)) as P1.
    assert (I1 : / la_alpha_next s <= / go_alpha_min opt) by (apply Rinv_le_contravar; lra). assert (I0 : 0 < / la_alpha_next s) by (apply Rinv_0_lt_compat; lra).
    rewrite rdot_sub_r, Ez in Q by vl.
    assert (B1 : / la_alpha_next s * step_len s * (nrm (rsub (la_x s) z) + step_len s) <= / go_alpha_min opt * step_len s * (2 * tau + step_len s)).
    { apply Rmult_le_compat; try lra; [apply Rmult_le_pos; lra|]. apply Rmult_le_compat_r; lra. }
    assert (B2 : nrm (la_g s) * step_len s <= G * step_len s) by (apply Rmult_le_compat_r; lra). lra.
  Qed.
  Lemma newest k s : Rch k s -> f (la_x s) <= vmax (la_f_past s) /\ length (la_f_past s) = go_memory opt.
  Proof.
    intros H. pose proof (@lasso_memory n m A T b tau opt x0 AD Lb Lx0 Ht Hamin Hamax k s H) as E. assert (Lf : length (la_f_past s) = go_memory opt) by (rewrite E; apply tab_length). split; auto.
    assert (Ef : (la_f_past s)@0 = f (la_x s)) by (rewrite E, nth_tab by lia; now rewrite Nat.sub_0_r, (reaches_traj H)).
    rewrite <- Ef. apply vmax_spec; [intros E0; rewrite E0 in Lf; simpl in Lf; lia|]. apply nth_In. lia.
  Qed.
  Variables (q : vec) (eps u0 : R).
  Hypothesis Hq : lasso_solution n A b tau q.
  Hypothesis He : 0 < eps.
  Hypothesis Hu0 : 0 < u0.
  Hypothesis Hug : forall u, 0 <= u <= u0 -> u * (/ go_alpha_min opt * (2 * tau + u) + G) + L / 2 * (u * u) <= eps.
  Definition lasso_dl : R := go_gamma opt * (shrink_iter K 10 u0 * shrink_iter K 10 u0).
  Lemma lasso_dl_pos : 0 < lasso_dl.
  Proof. assert (0 < shrink_iter K 10 u0) by (apply shrink_iter_pos; auto; apply K_pos). unfold lasso_dl. apply Rmult_lt_0_compat; auto. now apply Rmult_lt_0_compat. Qed.
  Lemma big_step s v : u0 <= step_len s -> shrink_iter K 10 (step_len s) <= v -> lasso_dl <= go_gamma opt * (v * v).
  Proof.
    intros Hd Hv. pose proof (@shrink_iter_mono K 10 u0 (step_len s) K_pos ltac:(lra)) as M. unfold lasso_dl. apply Rmult_le_compat_l; [lra|]. apply Rmult_le_compat; lra.
  Qed.
  Lemma lasso_push k s s' : Rch k s -> cond s = true -> body s = Some s' -> f (la_x s') <= Rmax (f q + eps) (vmax (la_f_past s) - lasso_dl).
  Proof.
    intros H Cd B. destruct (@lasso_reach n m A T b tau opt x0 AD Lb Lx0 Ht Hamin Hamax k s H) as [I _]. destruct (newest H) as [Hf _].
    destruct (lasso_step_decrease H Cd I Hf B) as [v [Hv [V0 [D1 D2]]]]. assert (U0 : 0 <= step_len s) by apply nrm_pos.
    destruct (Rle_lt_dec (step_len s) u0) as [Hd|Hd].
    - eapply Rle_trans; [|apply Rmax_l]. pose proof (gap_len I) as Gp. specialize (Hug (conj U0 Hd)). pose proof I as [Lx [Hx [Er [Eg _]]]]. destruct Hq as [Lq [Cq _]].
      pose proof (@lasso_gap n m A T b _ tau AD Lb Lx q Lq Cq) as Q. rewrite Eg, Er in Gp. lra.
    - eapply Rle_trans; [|apply Rmax_r]. pose proof (@big_step s v ltac:(lra) ltac:(lra)). lra.
  Qed.
  Let e0 := f (la_x init) - f q.
  Lemma lasso_mem k s : Rch k s -> mem_ok (go_memory opt) (level_ (f q) eps e0 lasso_dl) k (la_f_past s).
  Proof.
    intros H. induction H as [|k s s' H IH Cd Bd].
    - destruct (@lasso_init_ok n m A T b tau opt x0 AD Lb Lx0 Ht Hamax) as [_ [_ [_ [_ E]]]]. rewrite E. apply mem_init; auto. unfold level_, e0. cbn [INR].
      pose proof (Rmax_r eps (f (la_x init) - f q - 0 * lasso_dl)). lra.
    - destruct (@lasso_reach n m A T b tau opt x0 AD Lb Lx0 Ht Hamin Hamax k s H) as [I _].
      destruct (@lasso_step n m A T b tau opt x0 AD Lb Lx0 Ht Hamin Hamax s s' I Bd) as [_ [_ [_ [E _]]]]. destruct (newest H) as [_ Lf].
      rewrite E. unfold cbuf_push_left. destruct (la_f_past s) as [|p0 P] eqn:EP; [simpl in Lf; lia|]. rewrite <- EP in *.
      apply mem_push; auto; [left; apply lasso_dl_pos|]. eapply lasso_push; eauto.
  Qed.
  Lemma lasso_late J k s : e0 <= INR J * lasso_dl -> (go_memory opt * J + go_memory opt <= k)%nat -> Rch k s -> vmax (la_f_past s) <= f q + eps.
  Proof.
    intros HJ Hk H. eapply mem_late_max; [exact Hmem|left; apply lasso_dl_pos|lra|exact HJ|exact Hk|]. now apply lasso_mem.
  Qed.
End LConv.
Lemma grad_bounded n m A T b tau : adjoint_ops n m A T -> length b = m -> exists G, 0 <= G /\ forall x, length x = n -> nrm1 x <= tau -> nrm (ropp (T (rsub b (A x)))) <= G.
Proof.
  intros AD Lb. destruct (op_bounded AD) as [C [C0 HC]]. assert (AD' : adjoint_ops m n T A). { destruct AD as [H1 [H2 H3]]. split; auto. split; auto. intros x y Lx Ly. rewrite (rdot_sym (T x)), <- H3 by auto. apply rdot_sym. }
  destruct (op_bounded AD') as [C' [C0' HC']]. exists (C' * (nrm b + C * Rabs tau)). pose proof (nrm_pos b). pose proof (Rabs_pos tau).
  assert (0 <= C * Rabs tau) by (now apply Rmult_le_pos). split; [apply Rmult_le_pos; lra|].
  intros x Lx Hx. rewrite nrm_opp. pose proof (@LAx n m A T AD _ Lx) as LA. eapply Rle_trans; [apply HC'; vl|]. apply Rmult_le_compat_l; auto.
  assert (E : rsub b (A x) = radd b (ropp (A x))) by veq. rewrite E. eapply Rle_trans; [apply nrm_triang; vl|]. rewrite nrm_opp. apply Rplus_le_compat_l.
  eapply Rle_trans; [now apply HC|]. apply Rmult_le_compat_l; auto. pose proof (nrm_le_nrm1 x). pose proof (Rle_abs tau). lra.
Qed.
Lemma lasso_conv n m A T b tau x0 amin amax gam M L : adjoint_ops n m A T -> length b = m -> length x0 = n -> 0 <= tau -> 0 < amin -> amin <= amax -> (1 <= M)%nat -> 0 < gam ->
  0 <= L -> (forall v, length v = n -> nrm2 (A v) <= L * nrm2 v) ->
  forall q eps, lasso_solution n A b tau q -> 0 < eps -> exists N, forall opt k s,
    go_alpha_min opt = amin -> go_alpha_max opt = amax -> go_gamma opt = gam -> go_memory opt = M -> (N <= k)%nat ->
    (amax * (L / 2 + gam) <= 2 ^ 10 \/ forall k s s', reaches (lasso_cond b opt) (lasso_body A T b tau opt) (lasso_init A T b tau opt x0) k s ->
       lasso_cond b opt s = true -> lasso_body A T b tau opt s = Some s' -> (la_ls_iters s' < la_ls_iters s + 10)%nat) ->
    reaches (lasso_cond b opt) (lasso_body A T b tau opt) (lasso_init A T b tau opt x0) k s ->
    misfit A b (la_x s) <= misfit A b q + eps /\
    forall s', lasso_cond b opt s = true -> lasso_body A T b tau opt s = Some s' -> rdot (la_r s) (rsub (la_r s) b) + tau * nrminf (la_g s) <= eps.
Proof.
  intros AD Lb Lx0 T0 Ha1 Ha2 HM Hg L0 HL q eps Hq He. destruct (grad_bounded tau AD Lb) as [G [G0 HG]].
  assert (I0 : 0 < / amin) by now apply Rinv_0_lt_compat. set (c := / amin * (2 * tau + 1) + G + L / 2 + 1). assert (P1 : 0 <= / amin * (2 * tau + 1)) by (apply Rmult_le_pos; lra). assert (C0 : 0 < c) by (unfold c; lra).
  set (u0 := Rmin 1 (eps / c)). assert (U0 : 0 < u0) by (apply Rmin_glb_lt; [lra|now apply Rdiv_lt_0_compat]). assert (U1 : u0 <= 1) by apply Rmin_l. assert (Uc : u0 * c <= eps).
  { apply Rle_trans with (eps / c * c); [apply Rmult_le_compat_r; [lra|apply Rmin_r]|]. right. field. lra. }
  assert (Hug : forall u, 0 <= u <= u0 -> u * (/ amin * (2 * tau + u) + G) + L / 2 * (u * u) <= eps).
  { intros u [V0 V1]. apply Rle_trans with (u * c); [|eapply Rle_trans; [|exact Uc]; apply Rmult_le_compat_r; lra]. unfold c.
    assert (/ amin * (2 * tau + u) <= / amin * (2 * tau + 1)) by (apply Rmult_le_compat_l; lra).
    assert (L / 2 * (u * u) <= u * (L / 2)) by (replace (L / 2 * (u * u)) with (u * (L / 2 * u)) by ring; apply Rmult_le_compat_l; auto; assert (L / 2 * u <= L / 2 * 1) by (apply Rmult_le_compat_l; lra); lra).
    assert (u * (/ amin * (2 * tau + u) + G) <= u * (/ amin * (2 * tau + 1) + G)) by (apply Rmult_le_compat_l; lra). lra. }
  set (K := 2 ^ 11 * amax * G + 1). assert (KP : 0 < K) by (unfold K; assert (0 <= 2 ^ 11 * amax * G) by (apply Rmult_le_pos; [apply Rmult_le_pos; lra|auto]); lra).
  set (dl := gam * (shrink_iter K 10 u0 * shrink_iter K 10 u0)). assert (dl0 : 0 < dl) by (pose proof (shrink_iter_pos 10 KP U0); unfold dl; apply Rmult_lt_0_compat; auto; now apply Rmult_lt_0_compat).
  (* the memory is late for eps and for dl / 2 *)
  set (eps2 := Rmin eps (dl / 2)). assert (E2 : 0 < eps2) by (apply Rmin_glb_lt; lra).
  set (u2 := Rmin u0 (eps2 / c)). assert (U2 : 0 < u2) by (apply Rmin_glb_lt; [auto|now apply Rdiv_lt_0_compat]).
  assert (Hug2 : forall u, 0 <= u <= u2 -> u * (/ amin * (2 * tau + u) + G) + L / 2 * (u * u) <= eps2).
  { assert (U21 : u2 <= 1) by (eapply Rle_trans; [apply Rmin_l|exact U1]). assert (Uc2 : u2 * c <= eps2).
    { apply Rle_trans with (eps2 / c * c); [apply Rmult_le_compat_r; [lra|apply Rmin_r]|]. right. field. lra. }
    intros u [V0 V1]. apply Rle_trans with (u * c); [|eapply Rle_trans; [|exact Uc2]; apply Rmult_le_compat_r; lra]. unfold c.
    assert (/ amin * (2 * tau + u) <= / amin * (2 * tau + 1)) by (apply Rmult_le_compat_l; lra).
    assert (L / 2 * (u * u) <= u * (L / 2)) by (replace (L / 2 * (u * u)) with (u * (L / 2 * u)) by ring; apply Rmult_le_compat_l; auto; assert (L / 2 * u <= L / 2 * 1) by (apply Rmult_le_compat_l; lra); lra).
    assert (u * (/ amin * (2 * tau + u) + G) <= u * (/ amin * (2 * tau + 1) + G)) by (apply Rmult_le_compat_l; lra). lra. }
  set (dl2 := gam * (shrink_iter K 10 u2 * shrink_iter K 10 u2)). assert (dl20 : 0 < dl2) by (pose proof (shrink_iter_pos 10 KP U2); unfold dl2; apply Rmult_lt_0_compat; auto; now apply Rmult_lt_0_compat).
  set (f1 := misfit A b (spgl1_project_to_l1_ball x0 tau)). destruct (nat_above ((f1 - misfit A b q) / dl2)) as [J HJ].
  exists (M * J + M)%nat. intros opt k s E1 E3 E4 E5 Hk HLa H. subst amin amax gam M.
  assert (HJ' : misfit A b (la_x (lasso_init A T b tau opt x0)) - misfit A b q <= INR J * dl2).
  { assert (Ei : la_x (lasso_init A T b tau opt x0) = spgl1_project_to_l1_ball x0 tau) by (unfold lasso_init; cbv zeta; destruct (lasso_metrics _ _ _ _ _); reflexivity). rewrite Ei. fold f1.
    apply Rlt_le in HJ. apply Rmult_le_compat_r with (r := dl2) in HJ; [|lra]. replace ((f1 - misfit A b q) / dl2 * dl2) with (f1 - misfit A b q) in HJ by (field; lra). lra. }
  assert (Late : vmax (la_f_past s) <= misfit A b q + eps2). { eapply (@lasso_late n m A T b tau opt x0) with (L := L) (G := G) (u0 := u2) (J := J); eauto. }
  destruct (@newest n m A T b tau opt x0 AD Lb Lx0 T0 Ha1 Ha2 HM k s H) as [Hf _]. assert (E2e : eps2 <= eps) by apply Rmin_l. assert (E2d : eps2 <= dl / 2) by apply Rmin_r. split; [lra|].
  intros s' Cd B. destruct (@lasso_reach n m A T b tau opt x0 AD Lb Lx0 T0 Ha1 Ha2 k s H) as [I _].
  destruct (@lasso_step_decrease n m A T b tau opt x0 AD Lb Lx0 T0 Ha1 Ha2 HM Hg L L0 HL G HG HLa k s s' H Cd I Hf B) as [v [Hv [V0 [D1 _]]]].
  destruct (@lasso_step n m A T b tau opt x0 AD Lb Lx0 T0 Ha1 Ha2 s s' I B) as [[Lx' [Hx' _]] _]. destruct Hq as [Lq [Cq Mq]]. specialize (Mq _ Lx' Hx').
  destruct (Rle_lt_dec (step_len tau s) u0) as [Hd|Hd].
  - assert (S0 : 0 <= step_len tau s) by apply nrm_pos. eapply Rle_trans; [apply (@gap_len n m A T b tau opt x0) with (G := G); auto|]. specialize (Hug (step_len tau s) (conj S0 Hd)).
    assert (0 <= L / 2 * (step_len tau s * step_len tau s)) by (apply Rmult_le_pos; [lra|now apply Rmult_le_pos]). lra.
  - exfalso. pose proof (@shrink_iter_mono K 10 u0 (step_len tau s) KP ltac:(lra)) as Mo. fold K in Hv.
    assert (dl <= go_gamma opt * (v * v)); [|lra]. unfold dl. apply Rmult_le_compat_l; [lra|]. apply Rmult_le_compat; lra.
Qed.

(** *** a search that runs out of halvings accepts a worse point *)
Section Overshoot.
  Variables (c tau : R).
  Hypothesis Hc : 0 < c.
  Hypothesis Hct : c * 10 ^ 5 <= tau.
  Notation al := (10 ^ 5).
  Notation P := spgl1_project_to_l1_ball.
  Notation cand := (cls_candidate idv [0] [c] [c] al (/ 2 * (c * c)) P tau (/ 10 ^ 4)).
  Notation Rch := (reaches cls_cond (cls_next idv [0] [c] [c] al (/ 2 * (c * c)) P tau (/ 10 ^ 4)) (cls_init idv [0] [c] [c] al (/ 2 * (c * c)) P tau (/ 10 ^ 4))).
  Lemma cand_1d k dn : cand (/ 2 ^ k) 1 dn k 0 =
    CLSState (/ 2 ^ k) 1 [c - / 2 ^ k * al * c] [0 - (c - / 2 ^ k * al * c)] [- (/ 2 ^ k * al * c)] (- (al * c * (/ 2 ^ k * al * c))) dn (/ 2 * (c - / 2 ^ k * al * c) ^ 2) (/ 2 * (c * c) + / 10 ^ 4 * / 2 ^ k * - (al * c * (/ 2 ^ k * al * c))) k 0.
  Proof.
    assert (A0 : 0 < / 2 ^ k) by (apply Rinv_0_lt_compat, pow_lt; lra). assert (A1 : / 2 ^ k <= 1) by (rewrite <- Rinv_1; apply Rinv_le_contravar; [lra|]; apply pow_R1_Rle; lra).
    set (a := / 2 ^ k) in *. assert (Pr : P [c - a * 1 * (al * c)] tau = [c - a * al * c]).
    { assert (Cp : 0 < c * al) by (apply Rmult_lt_0_compat; lra). rewrite proj_in; [f_equal; ring|]. apply Rabs_le. assert (a * (c * al) <= 1 * (c * al)) by (apply Rmult_le_compat_r; lra).
      assert (0 <= a * (c * al)) by (apply Rmult_le_pos; lra). assert (c <= c * al) by lra. split; lra. }
    unfold cls_candidate, cls_g, obj_val, idv. cbv zeta. one_d. rewrite Pr. one_d.
    f_equal; try ring.
    - f_equal. ring.
    - rewrite Rabs_pos_eq by apply Rle_0_sqr. field.
  Qed.
  Lemma over_inv k s : Rch k s -> (k <= 10)%nat /\ exists dn, s = cand (/ 2 ^ k) 1 dn k 0 /\ (dn = 0 \/ dn = 2 * (/ 2 ^ k * al * c)).
  Proof.
    intros H. induction H as [|k s s' H [Hk [dn [E Ed]]] C B].
    - split; [lia|]. exists 0. split; auto. unfold cls_init. replace (/ 2 ^ 0) with 1 by (cbn; field). reflexivity.
    - assert (Hk1 : (k < 10)%nat). { unfold cls_cond in C. apply andb_prop in C as [C _]. apply andb_prop in C as [C _]. apply Nat.ltb_lt in C. rewrite E in C. exact C. }
      split; [lia|]. assert (D0 : 0 < / 2 ^ k * al * c) by (apply Rmult_lt_0_compat; auto; apply Rmult_lt_0_compat; [apply Rinv_0_lt_compat, pow_lt; lra|lra]).
      set (D := / 2 ^ k * al * c) in *. exists D. split.
      + rewrite E, cand_1d in B. unfold cls_next in B. cbv zeta in B. cbn [cl_alpha cl_d cl_d_norm_old cl_scale cl_safe cl_iters] in B. unfold cls_n2 in B. cbn [length INR] in B. rewrite sqrt_1 in B. revert B. one_d. fold D. rewrite Rabs_Ropp, (Rabs_pos_eq D) by lra. replace (D / 1) with D by field.
        destruct (Rleb_spec (Rabs (D - dn)) (/ 10 ^ 6 * D)) as [Q|Q].
        * exfalso. destruct Ed as [->| ->]; [rewrite Rabs_pos_eq in Q by lra|fold D in Q; rewrite Rabs_left in Q by lra]; lra.
        * intros B. injection B as <-. f_equal. cbn [pow]. field. apply pow_nonzero. lra.
      + right. unfold D. cbn [pow]. field. apply pow_nonzero. lra.
  Qed.
  Lemma overshoot : exists l, curvy_line_search idv [0] [c] [c] al (/ 2 * (c * c)) P tau (/ 10 ^ 4) = Done l /\ cl_x l = [c - / 2 ^ 10 * al * c] /\ cl_iters l = 10%nat.
  Proof.
    destruct (@search_total 1 idv [0] [c] [c] al (/ 2 * (c * c)) tau (/ 10 ^ 4) eq_refl eq_refl) as [l W]. exists l. split; auto.
    apply while_done in W as [k [_ [H C]]]. destruct (over_inv H) as [Hk [dn [E _]]]. rewrite cand_1d in E.
    destruct (Nat.eq_dec k 10) as [->|Hne]; [rewrite E; split; reflexivity|]. exfalso.
    assert (Hp : / 2 ^ 9 <= / 2 ^ k) by (apply Rinv_le_contravar; [apply pow_lt; lra|apply Rle_pow; [lra|lia]]). set (a := / 2 ^ k) in *.
    unfold cls_cond in C. rewrite E in C. cbn [cl_iters cl_gtd cl_lim cl_f] in C. replace (k <? 10)%nat with true in C by (symmetry; apply Nat.ltb_lt; lia).
    assert (Ha : 195 <= a * al) by lra. assert (N : 0 < al * c * (a * al * c)) by (repeat apply Rmult_lt_0_compat; lra).
    destruct (Rltb_spec (- (al * c * (a * al * c))) 0); [|lra]. cbn [andb] in C.
    match type of C with Rleb ?u ?v = false => destruct (Rleb_spec u v) as [Q|Q]; [discriminate|] end.
    assert (0 < / 10 ^ 4 * a * (al * c * (a * al * c))) by (apply Rmult_lt_0_compat; auto; apply Rmult_lt_0_compat; lra).
    replace ((c - a * al * c) ^ 2) with (c * c * (1 - a * al) ^ 2) in Q by ring. assert (1 <= (1 - a * al) ^ 2) by nra. assert (c * c * 1 <= c * c * (1 - a * al) ^ 2) by (apply Rmult_le_compat_l; nra). lra.
  Qed.
End Overshoot.
Lemma overshoot_run : exists s, reaches (lasso_cond [0] default_options) (lasso_body idv idv [0] 1000 default_options) (lasso_init idv idv [0] 1000 default_options [/ 10 ^ 6]) 1 s /\
  9000 * misfit idv [0] [/ 10 ^ 6] < misfit idv [0] (la_x s) /\ la_x (lasso_init idv idv [0] 1000 default_options [/ 10 ^ 6]) = [/ 10 ^ 6].
Proof.
  set (c := / 10 ^ 6). assert (C0 : 0 < c) by (unfold c; lra). assert (Ec : c = 1 / 1000000) by (unfold c; lra).
  assert (Pc : spgl1_project_to_l1_ball [c] 1000 = [c]) by (apply proj_in; rewrite Rabs_pos_eq; lra).
  assert (I0 : exists gap, lasso_init idv idv [0] 1000 default_options [c] = LassoState [c] [c] [- c] [/ 2 * (c * c); / 2 * (c * c); / 2 * (c * c)] c gap (10 ^ 5) (10 ^ 5) 1 1 1 0 /\ / 10 ^ 4 < gap).
  { unfold lasso_init, lasso_metrics, idv. cbv zeta. rewrite Pc. one_d. replace (0 - c) with (- c) by ring. rewrite Ropp_involutive. replace (c - c) with 0 by ring.
    rewrite proj_in by (rewrite Rabs_R0; lra). one_d. replace (0 - c) with (- c) by ring. rewrite !Rabs_Ropp, (Rabs_pos_eq c) by lra.
    unfold obj_val. one_d. rewrite (Rabs_pos_eq (- c * - c)) by nra. replace (1 / 2 * (- c * - c)) with (/ 2 * (c * c)) by field. cbn [go_memory default_options repeat go_alpha_min go_alpha_max].
    rewrite (Rmax_left 1 (/ 2 * (c * c))) by nra. replace (- c * (- c - 0) + 1000 * c) with (c * c + 1000 * c) by ring. rewrite (Rabs_pos_eq (c * c + 1000 * c)) by nra.
    unfold first_step. destruct (Reqb_spec c 0); [lra|]. unfold rclip. rewrite Rmax_right, Rmin_left; [|unfold c; lra|unfold c; lra]. exists ((c * c + 1000 * c) / 1). split; [reflexivity|]. nra. }
  destruct I0 as [gap [I0 Hg]]. rewrite I0.
  destruct (@overshoot c 1000 C0 ltac:(lra)) as [l [W [Ex Ei]]].
  assert (B : exists s, lasso_body idv idv [0] 1000 default_options (LassoState [c] [c] [- c] [/ 2 * (c * c); / 2 * (c * c); / 2 * (c * c)] c gap (10 ^ 5) (10 ^ 5) 1 1 1 0) = Some s /\ la_x s = [c - / 2 ^ 10 * 10 ^ 5 * c]).
  { unfold lasso_body. cbv zeta. cbn [la_f_past la_x la_g la_alpha_next la_n_times la_iterations la_ls_iters default_options go_gamma]. unfold vmax. cbn [fold_left]. rewrite !(Rmax_left (/ 2 * (c * c)) (/ 2 * (c * c))) by lra.
    rewrite W. destruct (lasso_metrics _ _ _ _ _). eexists. split; [reflexivity|]. exact Ex. }
  destruct B as [s [B Es]]. exists s. split; [|split].
  - econstructor; [constructor| |exact B]. unfold lasso_cond. cbn [la_iterations la_r_gap la_r_norm default_options go_max_iters go_opt_tol]. one_d. rewrite Rabs_R0.
    destruct (Rltb_spec (/ 10 ^ 4) gap); [|lra]. destruct (Rleb_spec (/ 10 ^ 4 * 0) c); [reflexivity|lra].
  - rewrite Es. unfold misfit, nrm2, idv. one_d. nra.
  - reflexivity.
Qed.
(** with a positive tolerance the duality gap ends the run *)
Lemma lasso_stops n m A T b tau x0 amin amax gam M L : adjoint_ops n m A T -> length b = m -> length x0 = n -> 0 <= tau -> 0 < amin -> amin <= amax -> (1 <= M)%nat -> 0 < gam ->
  0 <= L -> (forall v, length v = n -> nrm2 (A v) <= L * nrm2 v) ->
  forall tol, 0 < tol -> exists N, forall opt k s,
    go_alpha_min opt = amin -> go_alpha_max opt = amax -> go_gamma opt = gam -> go_memory opt = M -> tol <= go_opt_tol opt ->
    (amax * (L / 2 + gam) <= 2 ^ 10 \/ forall k s s', reaches (lasso_cond b opt) (lasso_body A T b tau opt) (lasso_init A T b tau opt x0) k s ->
       lasso_cond b opt s = true -> lasso_body A T b tau opt s = Some s' -> (la_ls_iters s' < la_ls_iters s + 10)%nat) ->
    reaches (lasso_cond b opt) (lasso_body A T b tau opt) (lasso_init A T b tau opt x0) k s -> (k <= N)%nat.
Proof.
  intros AD Lb Lx0 T0 Ha1 Ha2 HM Hg L0 HL tol Htol. destruct (lasso_exists AD Lb T0) as [q Hq].
  destruct (lasso_conv AD Lb Lx0 T0 Ha1 Ha2 HM Hg L0 HL Hq Htol) as [N HN]. exists N. intros opt k s E1 E2 E3 E4 Ho HLa H.
  destruct (Nat.le_gt_cases k N) as [|Hk]; auto. exfalso. destruct H as [|k s s' H Cd B]; [lia|].
  destruct (HN opt k s E1 E2 E3 E4 ltac:(lia) HLa H) as [_ Gp]. specialize (Gp s' Cd B). subst amin amax.
  destruct (@lasso_reach n m A T b tau opt x0 AD Lb Lx0 T0 Ha1 Ha2 k s H) as [[_ [_ [_ [_ [_ [Eg _]]]]]] _].
  unfold lasso_cond in Cd. apply andb_prop in Cd as [Cd _]. apply andb_prop in Cd as [_ Cd]. apply Rltb_true in Cd. rewrite Eg in Cd.
  pose proof (Rmax_l 1 (misfit A b (la_x s))) as R1. set (D := Rmax 1 (misfit A b (la_x s))) in *. set (w := rdot (la_r s) (rsub (la_r s) b) + tau * nrminf (la_g s)) in *.
  assert (w / D <= tol); [|lra]. apply Rmult_le_reg_r with D; [lra|]. unfold Rdiv. rewrite Rmult_assoc, Rinv_l, Rmult_1_r by lra. apply Rle_trans with (tol * 1); [lra|]. apply Rmult_le_compat_l; lra.
Qed.
