From Coq Require Import List Arith Bool Lia Reals Lra Psatz.
From Verif Require Import Vec RVec RMat Loop LoopLemmas XReal SolverSpec SolverLemmas OptProofs FomProofs2 SpglProofs YallModel YallSpec YallProofs.
Import ListNotations.
Set Implicit Arguments.
Local Open Scope R_scope.

Section Algo.
  Variables (n m : nat) (A T : vec -> vec) (b w : vec) (nonneg : bool) (gamma tolerance : R) (p : yall_problem).
  Hypothesis Adj : adjoint_ops n m A T.
  Hypothesis Lb : length b = m.
  Hypothesis Lw : length w = n.
  Hypothesis Hw : forall i, (i < n)%nat -> 0 <= w@i.
  Hypothesis P : problem_ok p.
  Notation C := (in_dual_set n nonneg w).
  Notation mu := (ya_mu b).
  Notation iter := (ya_iteration A T b w nonneg gamma p).
  Notation kkt := (yall_kkt n m A T b w nonneg p).
  Notation value := (yall_value A b w p).

  Lemma LA x : length x = n -> length (A x) = m.
  Proof. destruct Adj as [[L _] _]. auto. Qed.
  Lemma LT y : length y = m -> length (T y) = n.
  Proof. destruct Adj as [_ [[L _] _]]. auto. Qed.
  Lemma Aadd x y : length x = n -> length y = n -> A (radd x y) = radd (A x) (A y).
  Proof. destruct Adj as [[_ [L _]] _]. auto. Qed.
  Lemma Ascale c x : length x = n -> A (rscale c x) = rscale c (A x).
  Proof. destruct Adj as [[_ [_ L]] _]. auto. Qed.
  Lemma Asub x y : length x = n -> length y = n -> A (rsub x y) = rsub (A x) (A y).
  Proof.
    intros. replace (rsub x y) with (radd x (rscale (-1) y)) by veq. rewrite Aadd, Ascale by vl.
    assert (L1 := @LA x ltac:(auto)). assert (L2 := @LA y ltac:(auto)). veq.
  Qed.
  Lemma AT x y : length x = n -> length y = m -> rdot (A x) y = rdot x (T y).
  Proof. destruct Adj as [_ [_ L]]. auto. Qed.
  Hint Rewrite LA LT using vl : vlen.

  Lemma mu_pos : b <> rzero m -> 0 < mu.
  Proof.
    intros N. unfold ya_mu. rewrite Lb. assert (m <> 0)%nat.
    { intros E. apply N. destruct b as [|c b']; cbn in *; [now rewrite E|lia]. }
    assert (0 < nrm1 b).
    { pose proof (nrm1_pos b). destruct (Req_dec (nrm1 b) 0) as [E|E]; [|lra]. exfalso. apply N.
      rewrite (@nrm1_sum m) in E by auto. apply vec_eq; [vl|]. intros i Hi. rewrite Lb in Hi. unfold rzero. rewrite nth_repeat_same.
      pose proof (@rsum_eq0 m (fun i => Rabs (b@i)) ltac:(intros; apply Rabs_pos) E i Hi) as Q. cbv beta in Q.
      destruct (Req_dec (b@i) 0) as [Z|Z]; auto. now apply Rabs_no_R0 in Z. }
    apply Rdiv_lt_0_compat; auto. apply lt_0_INR. lia.
  Qed.

  Lemma iter_len_y q : length q = m -> length (y_step b p q) = m.
  Proof. intros L. unfold y_step. destruct p; try destruct (Reqb _ _); vl. Qed.

  (** what one iteration computes *)
  Lemma iter_inv s s' : length (ya_x s) = n -> length (ya_z s) = n -> iter s = Some s' ->
    exists q y, q = radd (A (rsub (ya_z s) (rscale (/ mu) (ya_x s)))) (rscale (/ mu) b) /\ y = y_step b p q /\ mu <> 0 /\
      length q = m /\ length y = m /\
      proj_of nonneg w (radd (T y) (rscale (/ mu) (ya_x s))) = Some (ya_z s') /\
      ya_rd s' = rsub (ya_z s') (T y) /\ ya_x s' = rsub (ya_x s) (rscale (gamma * mu) (ya_rd s')) /\
      ya_x_prev s' = ya_x s /\ ya_rp s' = rsub b (A (ya_x s')) /\
      ya_primal s' = ya_primal_objective w p (ya_x s') (ya_rp s') /\ ya_dual s' = ya_dual_objective b p y /\
      ya_iterations s' = S (ya_iterations s) /\ ya_n_times s' = (ya_n_times s + 2)%nat /\ ya_n_trans s' = S (ya_n_trans s) /\
      length (ya_x s') = n /\ length (ya_z s') = n.
  Proof.
    intros Lx Lz. unfold ya_iteration. destruct (Reqb_spec mu 0) as [E|E]; [discriminate|]. cbv zeta.
    set (q := radd _ (rscale (/ mu) b)). assert (Lq : length q = m) by (unfold q; rewrite radd_len, LA; vl).
    set (y := y_step b p q). assert (Ly : length y = m) by now apply iter_len_y.
    assert (LTy := LT y Ly). fold (proj_of nonneg w (radd (T y) (rscale (/ mu) (ya_x s)))).
    destruct (proj_of nonneg w (radd (T y) (rscale (/ mu) (ya_x s)))) as [z|] eqn:Ez; [|discriminate]. intros [= <-]. cbn [ya_x ya_z ya_rd ya_rp ya_primal ya_dual ya_iterations ya_n_times ya_n_trans ya_x_prev].
    assert (Lz' : length z = n) by (eapply proj_len; [|apply Ez]; vl).
    exists q, y. repeat (split; [solve [auto | vl | lia]|]). auto.
  Qed.
  Lemma iter_defined s : (forall i, (i < n)%nat -> 0 < w@i) -> b <> rzero m -> length (ya_x s) = n -> length (ya_z s) = n -> exists s', iter s = Some s'.
  Proof.
    intros Pw N Lx Lz. unfold ya_iteration. pose proof (mu_pos N). destruct (Reqb_spec mu 0) as [E|E]; [lra|]. cbv zeta.
    set (q := radd _ (rscale (/ mu) b)). assert (Lq : length q = m) by (unfold q; rewrite radd_len, LA; vl).
    set (y := y_step b p q). assert (Ly : length y = m) by now apply iter_len_y.
    assert (LTy := LT y Ly). fold (proj_of nonneg w (radd (T y) (rscale (/ mu) (ya_x s)))).
    destruct (proj_of nonneg w (radd (T y) (rscale (/ mu) (ya_x s)))) as [z|] eqn:Ez; [eauto|].
    exfalso. refine (@proj_defined n nonneg w Lw _ Pw _ Ez). vl.
  Qed.

  Lemma iter_C s s' : length (ya_x s) = n -> length (ya_z s) = n -> iter s = Some s' -> C (ya_z s').
  Proof.
    intros Lx Lz E. destruct (iter_inv s Lx Lz E) as (q & y & _ & _ & _ & _ & Ly & Ep & _). assert (LTy := LT y Ly).
    eapply (@proj_vi n nonneg w); [auto|auto| |apply Ep]. vl.
  Qed.

  (** *** optimality conditions *)
  Lemma kkt_solves x y : kkt x y -> yall_solves n A b w nonneg p x.
  Proof.
    intros (Lx & Ly & Cz & N & F). assert (LTy := LT y Ly). destruct (@normal_cone n nonneg w Lw Hw x (T y) Lx Cz N) as [Cx E].
    rewrite <- AT in E by auto. split; auto. assert (LAx := LA x Lx).
    assert (Q : forall v, candidate n nonneg v -> rdot (A v) y <= wnorm w v).
    { intros v Cv. rewrite AT by (destruct Cv; auto). now apply (@pairing_le n nonneg w). }
    split.
    - destruct p as [|rho|delta]; cbn; auto. tauto.
    - intros v Cv Fv. specialize (Q v Cv). assert (LAv := LA v ltac:(now destruct Cv)). unfold yall_value. destruct p as [|rho|delta]; cbn in *.
      + rewrite Fv in Q. rewrite F in E. lra.
      + rewrite <- E. set (r := rsub b (A v)). assert (Lr : length r = m) by (unfold r; vl).
        assert (EA : A v = rsub b r) by (unfold r; veq). rewrite EA in Q. rewrite F.
        replace (rsub b (rsub b (rscale rho y))) with (rscale rho y) by veq.
        assert (K : nrm2 (rsub r (rscale rho y)) = nrm2 r - 2 * rho * rdot r y + rho * rho * rdot y y).
        { unfold nrm2. rewrite rdot_sub_l, !rdot_sub_r, !rdot_scale_l, !rdot_scale_r by vl. rewrite (rdot_sym y r). ring. }
        pose proof (nrm2_pos (rsub r (rscale rho y))). rewrite rdot_sub_l in * by vl. rewrite rdot_scale_l. unfold nrm2 at 1. rewrite rdot_scale_l, rdot_scale_r.
        assert (0 <= / (2 * rho) * nrm2 (rsub r (rscale rho y))) by (apply Rmult_le_pos; [left; apply Rinv_0_lt_compat; lra|auto]).
        rewrite K in H0. 
        replace (/ (2 * rho) * (nrm2 r - 2 * rho * rdot r y + rho * rho * rdot y y)) with (/ (2 * rho) * nrm2 r - rdot r y + rho / 2 * rdot y y) in H0 by (field; lra).
        replace (/ (2 * rho) * (rho * (rho * rdot y y))) with (rho / 2 * rdot y y) by (field; lra). lra.
      + destruct F as [F1 F2]. rewrite rdot_sub_l in F2 by vl.
        pose proof (cauchy_le (rsub b (A v)) y) as K. rewrite rdot_sub_l in K by vl. pose proof (nrm_pos y).
        pose proof (Rmult_le_compat_r _ _ _ H Fv). lra.
  Qed.
  Lemma resid_kkt x y : length x = n -> length y = m -> C (T y) -> (forall v, C v -> rdot x v <= rdot x (T y)) ->
    resid_ok m p (rsub b (A x)) y -> kkt x y.
  Proof.
    intros Lx Ly Cz N (_ & _ & F). repeat (split; [solve [auto]|]). assert (LAx := LA x Lx). destruct p as [|rho|delta]; auto.
    - transitivity (rsub b (rsub b (A x))); [veq|]. rewrite F. veq.
    - rewrite <- F. veq.
  Qed.
  Lemma kkt_resid x y : kkt x y -> resid_ok m p (rsub b (A x)) y.
  Proof.
    intros (Lx & Ly & Cz & N & F). assert (LAx := LA x Lx). split; [vl|]. split; auto. destruct p as [|rho|delta]; auto.
    - rewrite F. veq.
    - rewrite F. veq.
  Qed.

  Section Ortho.
    Hypothesis O : orthonormal_rows m A T.
    (** the point x - mu (z - A^T y) meets the residual condition with y *)
    Lemma y_step_resid s y q : length (ya_x s) = n -> length (ya_z s) = n -> 0 < mu ->
      q = radd (A (rsub (ya_z s) (rscale (/ mu) (ya_x s)))) (rscale (/ mu) b) -> y = y_step b p q ->
      resid_ok m p (rsub b (A (rsub (ya_x s) (rscale mu (rsub (ya_z s) (T y)))))) y.
    Proof.
      intros Lx Lz Hm Eq Ey. assert (LAx := LA (ya_x s) Lx). assert (LAz := LA (ya_z s) Lz).
      rewrite Asub, Ascale in Eq by vl.
      assert (Lq : length q = m) by (rewrite Eq; vl). assert (Ly : length y = m) by (rewrite Ey; now apply iter_len_y). assert (LTy := LT y Ly).
      rewrite Asub, Ascale, Asub, (O y) by vl.
      replace (rsub b _) with (rscale mu (rsub q y)); [rewrite Ey; apply y_step_ok; auto|].
      apply vec_eq; [vl|]. intros i Hi. rewrite Eq. rewrite !rscale_nth, !rsub_nth, !radd_nth, !rscale_nth, !rsub_nth, !rscale_nth by vl. field. lra.
    Qed.

    (** *** fixed points are exactly the solutions *)
    Lemma fixed_kkt s s' : gamma <> 0 -> 0 < mu -> length (ya_x s) = n -> length (ya_z s) = n ->
      iter s = Some s' -> ya_x s' = ya_x s -> ya_z s' = ya_z s -> exists y, kkt (ya_x s) y /\ T y = ya_z s.
    Proof.
      intros Hg Hm Lx Lz E Ex Ez. pose proof (iter_C s Lx Lz E) as Cz.
      destruct (iter_inv s Lx Lz E) as (q & y & Eq & Ey & _ & Lq & Ly & Ep & Erd & Ex' & _). assert (LTy := LT y Ly).
      assert (D : ya_rd s' = rzero n).
      { rewrite Ex in Ex'. assert (Lr : length (ya_rd s') = n) by (rewrite Erd, Ez; vl). apply vec_eq; [vl|]. intros i Hi.
        apply (f_equal (fun v => v@i)) in Ex'. rewrite rsub_nth, rscale_nth in Ex' by vl. unfold rzero. rewrite nth_repeat_same.
        assert (Q : gamma * mu * (ya_rd s')@i = 0) by lra. apply Rmult_integral in Q as [Q|Q]; auto. apply Rmult_integral in Q as [Q|Q]; lra. }
      assert (ET : T y = ya_z s).
      { rewrite D, Ez in Erd. transitivity (rsub (ya_z s) (rsub (ya_z s) (T y))); [veq|]. rewrite <- Erd. veq. }
      exists y. split; auto.
      pose proof (y_step_resid s Lx Lz Hm Eq Ey) as K. rewrite ET in K.
      replace (rsub (ya_x s) (rscale mu (rsub (ya_z s) (ya_z s)))) with (ya_x s) in K by veq.
      apply resid_kkt; auto; rewrite ET; [now rewrite <- Ez|].
      intros v Cv. assert (Lg : length (radd (T y) (rscale (/ mu) (ya_x s))) = n) by vl. destruct (@proj_vi n nonneg w Lw Hw _ _ Lg Ep) as [_ V]. specialize (V v Cv). rewrite ET, Ez in V. destruct Cv as [Lv _].
      replace (rsub (radd (ya_z s) (rscale (/ mu) (ya_x s))) (ya_z s)) with (rscale (/ mu) (ya_x s)) in V by veq.
      rewrite rdot_scale_l, rdot_sub_r in V by vl. apply Rmult_le_compat_l with (r := mu) in V; [|lra]. rewrite <- Rmult_assoc, Rinv_r in V; lra.
    Qed.
    Lemma kkt_fixed s s' y : 0 < mu -> kkt (ya_x s) y -> T y = ya_z s -> iter s = Some s' -> ya_x s' = ya_x s /\ ya_z s' = ya_z s.
    Proof.
      intros Hm K ET E. pose proof K as (Lx & Ly & Cz & N & F). assert (LTy := LT y Ly). assert (Lz : length (ya_z s) = n) by now rewrite <- ET.
      destruct (iter_inv s Lx Lz E) as (q & y' & Eq & Ey & _ & Lq & Ly' & Ep & Erd & Ex' & _). assert (LTy' := LT y' Ly').
      pose proof (y_step_resid s Lx Lz Hm Eq Ey) as R1. pose proof (kkt_resid K) as R2.
      pose proof (resid_monotone P R1 R2) as M. assert (LAx := LA (ya_x s) Lx). 
      rewrite <- ET, Asub, Ascale, Asub, !O in M by vl.
      assert (Eyy : y' = y).
      { apply rdot_sub_eq0; [congruence|]. pose proof (rdot_pos (rsub y' y)).
        replace (rsub (rsub b (rsub (A (ya_x s)) (rscale mu (rsub y y')))) (rsub b (A (ya_x s)))) with (rscale (- mu) (rsub y' y)) in M by veq.
        rewrite rdot_scale_l in M. destruct (Req_dec (rdot (rsub y' y) (rsub y' y)) 0); auto.
        assert (0 < mu * rdot (rsub y' y) (rsub y' y)) by (apply Rmult_lt_0_compat; lra). lra. }
      assert (Ez : ya_z s' = ya_z s).
      { eapply (@proj_unique n nonneg w Lw Hw); [|apply Ep| |]; [vl|now rewrite <- ET|]. intros v Cv. rewrite Eyy, ET.
        replace (rsub (radd (ya_z s) (rscale (/ mu) (ya_x s))) (ya_z s)) with (rscale (/ mu) (ya_x s)) by veq.
        specialize (N v Cv). rewrite ET in N. destruct Cv as [Lv _]. rewrite rdot_scale_l, rdot_sub_r by vl.
        assert (0 < / mu) by now apply Rinv_0_lt_compat. assert (0 <= / mu * (rdot (ya_x s) (ya_z s) - rdot (ya_x s) v)) by (apply Rmult_le_pos; lra). lra. }
      split; auto. rewrite Ex', Erd, Ez, Eyy, ET. veq.
    Qed.

    (** *** every step moves closer to every solution *)
    Definition dist2 (x z xs zs : vec) : R := nrm2 (rsub x xs) + mu * mu * nrm2 (rsub z zs).
    Definition normal (s : yall_state) : Prop := C (ya_z s) /\ forall v, C v -> rdot (ya_x s) v <= rdot (ya_x s) (ya_z s).
    Hypothesis G1 : gamma = 1.
    Lemma iter_normal s s' : 0 < mu -> length (ya_x s) = n -> length (ya_z s) = n -> iter s = Some s' -> normal s'.
    Proof.
      intros Hm Lx Lz E. pose proof (iter_C s Lx Lz E) as Cz. split; auto.
      destruct (iter_inv s Lx Lz E) as (q & y & Eq & Ey & _ & Lq & Ly & Ep & Erd & Ex' & _ & _ & _ & _ & _ & _ & _ & Lx' & Lz'). assert (LTy := LT y Ly).
      assert (Lg : length (radd (T y) (rscale (/ mu) (ya_x s))) = n) by vl. destruct (@proj_vi n nonneg w Lw Hw _ _ Lg Ep) as [_ V]. intros v Cv. specialize (V v Cv). destruct Cv as [Lv _].
      assert (Q : ya_x s' = rscale mu (rsub (radd (T y) (rscale (/ mu) (ya_x s))) (ya_z s'))).
      { rewrite Ex', Erd, G1. apply vec_eq; [vl|]. intros i Hi. rewrite !rscale_nth, !rsub_nth, !rscale_nth, !rsub_nth, !radd_nth, !rscale_nth by vl. field. lra. }
      assert (K : rdot (ya_x s') (rsub v (ya_z s')) <= 0).
      { rewrite Q at 1. rewrite rdot_scale_l. apply Rmult_le_compat_l with (r := mu) in V; lra. }
      rewrite rdot_sub_r in K by vl. lra.
    Qed.
    Lemma fejer_alg (x x' z z' g xs zs : vec) : 0 < mu ->
      length x = n -> length x' = n -> length z = n -> length z' = n -> length g = n -> length xs = n -> length zs = n ->
      x' = rsub x (rscale mu (rsub z' g)) ->
      0 <= rdot (rsub x' xs) (rsub z' zs) -> 0 <= rdot (rsub x' x) (rsub z' z) ->
      rdot (rsub (rsub x (rscale mu (rsub z g))) xs) (rsub g zs) <= 0 ->
      dist2 x' z' xs zs <= dist2 x z xs zs - nrm2 (rsub x' x) - mu * mu * nrm2 (rsub z' z).
    Proof.
      intros Hm L1 L2 L3 L4 L5 L6 L7 Ex H1 H2 H3. unfold dist2, nrm2.
      set (a := rsub x' xs) in *. set (d := rsub x' x) in *. set (e := rsub z' zs) in *. set (f := rsub z' z) in *.
      assert (La : length a = n) by (unfold a; vl). assert (Ld : length d = n) by (unfold d; vl).
      assert (Le : length e = n) by (unfold e; vl). assert (Lf : length f = n) by (unfold f; vl).
      replace (rsub x xs) with (rsub a d) by (unfold a, d; veq). replace (rsub z zs) with (rsub e f) by (unfold e, f; veq).
      replace (rsub (rsub x (rscale mu (rsub z g))) xs) with (radd a (rscale mu f)) in H3 by (unfold a, f; rewrite Ex; veq).
      replace (rsub g zs) with (radd e (rscale (/ mu) d)) in H3.
      2:{ unfold e, d. apply vec_eq; [vl|]. intros i Hi. assert (Ei := f_equal (fun v => v@i) Ex). cbv beta in Ei. rewrite !rsub_nth, rscale_nth, rsub_nth in Ei by vl.
          rewrite !radd_nth, !rscale_nth, !rsub_nth, Ei by vl. field. lra. }
      rewrite rdot_add_l, !rdot_add_r, !rdot_scale_l, !rdot_scale_r in H3 by vl.
      rewrite !rdot_sub_l, !rdot_sub_r by vl. rewrite (rdot_sym d a), (rdot_sym f e) in *. rewrite (rdot_sym f d) in H3.
      assert (K : mu * (rdot a e + / mu * rdot a d + (mu * (rdot e f + / mu * rdot d f))) <= 0).
      { assert (0 <= mu * - (rdot a e + / mu * rdot a d + (mu * (rdot e f + / mu * rdot d f)))); [apply Rmult_le_pos; lra|lra]. }
      replace (mu * (rdot a e + / mu * rdot a d + (mu * (rdot e f + / mu * rdot d f)))) with (mu * rdot a e + rdot a d + mu * mu * rdot e f + mu * rdot d f) in K by (field; lra).
      assert (0 <= mu * rdot a e) by (apply Rmult_le_pos; lra). assert (0 <= mu * rdot d f) by (apply Rmult_le_pos; lra). nra.
    Qed.
    Lemma fejer s s' xs ys : 0 < mu -> length (ya_x s) = n -> normal s -> kkt xs ys -> iter s = Some s' ->
      dist2 (ya_x s') (ya_z s') xs (T ys) <= dist2 (ya_x s) (ya_z s) xs (T ys) - nrm2 (rsub (ya_x s') (ya_x s)) - mu * mu * nrm2 (rsub (ya_z s') (ya_z s)).
    Proof.
      intros Hm Lx [Cz Nz] K E. pose proof Cz as [Lz _]. destruct (iter_normal s Hm Lx Lz E) as [Cz' Nz'].
      destruct (iter_inv s Lx Lz E) as (q & y & Eq & Ey & _ & Lq & Ly & Ep & Erd & Ex' & _ & _ & _ & _ & _ & _ & _ & Lx' & Lz'). assert (LTy := LT y Ly).
      pose proof (y_step_resid s Lx Lz Hm Eq Ey) as R1. pose proof (kkt_resid K) as R2. pose proof (resid_monotone P R1 R2) as M.
      pose proof K as (Lxs & Lys & Czs & Nzs & _). assert (LTys := LT ys Lys).
      assert (LAxs := LA xs Lxs).
      set (xh := rsub (ya_x s) (rscale mu (rsub (ya_z s) (T y)))) in *. assert (Lxh : length xh = n) by (unfold xh; vl). assert (LAxh := LA xh Lxh).
      apply (@fejer_alg (ya_x s) (ya_x s') (ya_z s) (ya_z s') (T y) xs (T ys)); auto.
      - rewrite Ex', Erd, G1. veq.
      - pose proof (Nz' _ Czs). pose proof (Nzs _ Cz'). rewrite rdot_sub_l, !rdot_sub_r by vl. lra.
      - pose proof (Nz' _ Cz). pose proof (Nz _ Cz'). rewrite rdot_sub_l, !rdot_sub_r by vl. lra.
      - fold xh. replace (rsub (rsub b (A xh)) (rsub b (A xs))) with (rscale (-1) (A (rsub xh xs))) in M by (rewrite Asub by vl; veq).
        rewrite rdot_scale_l, rdot_sub_r, !AT in M by vl. rewrite rdot_sub_r by vl. lra.
    Qed.
  End Ortho.
End Algo.
