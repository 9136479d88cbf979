(** Convergence of the YALL1 iterates to a solution. *)
From Coq Require Import List Arith Bool Lia Reals Lra Psatz.
From Verif Require Import Vec RVec RMat Loop LoopLemmas XReal SolverSpec SolverLemmas OptProofs FomProofs2 SpglProofs YallModel YallSpec YallProofs YallProofs2 YallProofs3 SeqSpec SeqProofs SeqProofs2.
Import ListNotations.
Set Implicit Arguments.
Unset Strict Implicit.
Local Open Scope R_scope.

(** residual conditions and dual sets are closed *)
Lemma resid_closed m p r y rl yl : cvg m r rl -> cvg m y yl -> (forall k, resid_ok m p (r k) (y k)) -> resid_ok m p rl yl.
Proof.
  intros Hr Hy H. pose proof Hr as (_ & Lr & _). pose proof Hy as (_ & Ly & _). split; auto. split; auto. destruct p as [|rho|delta].
  - apply cvg_unique with m r; auto. apply cvg_ext with (fun _ => rzero m); [intros k; symmetry; apply H|]. apply cvg_const. vl.
  - apply cvg_unique with m r; auto. apply cvg_ext with (fun k => rscale rho (y k)); [intros k; symmetry; apply H|]. now apply cvg_scale.
  - split.
    + apply (@Rle_cv_lim (fun k => nrm (r k)) (fun _ => delta)); [intros k; apply H|now apply cvg_nrm with m|apply cv_const].
    + apply (@UL_sequence (fun k => rdot (r k) (y k))); [now apply cvg_dot with m|].
      apply cv_ext with (fun k => delta * nrm (y k)); [intros k; symmetry; apply H|]. apply CV_mult; [apply cv_const|now apply cvg_nrm with m].
Qed.
Lemma dual_closed n nonneg w z zl : cvg n z zl -> (forall k, in_dual_set n nonneg w (z k)) -> in_dual_set n nonneg w zl.
Proof.
  intros (_ & Lz & Hz) H. split; auto. intros i Hi. specialize (Hz i Hi). destruct nonneg.
  - apply (@Rle_cv_lim (fun k => (z k)@i) (fun _ => w@i)); [intros k; now apply (proj2 (H k))|auto|apply cv_const].
  - apply (@Rle_cv_lim (fun k => Rabs ((z k)@i)) (fun _ => w@i)); [intros k; now apply (proj2 (H k))|now apply cv_cvabs|apply cv_const].
Qed.
Section Conv.
  Variables (n m : nat) (A T : vec -> vec) (b w : vec) (nonneg : bool) (p : yall_problem).
  Hypothesis Adj : adjoint_ops n m A T.
  Hypothesis Lb : length b = m.
  Hypothesis Lw : length w = n.
  Hypothesis Pw : forall i, (i < n)%nat -> 0 < w@i.
  Hypothesis P : problem_ok p.
  Hypothesis O : orthonormal_rows m A T.
  Hypothesis N0 : b <> rzero m.
  Let Hw : forall i, (i < n)%nat -> 0 <= w@i. Proof. intros i Hi. left. auto. Qed.
  Notation mu := (ya_mu b).
  Let Hm : 0 < mu. Proof. eapply mu_pos; eauto. Qed.
  Notation iter := (ya_iteration A T b w nonneg 1 p).
  Notation kkt := (yall_kkt n m A T b w nonneg p).
  Variable s : yall_state.
  Hypothesis Lx : length (ya_x s) = n.
  Hypothesis Lz : length (ya_z s) = n.
  Lemma defined k : exists t, ya_iterate iter k s = Some t /\ length (ya_x t) = n /\ length (ya_z t) = n.
  Proof.
    induction k as [|k (t & E & L1 & L2)]; [exists s; auto|]. cbn [ya_iterate]. rewrite E.
    destruct (@iter_defined n m A T b w nonneg 1 p Adj Lb Lw P t Pw N0 L1 L2) as [t' E']. exists t'. split; auto.
    destruct (@iter_inv n m A T b w nonneg 1 p Adj Lb Lw P t t' L1 L2 E') as (q & y & H). tauto.
  Qed.
  Definition st (k : nat) : yall_state := match ya_iterate iter k s with Some t => t | None => s end.
  Lemma st_eq k : ya_iterate iter k s = Some (st k).
  Proof. destruct (defined k) as (t & E & _). unfold st. now rewrite E. Qed.
  Lemma st_len k : length (ya_x (st k)) = n /\ length (ya_z (st k)) = n.
  Proof. destruct (defined k) as (t & E & H). rewrite st_eq in E. injection E as ->. auto. Qed.
  Lemma st_step k : iter (st k) = Some (st (S k)).
  Proof. pose proof (st_eq (S k)) as E. cbn [ya_iterate] in E. now rewrite st_eq in E. Qed.
  Lemma st_normal k : normal n w nonneg (st (S k)).
  Proof. destruct (@iterate_normal n m A T b w nonneg 1 p Adj Lb Lw Hw P k s (st (S k)) Hm eq_refl Lx Lz (st_eq (S k))) as [H _]. exact H. Qed.
  Notation D k xs zs := (dist2 b (ya_x (st k)) (ya_z (st k)) xs zs).
  Lemma st_fejer k xs ys : kkt xs ys ->
    D (S (S k)) xs (T ys) <= D (S k) xs (T ys) - (nrm2 (rsub (ya_x (st (S (S k)))) (ya_x (st (S k)))) + mu * mu * nrm2 (rsub (ya_z (st (S (S k)))) (ya_z (st (S k))))).
  Proof.
    intros K. pose proof (@fejer n m A T b w nonneg 1 p Adj Lb Lw Hw P O eq_refl (st (S k)) (st (S (S k))) xs ys Hm (proj1 (st_len (S k))) (st_normal k) K (st_step (S k))). lra.
  Qed.
  Lemma st_mono xs ys j k : kkt xs ys -> (j <= k)%nat -> D (S k) xs (T ys) <= D (S j) xs (T ys).
  Proof.
    intros K. induction 1 as [|k H IH]; [lra|]. eapply Rle_trans; [|exact IH]. pose proof (st_fejer k K) as F.
    pose proof (@dist2_step_pos b (ya_x (st (S k))) (ya_x (st (S (S k)))) (ya_z (st (S k))) (ya_z (st (S (S k))))). lra.
  Qed.
  Lemma dist_nrm x z xs zs e : 0 < e -> dist2 b x z xs zs < Rmin 1 (mu * mu) * (e * e) -> nrm (rsub x xs) < e /\ nrm (rsub z zs) < e.
  Proof.
    intros He H. unfold dist2 in H. pose proof (nrm2_pos (rsub x xs)) as P1. pose proof (nrm2_pos (rsub z zs)) as P2. set (M := Rmin 1 (mu * mu)) in *.
    assert (M1 : M <= 1) by apply Rmin_l. assert (M2 : M <= mu * mu) by apply Rmin_r. assert (Mu : 0 < mu * mu) by nra. assert (M0 : 0 < M) by (unfold M; apply Rmin_glb_lt; lra).
    assert (K : forall v, nrm2 v < e * e -> nrm v < e).
    { intros v Hv. unfold nrm. rewrite <- (sqrt_square e) by lra. apply sqrt_lt_1_alt. split; [apply rdot_pos|exact Hv]. }
    assert (0 <= mu * mu * nrm2 (rsub z zs)) by (apply Rmult_le_pos; lra).
    split; apply K.
    - assert (M * (e * e) <= 1 * (e * e)) by (apply Rmult_le_compat_r; nra). lra.
    - assert (M * nrm2 (rsub z zs) <= mu * mu * nrm2 (rsub z zs)) by (apply Rmult_le_compat_r; lra).
      apply Rmult_lt_reg_l with M; auto. lra.
  Qed.
  Section Given.
    Variables (xs ys : vec).
    Hypothesis K : kkt xs ys.
    Let Lxs : length xs = n := proj1 K.
    Let LTys : length (T ys) = n. Proof. destruct Adj as (_ & [H _] & _). apply H. apply K. Qed.
    Lemma st_bounded : exists B, forall k, nrm (ya_x (st (S k))) <= B /\ nrm (ya_z (st (S k))) <= B.
    Proof.
      set (D0 := D 1%nat xs (T ys)). assert (P0 : 0 <= D0) by apply dist2_pos. assert (Mu : 0 < mu * mu) by nra.
      set (M := Rmin 1 (mu * mu)). assert (M0 : 0 < M) by (unfold M; apply Rmin_glb_lt; lra).
      assert (P1 : 0 <= D0 / M) by (apply Rmult_le_pos; [auto|left; now apply Rinv_0_lt_compat]).
      set (e := D0 / M + 1). assert (E1 : D0 < M * (e * e)).
      { assert (D0 = M * (D0 / M)) by (field; lra). assert (D0 / M < e * e) by (unfold e; nra). assert (M * (D0 / M) < M * (e * e)) by (apply Rmult_lt_compat_l; auto). lra. }
      exists (e + nrm xs + nrm (T ys)). intros k. destruct (st_len (S k)) as [L1 L2].
      pose proof (@st_mono xs ys 0 k K ltac:(lia)) as Q. fold D0 in Q.
      destruct (@dist_nrm (ya_x (st (S k))) (ya_z (st (S k))) xs (T ys) e) as [Q1 Q2]; [unfold e; lra|fold M; lra|].
      pose proof (nrm_pos xs). pose proof (nrm_pos (T ys)). split.
      - replace (ya_x (st (S k))) with (radd (rsub (ya_x (st (S k))) xs) xs) by veq. eapply Rle_trans; [apply nrm_triang; vl|lra].
      - replace (ya_z (st (S k))) with (radd (rsub (ya_z (st (S k))) (T ys)) (T ys)) by veq. eapply Rle_trans; [apply nrm_triang; vl|lra].
    Qed.
    Lemma st_vanish eps : 0 < eps -> exists N, forall k, (N <= k)%nat ->
      nrm (rsub (ya_x (st (S (S k)))) (ya_x (st (S k)))) < eps /\ nrm (rsub (ya_z (st (S (S k)))) (ya_z (st (S k)))) < eps.
    Proof.
      intros He. assert (Mu : 0 < mu * mu) by nra. assert (M0 : 0 < Rmin 1 (mu * mu)) by (apply Rmin_glb_lt; lra).
      destruct (@decrements (fun k => D (S k) xs (T ys)) (fun k => dist2 b (ya_x (st (S (S k)))) (ya_z (st (S (S k)))) (ya_x (st (S k))) (ya_z (st (S k)))) 0) with (eps := Rmin 1 (mu * mu) * (eps * eps)) as [N Q].
      - intros k. apply dist2_pos.
      - intros k. apply (st_fejer k K).
      - intros k. apply dist2_pos.
      - apply Rmult_lt_0_compat; nra.
      - exists N. intros k Hk. apply dist_nrm; auto.
    Qed.
    Theorem yall_converges : exists xl yl, kkt xl yl /\ converges n (fun k => ya_x (st k)) xl /\ converges n (fun k => ya_z (st k)) (T yl).
    Proof.
      pose proof Adj as (LA' & LT' & _).
      assert (AdjT : adjoint_ops m n T A).
      { split; [exact LT'|]. split; [exact LA'|]. intros x y L1 L2. rewrite rdot_sym. rewrite <- (proj2 (proj2 Adj) y x) by auto. apply rdot_sym. }
      destruct st_bounded as [B HB].
      destruct (@bw n (fun k => ya_x (st (S k))) B) as (f1 & xl & M1 & C1); [intros k; apply st_len|intros k; apply HB|].
      destruct (@bw n (fun k => ya_z (st (S (f1 k)))) B) as (f2 & zl & M2 & C2); [intros k; apply st_len|intros k; apply HB|].
      pose (f := fun k => f1 (f2 k)).
      assert (Mf : forall k, (f k < f (S k))%nat) by (intros k; unfold f; apply phi_mono; auto).
      assert (Gf : forall k, (k <= f k)%nat) by (apply phi_ge; auto).
      assert (X1 : cvg n (fun k => ya_x (st (S (f k)))) xl).
      { apply cvg_of; [intros k; apply st_len|]. apply (converges_subseq M2 C1). }
      assert (Z1 : cvg n (fun k => ya_z (st (S (f k)))) zl) by (apply cvg_of; [intros k; apply st_len|exact C2]).
      assert (V : forall eps, 0 < eps -> exists N, forall k, (N <= k)%nat ->
        nrm (rsub (ya_x (st (S (S (f k))))) (ya_x (st (S (f k))))) < eps /\ nrm (rsub (ya_z (st (S (S (f k))))) (ya_z (st (S (f k))))) < eps).
      { intros eps He. destruct (st_vanish He) as [N Q]. exists N. intros k Hk. apply Q. specialize (Gf k). lia. }
      assert (X2 : cvg n (fun k => ya_x (st (S (S (f k))))) xl).
      { apply (cvg_close X1); [intros k; apply st_len|]. intros e He. destruct (V e He) as [N Q]. exists N. intros k Hk. now apply Q. }
      assert (Z2 : cvg n (fun k => ya_z (st (S (S (f k))))) zl).
      { apply (cvg_close Z1); [intros k; apply st_len|]. intros e He. destruct (V e He) as [N Q]. exists N. intros k Hk. now apply Q. }
      pose (q := fun k => radd (A (rsub (ya_z (st (S (f k)))) (rscale (/ mu) (ya_x (st (S (f k))))))) (rscale (/ mu) b)).
      pose (y := fun k => y_step b p (q k)).
      assert (I : forall k, length (y k) = m /\ T (y k) = radd (ya_z (st (S (S (f k))))) (rscale (/ mu) (rsub (ya_x (st (S (S (f k))))) (ya_x (st (S (f k))))))
                /\ resid_ok m p (rsub b (A (rsub (ya_x (st (S (f k)))) (rscale mu (rsub (ya_z (st (S (f k)))) (T (y k))))))) (y k)).
      { intros k. destruct (st_len (S (f k))) as [L1 L2].
        destruct (@iter_inv n m A T b w nonneg 1 p Adj Lb Lw P (st (S (f k))) (st (S (S (f k)))) L1 L2 (st_step (S (f k)))) as (q' & y' & Eq & Ey & _ & Lq & Ly & _ & Erd & Ex & _ & _ & _ & _ & _ & _ & _ & L3 & L4).
        assert (Ey' : y' = y k) by (unfold y, q; now rewrite Ey, Eq). rewrite <- Ey'. assert (LTy := proj1 LT' y' Ly).
        split; auto. split.
        - rewrite Ex, Erd. apply vec_eq; [vl|]. intros i Hi. rewrite radd_nth, rscale_nth, !rsub_nth, !rscale_nth, !rsub_nth by vl. field. lra.
        - eapply y_step_resid; eauto. }
      assert (TY : cvg n (fun k => T (y k)) zl).
      { apply cvg_ext with (fun k => radd (ya_z (st (S (S (f k))))) (rscale (/ mu) (rsub (ya_x (st (S (S (f k))))) (ya_x (st (S (f k))))))); [intros k; symmetry; apply I|].
        replace zl with (radd zl (rscale (/ mu) (rsub xl xl))); [apply cvg_add; auto; apply cvg_scale; now apply cvg_sub|].
        destruct X1 as (_ & L1 & _). destruct Z1 as (_ & L2 & _). veq. }
      assert (Y : cvg m y (A zl)).
      { apply cvg_ext with (fun k => A (T (y k))); [intros k; apply O; apply I|]. apply (cvg_op Adj TY). }
      assert (ET : T (A zl) = zl). { apply cvg_unique with n (fun k => T (y k)); auto. apply (cvg_op AdjT Y). }
      assert (Lxl : length xl = n) by apply X1. assert (Lzl : length zl = n) by apply Z1. assert (LAz : length (A zl) = m) by (apply LA'; auto).
      assert (K' : kkt xl (A zl)).
      { apply resid_kkt; auto.
        - rewrite ET. apply (dual_closed Z1). intros k. apply (st_normal (f k)).
        - intros v Cv. rewrite ET. apply (@Rle_cv_lim (fun k => rdot (ya_x (st (S (f k)))) v) (fun k => rdot (ya_x (st (S (f k)))) (ya_z (st (S (f k)))))).
          + intros k. apply (proj2 (st_normal (f k))). auto.
          + apply cvg_dot with n; auto. apply cvg_const. apply Cv.
          + apply cvg_dot with n; auto.
        - apply resid_closed with (r := fun k => rsub b (A (rsub (ya_x (st (S (f k)))) (rscale mu (rsub (ya_z (st (S (f k)))) (T (y k))))))) (y := y); auto; [|intros k; apply I].
          apply cvg_sub; [now apply cvg_const|]. replace (A xl) with (A (rsub xl (rscale mu (rsub zl zl)))) by (f_equal; veq).
          apply (cvg_op Adj). apply cvg_sub; auto. apply cvg_scale. now apply cvg_sub. }
      exists xl, (A zl). split; auto. rewrite ET.
      (* the whole sequence *)
      assert (Q : forall eps, 0 < eps -> exists N, forall k, (N <= k)%nat -> nrm (rsub (ya_x (st k)) xl) < eps /\ nrm (rsub (ya_z (st k)) zl) < eps).
      { intros eps He. set (M := Rmin 1 (mu * mu)). assert (Mu : 0 < mu * mu) by nra. assert (M0 : 0 < M) by (unfold M; apply Rmin_glb_lt; lra).
        assert (HD : Un_cv (fun k => D (S (f k)) xl zl) 0).
        { replace 0 with (rdot (rsub xl xl) (rsub xl xl) + mu * mu * rdot (rsub zl zl) (rsub zl zl)).
          - apply CV_plus; [|apply CV_mult; [apply cv_const|]]; apply cvg_dot with n; apply cvg_sub; auto; now apply cvg_const.
          - vdot. ring. }
        assert (Pe : 0 < M * (eps * eps)) by (apply Rmult_lt_0_compat; nra).
        destruct (HD _ Pe) as [N Q]. exists (S (f N)). intros k Hk. specialize (Q N ltac:(lia)). unfold R_dist in Q. rewrite Rminus_0_r in Q. apply Rabs_def2 in Q as [Q _].
        destruct k as [|k]; [lia|]. pose proof (@st_mono xl (A zl) (f N) k K' ltac:(lia)) as F. rewrite ET in F.
        apply dist_nrm; auto. fold M. lra. }
      split; (split; [assumption|]); intros eps He; destruct (Q eps He) as [N R]; exists N; intros k Hk; now apply R.
    Qed.
  End Given.
End Conv.
