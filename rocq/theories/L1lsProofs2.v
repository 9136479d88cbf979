From Coq Require Import List Arith Bool Lia Reals Lra Psatz.
From Verif Require Import Vec RVec RMat Loop LoopLemmas XReal SolverSpec SolverLemmas OptSpec OptProofs SelModel SelProofs CGModel CGProofs FomProofs2 SpglProofs L1lsModel L1lsSpec L1lsProofs.
Import ListNotations.
Set Implicit Arguments.
Local Open Scope R_scope.

(** *** derivatives along a line *)
Lemma dpl_ext (f g : R -> R) x l : (forall s, f s = g s) -> derivable_pt_lim g x l -> derivable_pt_lim f x l.
Proof. intros E D eps He. destruct (D eps He) as [d Hd]. exists d. intros h H1 H2. rewrite !E. auto. Qed.
Lemma dpl_eq (f : R -> R) x l l' : l = l' -> derivable_pt_lim f x l -> derivable_pt_lim f x l'.
Proof. now intros ->. Qed.
Lemma dpl_rsum n (F : nat -> R -> R) (l : nat -> R) x : (forall i, (i < n)%nat -> derivable_pt_lim (F i) x (l i)) ->
  derivable_pt_lim (fun s => rsum n (fun i => F i s)) x (rsum n l).
Proof.
  induction n as [|n IH]; intros H; cbn [rsum].
  - apply derivable_pt_lim_const.
  - apply (derivable_pt_lim_plus (fun s => rsum n (fun i => F i s)) (F n)); [apply IH; intros; apply H; lia|apply H; lia].
Qed.
Lemma dpl_line a b : derivable_pt_lim (fun s => a + s * b) 0 b.
Proof.
  apply dpl_eq with (0 + (1 * b + 0 * 0)); [ring|].
  apply (derivable_pt_lim_plus (fct_cte a) (fun s => s * b)); [apply derivable_pt_lim_const|].
  apply (derivable_pt_lim_mult id (fct_cte b)); [apply derivable_pt_lim_id|apply derivable_pt_lim_const].
Qed.
Lemma dpl_ln a b : 0 < a -> derivable_pt_lim (fun s => ln (a + s * b)) 0 (b * / a).
Proof.
  intros Ha. apply dpl_eq with (/ (a + 0 * b) * b); [rewrite Rmult_0_l, Rplus_0_r; ring|].
  apply (derivable_pt_lim_comp (fun s => a + s * b) ln); [apply dpl_line|apply derivable_pt_lim_ln; lra].
Qed.
Lemma dpl_inv a b : 0 < a -> derivable_pt_lim (fun s => 1 / (a + s * b)) 0 (- b * (/ a * / a)).
Proof.
  intros Ha. apply dpl_eq with ((0 * (a + 0 * b) - b * 1) / Rsqr (a + 0 * b)).
  { replace (a + 0 * b) with a by ring. unfold Rsqr. field. lra. }
  apply (derivable_pt_lim_div (fct_cte 1) (fun s => a + s * b)); [apply derivable_pt_lim_const|apply dpl_line|lra].
Qed.
Lemma dpl_scal c (f : R -> R) x l : derivable_pt_lim f x l -> derivable_pt_lim (fun s => c * f s) x (c * l).
Proof. apply (derivable_pt_lim_scal f). Qed.
Lemma dpl_plus (f g : R -> R) x l k : derivable_pt_lim f x l -> derivable_pt_lim g x k -> derivable_pt_lim (fun s => f s + g s) x (l + k).
Proof. apply (derivable_pt_lim_plus f g). Qed.
Lemma dpl_minus (f g : R -> R) x l k : derivable_pt_lim f x l -> derivable_pt_lim g x k -> derivable_pt_lim (fun s => f s - g s) x (l - k).
Proof. apply (derivable_pt_lim_minus f g). Qed.
Lemma dpl_const c x : derivable_pt_lim (fun _ => c) x 0.
Proof. apply derivable_pt_lim_const. Qed.
Lemma dpl_quad a b c : derivable_pt_lim (fun s => a + s * b + s * s * c) 0 b.
Proof.
  apply dpl_eq with (b + 0); [ring|]. apply dpl_plus; [apply dpl_line|].
  apply dpl_eq with (0 * c + 0 * 0 * 0); [ring|].
  apply (derivable_pt_lim_mult (fun s => s * s) (fct_cte c)); [|apply derivable_pt_lim_const].
  apply dpl_eq with (1 * 0 + 0 * 1); [ring|]. apply (derivable_pt_lim_mult id id); apply derivable_pt_lim_id.
Qed.

Section Grad.
  Variables (n m : nat) (times trans : vec -> vec) (y : vec) (lambda : R) (x u : vec) (t : R).
  Hypothesis Adj : adjoint_ops n m times trans.
  Hypothesis Ly : length y = m.
  Let En : l1_n trans y = n. Proof. unfold l1_n. now apply Adj. Qed.
  Notation g := (gradient_phi trans y lambda).
  Lemma gradient_len z : length z = m -> length (g x u z t) = (2 * n)%nat.
  Proof.
    intros Lz. unfold gradient_phi. cbv zeta. rewrite app_length, En. destruct Adj as [_ [[T0 _] _]].
    assert (length (trans (rscale 2 z)) = n) by (apply T0; vl). vl.
  Qed.
  Lemma gradient_dot z d : length z = m -> length d = (2 * n)%nat ->
    rdot (g x u z t) d = 2 * rdot z (times (firstn n d)) +
      rsum n (fun i => lambda * d@(n + i)) - / t * rsum n (fun i => (1 / (u@i + x@i)) * (d@(n + i) + d@i) + (1 / (u@i - x@i)) * (d@(n + i) - d@i)).
  Proof.
    intros Lz Ld. destruct (halves n Ld) as [K0 K1]. destruct Adj as [[A0 _] [[T0 _] AT]].
    assert (LT : length (trans (rscale 2 z)) = n) by (apply T0; vl). pose proof (A0 _ K0).
    rewrite <- (firstn_skipn n d) at 1. unfold gradient_phi. cbv zeta. rewrite En.
    rewrite rdot_app, rdot_sub_l by vl. rewrite (rdot_sym (trans _)), <- AT, rdot_scale_r, (rdot_sym _ z) by vl.
    unfold Rminus. rewrite !Rplus_assoc. f_equal.
    rewrite (@rdot_sum n), (@rdot_sum n _ (skipn n d)) by vl. rewrite <- rsum_mul_l, <- !rsum_opp, <- !rsum_add. apply rsum_ext. intros i Hi.
    rewrite !nth_tab, firstn_nth, skipn_nth by auto. unfold q1_, q2_. rewrite En, !nth_tab by auto. unfold Rdiv, Rminus. ring.
  Qed.
End Grad.

Section Deriv.
  Variables (n m : nat) (times trans : vec -> vec) (y : vec) (lambda : R) (x u : vec) (t : R).
  Hypothesis Adj : adjoint_ops n m times trans.
  Hypothesis Ly : length y = m.
  Hypothesis Hin : strictly_inside n x u.
  Hypothesis Ht : 0 < t.
  Variables (dx du : vec).
  Hypothesis Ldx : length dx = n.
  Hypothesis Ldu : length du = n.
  Let En : l1_n trans y = n. Proof. unfold l1_n. now apply Adj. Qed.
  Let Lx : length x = n. Proof. apply Hin. Qed.
  Let Lu : length u = n. Proof. apply Hin. Qed.
  Lemma line_z s : rsub (times (radd x (rscale s dx))) y = radd (rsub (times x) y) (rscale s (times dx)).
  Proof.
    destruct Adj as [[A0 [A1 A2]] _]. rewrite A1, A2 by vl. pose proof (A0 _ Lx). pose proof (A0 _ Ldx). veq.
  Qed.
  Lemma barrier_line s : barrier n times y lambda t (radd x (rscale s dx)) (radd u (rscale s du)) =
    (nrm2 (rsub (times x) y) + s * (2 * rdot (rsub (times x) y) (times dx)) + s * s * nrm2 (times dx)) +
    lambda * rsum n (fun i => u@i + s * du@i) -
    / t * rsum n (fun i => ln ((u@i + x@i) + s * (du@i + dx@i)) + ln ((u@i - x@i) + s * (du@i - dx@i))).
  Proof.
    unfold barrier. f_equal; [f_equal|].
    - rewrite line_z. destruct Adj as [[A0 _] _]. pose proof (A0 _ Lx). pose proof (A0 _ Ldx).
      assert (Lz : length (rsub (times x) y) = m) by vl. revert Lz. generalize (rsub (times x) y). intros z Lz.
      unfold nrm2. rewrite rdot_add_l, !rdot_add_r, rdot_scale_l, !rdot_scale_r, rdot_scale_l by vl. rewrite (rdot_sym (times dx) z). ring.
    - f_equal. apply rsum_ext. intros i Hi. rewrite radd_nth, rscale_nth by vl. ring.
    - apply (f_equal (Rmult (/ t))). apply rsum_ext. intros i Hi. rewrite !radd_nth, !rscale_nth by vl. f_equal; f_equal; ring.
  Qed.
  Notation g := (gradient_phi trans y lambda).
  Lemma barrier_derivative :
    derivable_pt_lim (fun s => barrier n times y lambda t (radd x (rscale s dx)) (radd u (rscale s du))) 0
      (rdot (g x u (rsub (times x) y) t) (dx ++ du)).
  Proof.
    eapply dpl_ext; [exact barrier_line|]. destruct Adj as [[A0 _] _]. pose proof (A0 _ Lx).
    rewrite (@gradient_dot n m times) by (auto; try rewrite app_length; vl). rewrite firstn_app_len by auto.
    apply dpl_minus; [apply dpl_plus|].
    - apply dpl_quad.
    - rewrite rsum_mul_l. apply dpl_scal. apply (dpl_rsum (fun i s => u@i + s * du@i)). intros i Hi.
      apply dpl_eq with (du@i); [|apply dpl_line]. rewrite app_nth2 by lia. f_equal. lia.
    - apply dpl_scal. apply (dpl_rsum (fun i s => ln ((u@i + x@i) + s * (du@i + dx@i)) + ln ((u@i - x@i) + s * (du@i - dx@i)))). intros i Hi.
      destruct (inside_bounds Hin Hi).
      rewrite (@app_nth2 R dx du 0 (n + i)) by lia. rewrite (@app_nth1 R dx du 0 i) by lia. replace (n + i - length dx)%nat with i by lia.
      apply dpl_plus; unfold Rdiv; rewrite Rmult_1_l, Rmult_comm; now apply dpl_ln.
  Qed.
  Lemma gradient_derivative w : length w = (2 * n)%nat ->
    derivable_pt_lim (fun s => rdot (g (radd x (rscale s dx)) (radd u (rscale s du)) (rsub (times (radd x (rscale s dx))) y) t) w) 0
      (rdot (hessian times trans y x u t (dx ++ du)) w).
  Proof.
    intros Lw. destruct (halves n Lw) as [K0 K1]. destruct Adj as [[A0 _] [[T0 _] AT]]. pose proof (A0 _ Lx). pose proof (A0 _ Ldx). pose proof (A0 _ K0).
    assert (Ld : length (dx ++ du) = (2 * n)%nat) by (rewrite app_length; lia).
    rewrite rdot_sym, (@hessian_dot n m) by auto. rewrite blk_dot by (auto; first [eapply Ld1; eassumption | eapply Ld2; eassumption]).
    rewrite firstn_app_len by auto.
    eapply dpl_ext with (g := fun s => (2 * rdot (rsub (times x) y) (times (firstn n w)) + s * (2 * rdot (times (firstn n w)) (times dx)) + s * s * 0) +
      rsum n (fun i => lambda * w@(n + i)) - / t * rsum n (fun i => (w@(n + i) + w@i) * (1 / ((u@i + x@i) + s * (du@i + dx@i))) + (w@(n + i) - w@i) * (1 / ((u@i - x@i) + s * (du@i - dx@i))))).
    - intros s. rewrite (@gradient_dot n m times) by (auto; pose proof (line_z s) as E; rewrite E; vl).
      rewrite line_z. f_equal; [f_equal|].
      + rewrite rdot_add_l, rdot_scale_l, (rdot_sym (times dx)) by vl. ring.
      + apply (f_equal (Rmult (/ t))). apply rsum_ext. intros i Hi. rewrite !radd_nth, !rscale_nth by vl.
        replace (u@i + s * du@i + (x@i + s * dx@i)) with ((u@i + x@i) + s * (du@i + dx@i)) by ring.
        replace (u@i + s * du@i - (x@i + s * dx@i)) with ((u@i - x@i) + s * (du@i - dx@i)) by ring. ring.
    - apply dpl_eq with (2 * rdot (times (firstn n w)) (times dx) + 0 - / t * rsum n (fun i => (w@(n + i) + w@i) * (- (du@i + dx@i) * (/ (u@i + x@i) * / (u@i + x@i))) + (w@(n + i) - w@i) * (- (du@i - dx@i) * (/ (u@i - x@i) * / (u@i - x@i))))).
      { unfold Rminus at 1. rewrite Rplus_0_r. f_equal. rewrite <- rsum_mul_l, <- rsum_opp. apply rsum_ext. intros i Hi.
        rewrite (@app_nth2 R dx du 0 (n + i)) by lia. rewrite (@app_nth1 R dx du 0 i) by lia. replace (n + i - length dx)%nat with i by lia.
        rewrite (@d1_nth n m times), (@d2_nth n m times) by (auto; eassumption).
        rewrite (proj1 (@q1_pos n m times trans y x u Adj Ly Hin i Hi)), (proj1 (@q2_pos n m times trans y x u Adj Ly Hin i Hi)).
        generalize (/ (u@i + x@i)) (/ (u@i - x@i)) (/ t). intros. ring. }
      apply dpl_minus; [apply dpl_plus; [apply dpl_quad|apply dpl_const]|]. apply dpl_scal.
      apply (dpl_rsum (fun i s => (w@(n + i) + w@i) * (1 / ((u@i + x@i) + s * (du@i + dx@i))) + (w@(n + i) - w@i) * (1 / ((u@i - x@i) + s * (du@i - dx@i))))).
      intros i Hi. destruct (inside_bounds Hin Hi). apply dpl_plus; apply dpl_scal; now apply dpl_inv.
  Qed.
End Deriv.
