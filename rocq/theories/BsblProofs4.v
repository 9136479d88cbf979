(** The model's step computes the posterior mean and covariance. *)
From Coq Require Import List Arith Bool Reals Lia Lra Psatz.
From Verif Require Import Scalar Vec RVec Loop XReal BsblModel BsblSpec BsblProofs
  BsblProofs2 BsblProofs3.
Import ListNotations.
Local Open Scope R_scope.

Section Step.
  Variables (m nb b : nat) (Phi : fmat) (y : fvec).
  Variable solve : fmat -> fmat -> fmat.
  Hypothesis HS : solver_ok m solve.

  Notation n := (nb * b)%nat.

  Section Parts.
  Variables (S0 : nat -> fmat) (act : nat -> bool) (lam : R).
  Hypothesis HP : forall i, (i < nb)%nat -> act i = true -> psd b (S0 i).
  Hypothesis HL : 0 < lam.

  Notation D := (prior b act S0).
  Notation A := (add_to_diagonal (cum_phi_b_phi_pruned nb b Phi S0 act) lam).
  Notation H := (compute_h Phi solve (cum_phi_b_phi_pruned nb b Phi S0 act) lam).

  Lemma prior_psd : psd n D.
  Proof.
    apply bd_psd. intros i Hi. destruct (act i) eqn:E.
    - apply HP; auto.
    - apply psd_zero.
  Qed.

  Lemma PD_entry p i c : (i < nb)%nat -> (c < b)%nat ->
    fmul n Phi D p (i * b + c)%nat =
    if act i then fmul b (subdict b Phi i) (S0 i) p c else 0.
  Proof.
    intros Hi Hc. unfold fmul, prior. rewrite bd_mul_r by auto.
    destruct (act i); [reflexivity|]. apply rsum_0'. intros. ring.
  Qed.

  Lemma cum_is p q :
    cum_phi_b_phi_pruned nb b Phi S0 act p q =
    fmul n (fmul n Phi D) (ftr Phi) p q.
  Proof.
    unfold cum_phi_b_phi_pruned. unfold fmul at 3. rewrite rsum_blocks.
    apply rsum_ext. intros i Hi. destruct (act i) eqn:E.
    - unfold fmul at 1. apply rsum_ext. intros c Hc.
      rewrite PD_entry by auto. rewrite E. reflexivity.
    - symmetry. apply rsum_0'. intros c Hc. rewrite PD_entry by auto.
      rewrite E. ring.
  Qed.

  Lemma A_is p q : A p q = sysmat n Phi D lam p q.
  Proof. unfold add_to_diagonal, sysmat. rewrite cum_is. reflexivity. Qed.

  Lemma A_spd : spd m A.
  Proof.
    apply (spd_ext m (sysmat n Phi D lam)).
    - intros. symmetry. apply A_is.
    - apply sys_spd; auto. apply prior_psd.
  Qed.

  (** Solving with the system. *)
  Lemma solve_sys P r c : (r < m)%nat ->
    rsum m (fun l => sysmat n Phi D lam r l * solve A P l c) = P r c.
  Proof.
    intros Hr. rewrite <- (HS A P A_spd r c Hr). apply rsum_ext. intros l Hl.
    rewrite A_is. reflexivity.
  Qed.

  (** H z for any vector: the transpose of the solution. *)
  Lemma H_apply w x k :
    (forall r, (r < m)%nat -> fmv m (sysmat n Phi D lam) w r = x r) ->
    fmv m H x k = fmv m (ftr Phi) w k.
  Proof.
    intros HW. unfold compute_h, fmv at 1. unfold ftr at 1.
    rewrite (rsum_ext (n := m) _ (fun l => rsum m (fun j =>
      solve A Phi l k * sysmat n Phi D lam l j * w j))).
    2:{ intros l Hl. rewrite <- HW by auto. unfold fmv.
        rewrite <- rsum_mul_l. apply rsum_ext. intros. ring. }
    rewrite rsum_exchange. unfold fmv, ftr. apply rsum_ext. intros j Hj.
    rewrite rsum_mul_r. f_equal. rewrite <- (solve_sys Phi j k Hj).
    apply rsum_ext. intros l Hl.
    rewrite (sys_sym m n Phi D lam prior_psd l j) by auto. ring.
  Qed.

  Definition zvec : fvec := fun l => solve A (fun r _ => y r) l 0%nat.

  Lemma z_sys r : (r < m)%nat -> fmv m (sysmat n Phi D lam) zvec r = y r.
  Proof.
    intros Hr. unfold fmv, zvec. exact (solve_sys (fun r _ => y r) r 0%nat Hr).
  Qed.

  Notation mu := (compute_mu_x_pruned m b y S0 H act).

  Lemma mu_is k : (k < n)%nat ->
    flatten b mu k = fmv n D (fmv m (ftr Phi) zvec) k.
  Proof.
    intros Hk. destruct (blk_range nb b k Hk) as [Hi [Hc Hb]].
    transitivity (fmv n D (fmv m (ftr Phi) zvec) (k / b * b + k mod b)%nat);
      [|f_equal; symmetry; apply blk_split; auto].
    unfold flatten, prior.
    rewrite bd_mv by auto. unfold compute_mu_x_pruned.
    destruct (act (k / b)).
    - apply fmv_ext; auto. intros c Hc'. unfold h_y.
      apply H_apply. apply z_sys.
    - symmetry. apply rsum_0'. intros. ring.
  Qed.

  Lemma mu_mean : posterior_mean m n Phi D lam y (flatten b mu).
  Proof.
    destruct (mean_of_z m n Phi D lam y zvec z_sys) as [HM _].
    intros k Hk. specialize (HM k Hk).
    rewrite mu_is by auto. rewrite <- HM. f_equal.
    apply rsum_ext. intros j Hj. f_equal. apply rsum_ext. intros r Hr. f_equal.
    apply rsum_ext. intros l Hl. rewrite mu_is by auto. reflexivity.
  Qed.

  Lemma mu_residual r : (r < m)%nat -> residual nb b Phi y mu r = lam * zvec r.
  Proof.
    intros Hr. destruct (mean_of_z m n Phi D lam y zvec z_sys) as [_ HM].
    rewrite <- HM by auto. unfold residual. f_equal.
    apply fmv_ext; auto. apply mu_is.
  Qed.

  Lemma mu_minimal u :
    fsq m (residual nb b Phi y mu) + lam * quad n D (fmv m (ftr Phi) zvec) <=
    fsq m (fun r => y r - fmv n Phi (fmv n D u) r) + lam * quad n D u.
  Proof.
    pose proof (mean_min m n Phi D lam prior_psd HL y zvec u z_sys) as HM.
    replace (fsq m (residual nb b Phi y mu)) with
      (fsq m (fun r => y r - fmv n Phi (fmv n D (fmv m (ftr Phi) zvec)) r));
      auto.
    apply rsum_ext. intros r Hr. unfold residual.
    rewrite (fmv_ext n Phi Phi (flatten b mu) (fmv n D (fmv m (ftr Phi) zvec)));
      auto.
    apply mu_is.
  Qed.

  Lemma residual_zero :
    fsq m (residual nb b Phi y mu) = 0 -> forall r, (r < m)%nat -> y r = 0.
  Proof.
    intros HZ r Hr. rewrite <- (z_sys r Hr). apply rsum_0'. intros l Hl.
    pose proof (fsq_zero m _ HZ l Hl) as HR. rewrite mu_residual in HR by auto.
    assert (zvec l = 0) as -> by nra. ring.
  Qed.

  Definition xmat : fmat := solve A (fmul n Phi D).
  Lemma x_sys r c : (r < m)%nat -> (c < n)%nat ->
    rsum m (fun l => sysmat n Phi D lam r l * xmat l c) = fmul n Phi D r c.
  Proof. intros Hr _. apply solve_sys; auto. Qed.

  Definition pcov : fmat := covm m n Phi D xmat.

  Lemma pcov_spec : posterior_cov m n Phi D lam pcov.
  Proof. apply cov_of_X. apply x_sys. Qed.

  Notation Sx := (compute_sigma_x_pruned m b Phi S0 H act).

  Lemma sigma_is i p q : (i < nb)%nat -> (p < b)%nat -> (q < b)%nat ->
    Sx i p q = pcov (i * b + p)%nat (i * b + q)%nat.
  Proof.
    intros Hi Hp Hq. unfold pcov, covm.
    assert (E : block_diag b (fun i => if act i then S0 i else fun _ _ => 0)
       (i * b + p)%nat (i * b + q)%nat =
       if act i then S0 i p q else 0).
    { rewrite bd_entry by auto. rewrite Nat.eqb_refl. destruct (act i); auto. }
    unfold prior in *. rewrite E. rewrite bd_mv by auto.
    unfold compute_sigma_x_pruned. destruct (act i) eqn:EA.
    - unfold compute_sigma_x. f_equal. unfold fmul at 1.
      rewrite (rsum_ext (n := b) _ (fun d => rsum b (fun c =>
        S0 i p c * (h_phi m b Phi H i c d * S0 i d q)))).
      2:{ intros d Hd. unfold fmul. rewrite <- rsum_mul_r. apply rsum_ext.
          intros. ring. }
      rewrite rsum_exchange. unfold fmv at 1. apply rsum_ext. intros c Hc.
      rewrite rsum_mul_l. f_equal.
      rewrite <- (H_apply (fun l => xmat l (i * b + q)%nat)
        (fun r => fmul n Phi D r (i * b + q)%nat) (i * b + c)%nat).
      + unfold h_phi, fmv.
        rewrite (rsum_ext (n := m) _ (fun r => rsum b (fun d =>
          H (i * b + c)%nat r * (Phi r (i * b + d)%nat * S0 i d q)))).
        2:{ intros r Hr. rewrite PD_entry by auto. rewrite EA.
            unfold fmul, subdict. rewrite <- rsum_mul_l. reflexivity. }
        rewrite rsum_exchange. apply rsum_ext. intros d Hd.
        unfold fmul. rewrite <- rsum_mul_r. apply rsum_ext. intros. ring.
      + intros r Hr. apply x_sys; auto. apply blk_lt; auto.
    - replace (fmv b (fun _ _ => 0) _ p) with 0; [ring|].
      symmetry. apply rsum_0'. intros. ring.
  Qed.

  Lemma sigma_psd i : (i < nb)%nat -> psd b (Sx i).
  Proof.
    intros Hi.
    apply (psd_ext b (fun p q => pcov (i * b + p)%nat (i * b + q)%nat)).
    - intros. symmetry. apply sigma_is; auto.
    - apply (psd_block nb b pcov i); auto.
      apply (cov_psd m n Phi D lam xmat prior_psd HL x_sys).
  Qed.

  (** Smaller than the prior, and zero only where that is. *)
  Lemma sigma_diag i p : (i < nb)%nat -> (p < b)%nat -> act i = true ->
    0 <= Sx i p p <= S0 i p p /\ (Sx i p p = 0 -> S0 i p p = 0).
  Proof.
    intros Hi Hp EA. pose proof (psd_diag b (Sx i) p (sigma_psd i Hi) Hp) as H1.
    rewrite sigma_is in * by auto.
    assert (Hk : (i * b + p < n)%nat) by (apply blk_lt; auto).
    assert (ED : D (i * b + p)%nat (i * b + p)%nat = S0 i p p).
    { unfold prior. rewrite bd_entry by auto. rewrite Nat.eqb_refl, EA.
      reflexivity. }
    set (e := fun j => if Nat.eqb j (i * b + p) then 1 else 0).
    pose proof (cov_le m n Phi D lam xmat prior_psd HL x_sys e) as HLe.
    pose proof (cov_zero m n Phi D lam xmat prior_psd HL x_sys e) as HZe.
    unfold e in *. rewrite !quad_unit in * by auto. rewrite ED in *.
    fold pcov in *. split; [lra|auto].
  Qed.
  End Parts.
End Step.

(** The two ways of summing agree with pruning nothing. *)
Lemma cum_all nb b Phi S0 p q :
  cum_phi_b_phi nb b Phi S0 p q =
  cum_phi_b_phi_pruned nb b Phi S0 (fun _ => true) p q.
Proof. reflexivity. Qed.

Lemma cum_ref nb b Phi S0 p q :
  cum_phi_b_phi_ref nb b Phi S0 p q = cum_phi_b_phi nb b Phi S0 p q.
Proof.
  unfold cum_phi_b_phi_ref, cum_phi_b_phi.
  assert (G : forall k f, fold_left (fun acc i => fun p q =>
      acc p q + phi_b_phi b Phi (i * b) (S0 i) p q) (seq 0 k) f p q =
      f p q + rsum k (fun i => phi_b_phi b Phi (i * b) (S0 i) p q)).
  { induction k as [|k IH]; intros f; [simpl; ring|].
    rewrite seq_S, fold_left_app. cbn [fold_left plus rsum].
    rewrite IH. ring. }
  rewrite G, Rplus_0_l. reflexivity.
Qed.
