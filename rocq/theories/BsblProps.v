(** C55: block sparse Bayesian learning computes Gaussian posteriors, prunes
    blocks for good and keeps its residual consistent.

    [solver_ok] and [inv_ok] say that jnp.linalg.solve and jnp.linalg.inv are
    correct on symmetric positive definite matrices. *)
From Coq Require Import List Arith Bool Reals Lia Lra Psatz.
From Verif Require Import Scalar Vec RVec Loop XReal SolverSpec LoopLemmas
  BsblModel BsblSpec BsblProofs BsblProofs2 BsblProofs3 BsblProofs4 BsblProofs5
  BsblProofs6 BsblProofs7.
Import ListNotations.
Local Open Scope R_scope.

(** In all three algorithms the residual of every iterate is y - Phi x, its
    squared norm is stored and the iterations are counted. *)
Theorem C55_residual : forall m nb b Phi y solve inv svd o body k s,
  body = em_body m nb b Phi y solve inv o \/
  body = bo_body m nb b Phi y solve inv svd o \/
  body = bo_np_body m nb b Phi y solve inv svd o ->
  reaches (bsbl_cond o) body (bsbl_init m y o) k s ->
  (forall r, bs_r s r =
     y r - rsum (nb * b) (fun l => Phi r l * bs_mu s (l / b)%nat (l mod b)%nat)) /\
  bs_rn s = rsum m (fun r => bs_r s r * bs_r s r) /\ bs_it s = k.
Proof.
  intros m nb b Phi y solve inv svd o body k s HB HR.
  exact (run_consistent m nb b Phi y solve inv svd o body k s HB HR).
Qed.
Print Assumptions C55_residual.

(** A block whose variance is at or below the threshold is zero in every later
    iterate. *)
Theorem C55_pruned : forall m nb b Phi y solve inv svd o body k j s s' i,
  0 <= bo_prune o ->
  body = em_body m nb b Phi y solve inv o \/
  body = bo_body m nb b Phi y solve inv svd o ->
  reaches (bsbl_cond o) body (bsbl_init m y o) k s ->
  bs_gam s i <= bo_prune o ->
  reaches (bsbl_cond o) body (bsbl_init m y o) (k + 1 + j) s' ->
  (forall c, bs_mu s' i c = 0) /\ bs_gam s' i = 0.
Proof.
  intros m nb b Phi y solve inv svd o body k j s s' i HP HB HR HA HR'.
  assert (HA' : is_active o s i = false).
  { unfold is_active. destruct (Rltb_spec (bo_prune o) (bs_gam s i)); auto. lra. }
  replace (k + 1 + j)%nat with (S (k + j)) in HR' by lia.
  destruct (run_pruned m nb b Phi y solve inv svd o body k s HP HB j s' i
    HR HA' HR') as [H1 [H2 _]]. auto.
Qed.
Print Assumptions C55_pruned.

(** Each iterate is the mean of the posterior for the current variances, the
    current noise level and a correlation r^|p-q| inside the active blocks,
    and no other vector is. *)
Theorem C55_posterior_mean : forall m nb b Phi y solve inv svd o body k s s',
  solver_ok m solve -> inv_ok b inv -> (0 < b)%nat ->
  0 <= bo_prune o -> 0 < bo_lambda o -> (bo_learn_lambda o <= 1)%nat ->
  (bo_learn_lambda o = 1%nat -> exists r, (r < m)%nat /\ y r <> 0) ->
  body = em_body m nb b Phi y solve inv o \/
  body = bo_body m nb b Phi y solve inv svd o ->
  reaches (bsbl_cond o) body (bsbl_init m y o) k s -> body s = Some s' ->
  exists r, Rabs r < 1 /\ psd (nb * b) (state_prior b o s r) /\
    posterior_mean m (nb * b) Phi (state_prior b o s r) (bs_lam s) y
      (flatten b (bs_mu s')) /\
    (forall x,
       posterior_mean m (nb * b) Phi (state_prior b o s r) (bs_lam s) y x ->
       forall l, (l < nb * b)%nat -> x l = flatten b (bs_mu s') l).
Proof.
  intros. eapply run_posterior; eauto.
Qed.
Print Assumptions C55_posterior_mean.

(** The posterior mean minimises |y - Phi x|^2 + lam u.Pu over the vectors
    x = P u in the range of the prior. *)
Theorem C55_mean_minimises : forall m nb b Phi y solve S0 act lam,
  solver_ok m solve -> 0 < lam ->
  (forall i, (i < nb)%nat -> act i = true -> psd b (S0 i)) ->
  let H := compute_h Phi solve (cum_phi_b_phi_pruned nb b Phi S0 act) lam in
  let x := flatten b (compute_mu_x_pruned m b y S0 H act) in
  let P := prior b act S0 in
  let cost := fun u => fsq m (fun r => y r - fmv (nb * b) Phi (fmv (nb * b) P u) r)
                       + lam * quad (nb * b) P u in
  exists v, (forall k, (k < nb * b)%nat -> x k = fmv (nb * b) P v k) /\
    forall u, cost v <= cost u.
Proof.
  intros m nb b Phi y solve S0 act lam HS HL HP H x P cost.
  exists (fmv m (ftr Phi) (zvec nb b Phi y solve S0 act lam)). split.
  - intros k Hk. apply (mu_is m nb b Phi y solve HS S0 act lam HP HL k Hk).
  - intros u.
    apply (mean_min m (nb * b) Phi P lam (prior_psd nb b S0 act HP) HL y).
    intros r Hr. apply (z_sys m nb b Phi y solve HS S0 act lam HP HL r Hr).
Qed.
Print Assumptions C55_mean_minimises.

(** The blocks Sigma_x are the diagonal blocks of the posterior covariance,
    which is positive semidefinite; on active blocks they are positive
    semidefinite and below the prior variances. *)
Theorem C55_posterior_cov : forall m nb b Phi solve S0 act lam,
  solver_ok m solve -> 0 < lam ->
  (forall i, (i < nb)%nat -> act i = true -> psd b (S0 i)) ->
  let H := compute_h Phi solve (cum_phi_b_phi_pruned nb b Phi S0 act) lam in
  let Sx := compute_sigma_x_pruned m b Phi S0 H act in
  exists C, posterior_cov m (nb * b) Phi (prior b act S0) lam C /\
    (forall C', posterior_cov m (nb * b) Phi (prior b act S0) lam C' ->
       forall k l, (k < nb * b)%nat -> (l < nb * b)%nat -> C k l = C' k l) /\
    (forall i p q, (i < nb)%nat -> (p < b)%nat -> (q < b)%nat ->
       Sx i p q = C (i * b + p)%nat (i * b + q)%nat) /\
    forall i, (i < nb)%nat -> psd b (Sx i) /\
      forall p, (p < b)%nat -> act i = true -> 0 <= Sx i p p <= S0 i p p.
Proof.
  intros m nb b Phi solve S0 act lam HS HL HP H Sx.
  exists (pcov m nb b Phi solve S0 act lam).
  assert (HC : posterior_cov m (nb * b) Phi (prior b act S0) lam
     (pcov m nb b Phi solve S0 act lam)) by (apply pcov_spec; auto).
  split; auto. split; [|split].
  - intros C' HC'. eapply cov_unique; eauto. apply prior_psd; auto.
  - intros i p q Hi Hp Hq.
    apply (sigma_is m nb b Phi solve HS S0 act lam HP HL i p q Hi Hp Hq).
  - intros i Hi. split.
    + apply (sigma_psd m nb b Phi solve HS S0 act lam HP HL i Hi).
    + intros p Hp HA.
      apply (sigma_diag m nb b Phi solve HS S0 act lam HP HL i p Hi Hp HA).
Qed.
Print Assumptions C55_posterior_cov.

(** The three ways to sum Phi_i Sigma_i Phi_i^T agree: the loop, the vectorised
    sum, and the pruned sum when nothing is pruned; each is Phi P Phi^T. *)
Theorem C55_sums : forall nb b Phi S0 p q,
  cum_phi_b_phi_ref nb b Phi S0 p q = cum_phi_b_phi nb b Phi S0 p q /\
  cum_phi_b_phi nb b Phi S0 p q =
    rsum (nb * b) (fun k => rsum (nb * b) (fun l =>
      Phi p l * block_diag b S0 l k) * Phi q k) /\
  cum_phi_b_phi_pruned nb b Phi S0 (fun _ => true) p q =
    cum_phi_b_phi nb b Phi S0 p q.
Proof.
  intros nb b Phi S0 p q. split; [apply cum_ref|]. split; [|reflexivity].
  rewrite cum_all. exact (cum_is nb b Phi S0 (fun _ => true) p q).
Qed.
Print Assumptions C55_sums.

(** The second moment: right for blocks of length one, wrong for longer ones,
    where the inner product of the means is added to every entry in place of
    their outer product. *)
Theorem C55_second_moment_partial : forall Sx mu i p q,
  (p < 1)%nat -> (q < 1)%nat ->
  compute_cov_x 1 Sx mu i p q = Sx i p q + mu i p * mu i q.
Proof.
  intros Sx mu i p q Hp Hq. unfold compute_cov_x. cbn [rsum].
  assert (p = 0)%nat as -> by lia. assert (q = 0)%nat as -> by lia. ring.
Qed.
Print Assumptions C55_second_moment_partial.

Theorem C55_second_moment_refuted : exists b Sx mu i p q,
  (p < b)%nat /\ (q < b)%nat /\
  compute_cov_x b Sx mu i p q <> Sx i p q + mu i p * mu i q.
Proof.
  exists 2%nat, (fun _ _ _ => 0),
    (fun _ c => if Nat.eqb c 0 then 1 else 0), 0%nat, 0%nat, 1%nat.
  split; [lia|]. split; [lia|]. unfold compute_cov_x. cbn. lra.
Qed.
Print Assumptions C55_second_moment_refuted.

(** The learned correlation matrix is Toeplitz with entries r^|p-q|,
    |r| <= 0.99, positive definite, with the inverse returned beside it. *)
Theorem C55_correlation : forall b inv B0 B Bi,
  inv_ok b inv -> compute_B_B_inv b inv B0 = Some (B, Bi) ->
  exists r, Rabs r <= 99 / 100 /\
    (forall p q, B p q = r ^ (p - q + (q - p))) /\ spd b B /\
    (forall p q, (p < b)%nat -> (q < b)%nat ->
       rsum b (fun l => B p l * Bi l q) = if Nat.eqb p q then 1 else 0).
Proof.
  intros b inv B0 B Bi HI H. apply B_facts in H.
  destruct H as [r [Hr [-> ->]]]. exists r. split; auto.
  split; [reflexivity|].
  assert (HT : spd b (toeplitz r)) by (apply toep_spd; lra).
  split; auto.
Qed.
Print Assumptions C55_correlation.

(** With the noise level fixed or learned by the low SNR rule, BSBL-EM ends
    within max_iters iterations without NaN, with a positive noise level and
    non-negative variances. *)
Theorem C55_em_total : forall m nb b Phi y solve inv o,
  solver_ok m solve -> inv_ok b inv -> (0 < b)%nat ->
  0 <= bo_prune o -> 0 < bo_lambda o -> (bo_learn_lambda o <= 1)%nat ->
  (bo_learn_lambda o = 1%nat -> exists r, (r < m)%nat /\ y r <> 0) ->
  exists s, bsbl_em m nb b Phi y solve inv o (bo_max_iters o) = Done s /\
    (bs_it s <= bo_max_iters o)%nat /\
    (bs_dmu s <= bo_eps o \/ bs_it s = bo_max_iters o) /\
    0 < bs_lam s /\ (forall i, (i < nb)%nat -> 0 <= bs_gam s i).
Proof. intros. apply em_total; auto. Qed.
Print Assumptions C55_em_total.

(** The same for BSBL-BO when no block of the dictionary is zero. *)
Theorem C55_bo_total : forall m nb b Phi y solve inv svd o,
  solver_ok m solve -> inv_ok b inv -> (0 < b)%nat ->
  0 <= bo_prune o -> 0 < bo_lambda o -> (bo_learn_lambda o <= 1)%nat ->
  (bo_learn_lambda o = 1%nat -> exists r, (r < m)%nat /\ y r <> 0) ->
  (forall i, (i < nb)%nat ->
     exists p c, (p < m)%nat /\ (c < b)%nat /\ Phi p (i * b + c)%nat <> 0) ->
  exists s, bsbl_bo m nb b Phi y solve inv svd o (bo_max_iters o) = Done s /\
    (bs_it s <= bo_max_iters o)%nat /\
    (bs_dmu s <= bo_eps o \/ bs_it s = bo_max_iters o) /\
    0 < bs_lam s /\ (forall i, (i < nb)%nat -> 0 <= bs_gam s i).
Proof. intros. apply bo_total; auto. Qed.
Print Assumptions C55_bo_total.

(** An active block of zero columns makes BSBL-BO divide by zero. *)
Theorem C55_bo_zero_block : forall m nb b Phi y solve inv svd o s i,
  (i < nb)%nat -> bo_prune o < bs_gam s i ->
  (forall r c, (r < m)%nat -> (c < b)%nat -> Phi r (i * b + c)%nat = 0) ->
  bo_body m nb b Phi y solve inv svd o s = None.
Proof.
  intros m nb b Phi y solve inv svd o s i Hi HA HZ.
  apply (bo_zero_block m nb b Phi y solve inv svd o s i); auto.
  unfold is_active. destruct (Rltb_spec (bo_prune o) (bs_gam s i)); auto.
Qed.
Print Assumptions C55_bo_zero_block.

(** With the high SNR rule the noise level is NaN two steps after a block has
    been found inactive. *)
Theorem C55_high_snr_stops : forall m nb b Phi y solve inv o s s' i,
  (2 <= bo_learn_lambda o)%nat -> (i < nb)%nat ->
  bs_gam s i <= bo_prune o ->
  em_body m nb b Phi y solve inv o s = Some s' ->
  em_body m nb b Phi y solve inv o s' = None.
Proof.
  intros m nb b Phi y solve inv o s s' i Hr Hi HA Hs.
  apply (high_snr_stops m nb b Phi y solve inv o s s' i); auto.
  unfold is_active. destruct (Rltb_spec (bo_prune o) (bs_gam s i)); auto. lra.
Qed.
Print Assumptions C55_high_snr_stops.

(** Concrete solvers: one equation, and inverses of 1 x 1 and 2 x 2
    matrices. *)
Definition solve1 (A P : fmat) : fmat := fun _ j => P 0%nat j / A 0%nat 0%nat.
Definition inv1 (B : fmat) : fmat := fun _ _ => / B 0%nat 0%nat.
Definition inv2 (B : fmat) : fmat := fun i j =>
  (if Nat.eqb i j then B (1 - i)%nat (1 - i)%nat else - B i j) /
  (B 0%nat 0%nat * B 1%nat 1%nat - B 0%nat 1%nat * B 1%nat 0%nat).

Lemma spd1 A : spd 1 A -> 0 < A 0%nat 0%nat.
Proof.
  intros [_ H].
  assert (HQ : 0 < quad 1 A (fun _ => 1))
    by (apply H; exists 0%nat; split; [lia|lra]).
  unfold quad in HQ. cbn in HQ. lra.
Qed.

Lemma solve1_ok : solver_ok 1 solve1.
Proof.
  intros A P HA i j Hi. apply spd1 in HA. assert (i = 0)%nat as -> by lia.
  cbn. unfold solve1. field. lra.
Qed.

Lemma inv1_ok : inv_ok 1 inv1.
Proof.
  intros B HB i j Hi Hj. apply spd1 in HB.
  assert (i = 0)%nat as -> by lia. assert (j = 0)%nat as -> by lia.
  cbn. unfold inv1. field. lra.
Qed.

Lemma inv2_ok : inv_ok 2 inv2.
Proof.
  intros B [HB1 HB2] i j Hi Hj.
  pose proof (HB1 0 1 ltac:(lia) ltac:(lia))%nat as HS.
  assert (H0 : 0 < B 0%nat 0%nat).
  { assert (HQ : 0 < quad 2 B (fun i => if Nat.eqb i 0 then 1 else 0))
      by (apply HB2; exists 0%nat; split; [lia|simpl; lra]).
    unfold quad in HQ. cbn in HQ. lra. }
  assert (HD : 0 < B 0%nat 0%nat * B 1%nat 1%nat - B 0%nat 1%nat * B 1%nat 0%nat).
  { assert (HQ : 0 < quad 2 B (fun i => if Nat.eqb i 0 then B 0%nat 1%nat
                             else - B 0%nat 0%nat))
      by (apply HB2; exists 1%nat; split; [lia|simpl; lra]).
    unfold quad in HQ. cbn in HQ. rewrite <- HS in *.
    assert (0 < B 0%nat 0%nat * (B 0%nat 0%nat * B 1%nat 1%nat -
                                 B 0%nat 1%nat * B 0%nat 1%nat)) by lra.
    nra. }
  assert (Hi' : i = 0%nat \/ i = 1%nat) by lia.
  assert (Hj' : j = 0%nat \/ j = 1%nat) by lia.
  destruct Hi' as [->| ->], Hj' as [->| ->]; cbn; unfold inv2; cbn;
    rewrite <- ?HS in *; field; lra.
Qed.

(** The high SNR rule may produce a negative noise variance. *)
Theorem C55_high_snr_refuted : exists m nb b Phi y solve inv o s,
  solver_ok m solve /\ inv_ok b inv /\ 0 < bo_lambda o /\
  em_body m nb b Phi y solve inv o (bsbl_init m y o) = Some s /\ bs_lam s < 0.
Proof.
  exists 1%nat, 1%nat, 2%nat, (fun _ _ => 0), (fun _ => 0), solve1, inv2,
    (mkBO 1 2 0 1 5 0).
  eexists. split; [apply solve1_ok|]. split; [apply inv2_ok|].
  split; [cbn; lra|].
  assert (HA : Rltb 0 1 = true) by (apply Rltb_iff; lra).
  assert (HZ : Reqb 1 0 = false)
    by (destruct (Reqb 1 0) eqn:E; auto; apply Reqb_true in E; lra).
  unfold em_body, pruned_parts, some_block.
  cbn [bs_S0 bsbl_init seq existsb bo_prune bs_gam orb].
  rewrite HA, HZ. cbn [andb orb].
  match goal with |- context [compute_B_B_inv 2 inv2 ?B] =>
    assert (HB : compute_B_B_inv 2 inv2 B = Some (toeplitz 0, inv2 (toeplitz 0)))
  end.
  { unfold compute_B_B_inv, corr_coef. cbn [Nat.eqb].
    match goal with |- context [xdiv ?u ?v] =>
      assert (E1 : u = 0); [|assert (E2 : v = 1); [|rewrite E1, E2]] end.
    - cbn [rsum Nat.sub]. unfold compute_cov_x_sum_pruned, compute_cov_x,
        compute_sigma_x_pruned, compute_sigma_x, compute_mu_x_pruned, h_y, h_phi,
        fmul, fmv, feye. cbn -[Rltb]. rewrite ?HA. cbn -[Rltb]. rewrite ?HA. field.
    - cbn [rsum]. unfold compute_cov_x_sum_pruned, compute_cov_x,
        compute_sigma_x_pruned, compute_sigma_x, compute_mu_x_pruned, h_y, h_phi,
        fmul, fmv, feye. cbn -[Rltb]. rewrite ?HA. cbn -[Rltb]. rewrite ?HA. field.
    - unfold xdiv.
      destruct (Reqb 1 0) eqn:E; [apply Reqb_true in E; lra|].
      cbn [xmax xmin]. replace (0 / 1) with 0 by field.
      replace (Rmin (Rmax 0 (- (99 / 100))) (99 / 100)) with 0; [reflexivity|].
      rewrite Rmax_left by lra. rewrite Rmin_left by lra. reflexivity. }
  rewrite HB. cbn [option_map snd bo_learn_lambda update_lambda].
  unfold update_lambda_high_snr. cbn [seq forallb bs_gam bsbl_init].
  rewrite HZ. cbn [negb andb]. split; [reflexivity|].
  cbn [bs_lam next_state bo_lambda].
  match goal with |- (?u + ?v) / _ < 0 =>
    assert (E1 : u = 0); [|assert (E2 : v = -1); [|rewrite E1, E2; cbn; lra]] end.
  - unfold fsq, residual, fmv. cbn. field.
  - unfold ftrace, inv2, compute_sigma_x_pruned, compute_sigma_x, h_phi, fmul,
      feye, toeplitz. cbn -[Rltb]. rewrite ?HA. cbn -[Rltb]. rewrite ?HA. field.
Qed.
Print Assumptions C55_high_snr_refuted.

(** The option learn_block_corr has no influence. *)
Theorem C55_block_corr_ignored : forall m nb b Phi y solve inv svd c c' r p l k e fuel,
  bsbl_em m nb b Phi y solve inv (mkBO c r p l k e) fuel =
  bsbl_em m nb b Phi y solve inv (mkBO c' r p l k e) fuel /\
  bsbl_bo m nb b Phi y solve inv svd (mkBO c r p l k e) fuel =
  bsbl_bo m nb b Phi y solve inv svd (mkBO c' r p l k e) fuel.
Proof. intros. split; reflexivity. Qed.
Print Assumptions C55_block_corr_ignored.

(** A run with two blocks, one measurement and a block that is pruned after
    the first iteration while the other stays active; with the high SNR rule
    the second step still succeeds. *)
Example C55_nonvacuous : forall rule, rule = 0%nat \/ rule = 2%nat ->
  let Phi : fmat := fun _ k => if Nat.eqb k 0 then 3 else 0 in
  let y : fvec := fun _ => 1 in
  let o := mkBO 1 rule (1 / 2) 1 5 0 in
  solver_ok 1 solve1 /\ inv_ok 1 inv1 /\ 0 <= bo_prune o /\ 0 < bo_lambda o /\
  exists s, reaches (bsbl_cond o) (em_body 1 2 1 Phi y solve1 inv1 o)
      (bsbl_init 1 y o) 1 s /\
    bs_mu s 0%nat 0%nat = 3 / 10 /\
    bs_gam s 0%nat = 19 / 100 /\ bs_gam s 1%nat = 1 /\
    em_body 1 2 1 Phi y solve1 inv1 o s <> None.
Proof.
  intros rule Hrule Phi y o. split; [apply solve1_ok|]. split; [apply inv1_ok|].
  split; [cbn; lra|]. split; [cbn; lra|].
  assert (HA : Rltb (1 / 2) 1 = true) by (apply Rltb_iff; lra).
  assert (HA0 : Rltb (1 / 2) (19 / 100) = false)
    by (destruct (Rltb_spec (1 / 2) (19 / 100)); auto; lra).
  assert (HZ : Reqb 1 0 = false)
    by (destruct (Reqb 1 0) eqn:E; auto; apply Reqb_true in E; lra).
  assert (HZ0 : Reqb (19 / 100) 0 = false)
    by (destruct (Reqb (19 / 100) 0) eqn:E; auto; apply Reqb_true in E; lra).
  assert (HE : exists s, em_body 1 2 1 Phi y solve1 inv1 o (bsbl_init 1 y o) = Some s /\
    bs_mu s 0%nat 0%nat = 3 / 10 /\
    bs_gam s 0%nat = 19 / 100 /\ bs_gam s 1%nat = 1 /\ bs_S0 s <> None).
  { unfold em_body, pruned_parts, some_block.
    cbn [bs_S0 bsbl_init seq existsb bo_prune bs_gam orb o].
    rewrite HA, HZ. cbn [andb orb].
    unfold compute_B_B_inv. cbn [Nat.eqb].
    cbn [option_map snd bo_learn_lambda].
    match goal with |- context [update_lambda ?a ?b ?c ?d ?e ?f ?g ?h ?i ?j] =>
      assert (HU : exists lam, update_lambda a b c d e f g h i j = Some lam)
    end.
    { destruct Hrule as [->| ->]; cbn [update_lambda bo_learn_lambda o]; [eauto|].
      unfold update_lambda_high_snr. cbn [seq forallb bs_gam bsbl_init]. rewrite HZ.
      cbn [negb andb]. eauto. }
    destruct HU as [lam ->].
    eexists. split; [reflexivity|].
    cbn [bs_mu bs_gam bs_S0 next_state].
    repeat split; [| | |discriminate].
    - unfold compute_mu_x_pruned. rewrite ?HA.
      unfold h_y, compute_h, ftr, solve1, add_to_diagonal, cum_phi_b_phi_pruned,
        fmul, fmv, feye, subdict, ftr, Phi, y. cbn -[Rltb]. rewrite ?HA. cbn -[Rltb]. field.
    - unfold update_gammas_em_pruned. rewrite ?HA.
      unfold ftrace, compute_cov_x, compute_sigma_x_pruned, compute_mu_x_pruned.
      unfold fmul at 1. cbn [rsum]. rewrite ?HA. unfold compute_sigma_x.
      unfold h_y, h_phi, compute_h, ftr, solve1, add_to_diagonal,
        cum_phi_b_phi_pruned, fmul, fmv, feye, subdict, ftr, Phi, y, inv1, toeplitz.
      cbn -[Rltb]. rewrite ?HA. cbn -[Rltb]. field.
    - unfold update_gammas_em_pruned. rewrite ?HA.
      unfold ftrace, compute_cov_x, compute_sigma_x_pruned, compute_mu_x_pruned.
      unfold fmul at 1. cbn [rsum]. rewrite ?HA. unfold compute_sigma_x.
      unfold h_y, h_phi, compute_h, ftr, solve1, add_to_diagonal,
        cum_phi_b_phi_pruned, fmul, fmv, feye, subdict, ftr, Phi, y, inv1, toeplitz.
      cbn -[Rltb]. rewrite ?HA. cbn -[Rltb]. field. }
  destruct HE as [s [H1 [H2 [H3 [H4 H5]]]]]. exists s. split; [|split; [|split; [|split]]];
    auto.
  - apply reach_S with (s := bsbl_init 1 y o); [constructor| |auto].
    unfold bsbl_cond. cbn. destruct (Rltb_spec 0 1); [reflexivity|lra].
  - unfold em_body, pruned_parts, some_block. cbn [seq existsb bo_prune o].
    destruct (bs_S0 s) as [S0|]; [|congruence].
    rewrite H3, H4, HA0, HA, HZ. cbn [andb orb].
    unfold compute_B_B_inv. cbn [Nat.eqb option_map snd bo_learn_lambda].
    match goal with |- context [update_lambda ?a ?b ?c ?d ?e ?f ?g ?h ?i ?j] =>
      assert (HU : exists lam, update_lambda a b c d e f g h i j = Some lam)
    end.
    { destruct Hrule as [->| ->]; cbn [update_lambda bo_learn_lambda o]; [eauto|].
      unfold update_lambda_high_snr. cbn [seq forallb]. rewrite H3, H4, HZ, HZ0.
      cbn [negb andb]. eauto. }
    destruct HU as [lam ->]. discriminate.
Qed.
