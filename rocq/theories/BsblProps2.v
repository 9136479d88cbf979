(** C55, continued: what a step of block sparse Bayesian learning learns.

    [good_state] holds of every state the learners reach (C55_reached_good).
    [svd_ok] says that jnp.linalg.svd is right on symmetric positive definite
    matrices. *)
From Coq Require Import List Arith Bool Reals Lia Lra Psatz.
From Verif Require Import Scalar Vec RVec Loop XReal SolverSpec LoopLemmas
  BsblModel BsblSpec BsblSpec2 BsblProofs BsblProofs2 BsblProofs6 BsblProofs7
  BsblProofs8 BsblProofs9 BsblProps.
Import ListNotations.
Local Open Scope R_scope.

(** The recorded change is the largest change of a coefficient. *)
Theorem C55_change : forall m nb b Phi y solve inv svd o body s s',
  body = em_body m nb b Phi y solve inv o \/
  body = bo_body m nb b Phi y solve inv svd o \/
  body = bo_np_body m nb b Phi y solve inv svd o ->
  body s = Some s' ->
  (forall i c, (i < nb)%nat -> (c < b)%nat ->
     Rabs (bs_mu s' i c - bs_mu s i c) <= bs_dmu s') /\
  ((0 < nb)%nat -> (0 < b)%nat -> exists i c, (i < nb)%nat /\ (c < b)%nat /\
     bs_dmu s' = Rabs (bs_mu s' i c - bs_mu s i c)).
Proof.
  intros m nb b Phi y solve inv svd o body s s' HB Hs.
  exact (step_change m nb b Phi y solve inv svd o body s s' HB Hs).
Qed.
Print Assumptions C55_change.

(** With the noise level fixed or learned by the low SNR rule, all three
    learners reach good states only. *)
Theorem C55_reached_good : forall m nb b Phi y solve inv svd o body k s,
  solver_ok m solve -> inv_ok b inv -> (0 < b)%nat -> (0 < m)%nat ->
  0 <= bo_prune o -> 0 < bo_lambda o -> (bo_learn_lambda o <= 1)%nat ->
  (bo_learn_lambda o = 1%nat -> exists r, (r < m)%nat /\ y r <> 0) ->
  body = em_body m nb b Phi y solve inv o \/
  body = bo_body m nb b Phi y solve inv svd o \/
  body = bo_np_body m nb b Phi y solve inv svd o ->
  reaches (bsbl_cond o) body (bsbl_init m y o) k s -> good_state nb s.
Proof. exact reached_good. Qed.
Print Assumptions C55_reached_good.

(** A step of BSBL-EM learns the correlation and the noise level by the
    published rules from the posterior covariance, and gives each active block
    the variance g that minimises b ln g + tr(B^-1 K) / g, K the second moment
    used. *)
Theorem C55_em_learns : forall m nb b Phi y solve inv o s s',
  solver_ok m solve -> inv_ok b inv -> (0 < b)%nat -> (0 < m)%nat ->
  0 <= bo_prune o -> good_state nb s ->
  (exists i, (i < nb)%nat /\ is_active o s i = true) ->
  em_body m nb b Phi y solve inv o s = Some s' ->
  exists r C r', learned m nb b Phi (is_active o s) s s' r C r' /\
    noise_learned m nb b Phi (bo_learn_lambda o) s s' C r' /\
    forall i X, (i < nb)%nat -> is_active o s i = true ->
      inverse_of b (ar1 r') X ->
      let t := trace_mul b X (used_moment b C (bs_mu s') i) in
      bs_gam s' i * INR b = t /\
      (0 < bs_gam s' i -> forall g, 0 < g ->
         INR b * ln (bs_gam s' i) + t / bs_gam s' i <= INR b * ln g + t / g).
Proof.
  intros m nb b Phi y solve inv o s s' HS HI Hb Hm HP HG HE Hs.
  exact (em_learns m nb b Phi y solve inv HS HI Hb Hm o s s' HP HG HE Hs).
Qed.
Print Assumptions C55_em_learns.

(** A step of BSBL-BO does the same with the variances of the bound
    optimisation. *)
Theorem C55_bo_learns : forall m nb b Phi y solve inv svd o s s',
  solver_ok m solve -> inv_ok b inv -> svd_ok b svd -> (0 < b)%nat -> (0 < m)%nat ->
  0 <= bo_prune o -> good_state nb s ->
  (exists i, (i < nb)%nat /\ is_active o s i = true) ->
  bo_body m nb b Phi y solve inv svd o s = Some s' ->
  exists r C r', learned m nb b Phi (is_active o s) s s' r C r' /\
    noise_learned m nb b Phi (bo_learn_lambda o) s s' C r' /\
    bo_rule m nb b Phi y (is_active o s) s s' r r'.
Proof.
  intros m nb b Phi y solve inv svd o s s' HS HI HV Hb Hm HP HG HE Hs.
  exact (bo_learns m nb b Phi y solve inv svd HS HI Hb Hm o s s' HV HP HG HE Hs).
Qed.
Print Assumptions C55_bo_learns.

(** A step of the unpruned learner treats every block as active: its iterate is
    the posterior mean with all the blocks, and it succeeds only if all the
    variances are positive. *)
Theorem C55_np_learns : forall m nb b Phi y solve inv svd o s s',
  solver_ok m solve -> inv_ok b inv -> svd_ok b svd ->
  (0 < nb)%nat -> (0 < b)%nat -> (0 < m)%nat -> good_state nb s ->
  bo_np_body m nb b Phi y solve inv svd o s = Some s' ->
  exists r C r', learned m nb b Phi (fun _ => true) s s' r C r' /\
    noise_learned m nb b Phi (bo_learn_lambda o) s s' C r' /\
    bo_rule m nb b Phi y (fun _ => true) s s' r r' /\
    posterior_mean m (nb * b) Phi
      (block_prior b (fun _ => true) (bs_gam s) r) (bs_lam s) y
      (flatten b (bs_mu s')) /\
    forall i, (i < nb)%nat -> 0 < bs_gam s i.
Proof.
  intros m nb b Phi y solve inv svd o s s' HS HI HV Hn Hb Hm HG Hs.
  exact (np_learns m nb b Phi y solve inv svd HS HI Hb Hm o s s' HV Hn HG Hs).
Qed.
Print Assumptions C55_np_learns.

(** A run of the unpruned learner stops within its budget: it is rejected (a
    division by zero) or returns a state with the residual of its mean, a
    positive noise level, variances that are not negative, and a reason to stop. *)
Theorem C55_np_run : forall m nb b Phi y solve inv svd o,
  solver_ok m solve -> inv_ok b inv -> (0 < b)%nat -> (0 < m)%nat ->
  0 <= bo_prune o -> 0 < bo_lambda o -> (bo_learn_lambda o <= 1)%nat ->
  (bo_learn_lambda o = 1%nat -> exists r, (r < m)%nat /\ y r <> 0) ->
  bsbl_bo_np m nb b Phi y solve inv svd o (bo_max_iters o) <> Fuel /\
  forall s, bsbl_bo_np m nb b Phi y solve inv svd o (bo_max_iters o) = Done s ->
    (bs_it s <= bo_max_iters o)%nat /\
    (bs_dmu s <= bo_eps o \/ bs_it s = bo_max_iters o) /\
    (forall r, bs_r s r = y r - rsum (nb * b) (fun k => Phi r k * bs_mu s (k / b)%nat (k mod b)%nat)) /\
    0 < bs_lam s /\ (forall i, (i < nb)%nat -> 0 <= bs_gam s i).
Proof.
  intros m nb b Phi y solve inv svd o HS HI Hb Hm HP HL Hr Hy. split.
  - unfold bsbl_bo_np.
    apply (@while_term _ (bsbl_cond o) (bo_np_body m nb b Phi y solve inv svd o)
      (fun s => bo_max_iters o - bs_it s)%nat (fun _ => True)); auto; [| |cbn; lia].
    { intros s _ HC. apply andb_true_iff in HC. destruct HC as [_ HC]. apply Nat.ltb_lt in HC. lia. }
    intros s s' _ HC Hs. split; auto. apply np_result in Hs. destruct Hs as [_ [_ [_ [HIt _]]]].
    apply andb_true_iff in HC. destruct HC as [_ HC]. apply Nat.ltb_lt in HC. lia.
  - intros s Hd. destruct (@while_done _ _ _ _ _ _ Hd) as [j [Hj [HR HC]]].
    pose proof (run_consistent m nb b Phi y solve inv svd o _ j s (or_intror (or_intror eq_refl)) HR) as [HA [_ HIt]].
    pose proof (C55_reached_good m nb b Phi y solve inv svd o _ j s HS HI Hb Hm HP HL Hr Hy
      (or_intror (or_intror eq_refl)) HR) as Hok.
    split; [lia|]. split; [|split; [exact HA|split; apply Hok]].
    apply andb_false_iff in HC. destruct HC as [HC|HC].
    + left. destruct (Rltb_spec (bo_eps o) (bs_dmu s)); [discriminate|lra].
    + right. apply Nat.ltb_ge in HC. lia.
Qed.
Print Assumptions C55_np_run.

(** The square root that the code takes of a correlation matrix B is one:
    |B^(1/2) h|^2 = h^T B h. *)
Theorem C55_square_root : forall b svd B h,
  svd_ok b svd -> spd b B ->
  rsum b (fun i => (rsum b (fun j => sqrtm_svd b svd B i j * h j)) ^ 2) =
  rsum b (fun i => rsum b (fun j => h i * B i j * h j)).
Proof.
  intros b svd B h HV HB. transitivity (quad b B h); [|reflexivity].
  rewrite <- (svd_sqrt b svd B h HV HB).
  unfold fsq, fmv. apply rsum_ext. intros. ring.
Qed.
Print Assumptions C55_square_root.

(** Singular values of 1 x 1 matrices, and steps that satisfy the
    assumptions: BSBL-EM with two blocks of length two, the others with one
    block of length one. *)
Definition svd1 (B : fmat) : fmat * fvec * fmat :=
  (fun _ _ => 1, fun _ => B 0%nat 0%nat, fun _ _ => 1).

Lemma svd1_ok : svd_ok 1 svd1.
Proof.
  intros B HB. apply spd1 in HB. cbn. repeat split; intros.
  - lra.
  - assert (i = 0)%nat as -> by lia. assert (j = 0)%nat as -> by lia. cbn. ring.
  - assert (i = 0)%nat as -> by lia. assert (j = 0)%nat as -> by lia. cbn. ring.
  - assert (i = 0)%nat as -> by lia. assert (j = 0)%nat as -> by lia. cbn. ring.
Qed.

Example C55_learns_nonvacuous :
  let o := mkBO 1 1 (1 / 2) 1 5 0 in
  (let Phi : fmat := fun _ k => INR k in let y : fvec := fun _ => 1 in
   let s := bsbl_init 1 y o in
   solver_ok 1 solve1 /\ inv_ok 2 inv2 /\ good_state 2 s /\
   is_active o s 0%nat = true /\
   exists s', em_body 1 2 2 Phi y solve1 inv2 o s = Some s') /\
  (let Phi : fmat := fun _ _ => 3 in let y : fvec := fun _ => 1 in
   let s := bsbl_init 1 y o in
   solver_ok 1 solve1 /\ inv_ok 1 inv1 /\ svd_ok 1 svd1 /\ good_state 1 s /\
   is_active o s 0%nat = true /\
   (exists s', bo_body 1 1 1 Phi y solve1 inv1 svd1 o s = Some s') /\
   exists s', bo_np_body 1 1 1 Phi y solve1 inv1 svd1 o s = Some s').
Proof.
  intros o.
  assert (HA : forall y, is_active o (bsbl_init 1 y o) 0%nat = true)
    by (intros; apply Rltb_iff; cbn; lra).
  assert (HG : forall nb y, good_state nb (bsbl_init 1 y o))
    by (intros; apply (init_ok 1 nb y o); cbn; lra).
  split.
  - intros Phi y s. split; [apply solve1_ok|]. split; [apply inv2_ok|].
    split; [apply HG|]. split; [apply HA|].
    destruct (em_step 1 2 2 Phi y solve1 inv2 solve1_ok inv2_ok ltac:(lia) o s)
      as [s' [E _]]; [cbn; lra|cbn; lia| |apply (HG 2%nat)|eauto].
    intros _. exists 0%nat. split; [lia|]. unfold y. lra.
  - intros Phi y s. split; [apply solve1_ok|]. split; [apply inv1_ok|].
    split; [apply svd1_ok|]. split; [apply HG|]. split; [apply HA|]. split.
    + apply (bo_some 1 1 1 Phi y solve1 inv1 svd1 solve1_ok ltac:(lia) o s);
        [cbn; lra|cbn; lia| | |apply (HG 1%nat)].
      * intros _. exists 0%nat. split; [lia|]. unfold y. lra.
      * intros i Hi. exists 0%nat, 0%nat. split; [lia|]. split; [lia|].
        unfold Phi. lra.
    + unfold bo_np_body. cbn [bs_S0 s bsbl_init].
      replace (some_block 1 _) with false.
      2:{ unfold some_block. cbn [seq existsb bs_gam bsbl_init s].
          destruct (Reqb_spec 1 0); [lra|reflexivity]. }
      unfold compute_B_B_inv. cbn [Nat.eqb bo_learn_lambda o update_lambda].
      unfold update_gammas_bo_pruned. cbn [seq forallb].
      unfold bo_mapper at 1.
      match goal with |- context [Rltb 0 ?t] =>
        assert (HT : t = 9 / 10) end.
      { unfold ftrace, h_phi, compute_h, ftr, solve1, add_to_diagonal,
          cum_phi_b_phi, fmul, feye, subdict, ftr, Phi, toeplitz. cbn. field. }
      rewrite HT. destruct (Rltb_spec 0 (9 / 10)); [|lra]. cbn [andb]. eauto.
Qed.
