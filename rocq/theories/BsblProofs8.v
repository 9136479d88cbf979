(** What a step of block sparse Bayesian learning learns. *)
From Coq Require Import List Arith Bool Reals Lia Lra Psatz.
From Verif Require Import Scalar Vec RVec Loop XReal SolverSpec LoopLemmas
  BsblModel BsblSpec BsblSpec2 BsblProofs BsblProofs2 BsblProofs3 BsblProofs4
  BsblProofs5 BsblProofs6 BsblProofs7.
Import ListNotations.
Local Open Scope R_scope.

(** ** Square roots *)
Lemma spd_zero_col b P D : spd b P ->
  rsum b (fun j => quad b P (fun i => D i j)) <= 0 ->
  forall i j, (i < b)%nat -> (j < b)%nat -> D i j = 0.
Proof.
  intros HP H i j Hi Hj.
  assert (H0 : forall j, (j < b)%nat -> 0 <= quad b P (fun i => D i j))
    by (intros; apply spd_psd; auto).
  assert (HZ : quad b P (fun i => D i j) = 0).
  { apply (@rsum_eq0 b (fun j => quad b P (fun i => D i j)) H0); auto.
    apply Rle_antisym; auto. apply rsum_pos. auto. }
  destruct (Req_dec (D i j) 0) as [|N]; auto. exfalso.
  destruct HP as [_ HP]. specialize (HP (fun i => D i j)).
  assert (0 < quad b P (fun i => D i j)) by (apply HP; eauto). lra.
Qed.

(** Positive semidefinite square roots are unique. *)
Lemma root_unique b P Q : spd b P -> psd b Q ->
  (forall i j, (i < b)%nat -> (j < b)%nat -> fmul b P P i j = fmul b Q Q i j) ->
  forall i j, (i < b)%nat -> (j < b)%nat -> P i j = Q i j.
Proof.
  intros HP HQ HE.
  set (D := fun i j => P i j - Q i j).
  assert (HD : forall i j, (i < b)%nat -> (j < b)%nat -> D i j = 0).
  { apply (spd_zero_col b P); auto.
    assert (E : rsum b (fun j => quad b P (fun i => D i j)) +
                rsum b (fun j => quad b Q (fun i => D i j)) = 0).
    { assert (E1 : rsum b (fun j => quad b P (fun i => D i j)) =
        rsum b (fun i => rsum b (fun j => D i j * fmul b P D i j))).
      { rewrite rsum_exchange. apply rsum_ext. intros j Hj. unfold quad.
        apply rsum_ext. intros i Hi. unfold fmul. rewrite <- rsum_mul_l.
        apply rsum_ext. intros. ring. }
      assert (E2 : rsum b (fun j => quad b Q (fun i => D i j)) =
        rsum b (fun i => rsum b (fun j => D i j * fmul b D Q i j))).
      { apply rsum_ext. intros j Hj. unfold quad.
        rewrite rsum_exchange.
        apply rsum_ext. intros i Hi. unfold fmul. rewrite <- rsum_mul_l.
        apply rsum_ext. intros k Hk. unfold D.
        rewrite (proj1 HP i j), (proj1 HQ i j), (proj1 HP k j), (proj1 HQ k j) by auto.
        ring. }
      rewrite E1, E2, <- rsum_add. apply rsum_0'. intros i Hi.
      rewrite <- rsum_add. apply rsum_0'. intros j Hj.
      rewrite <- Rmult_plus_distr_l. apply Rmult_eq_0_compat_l.
      specialize (HE i j Hi Hj). unfold fmul in *.
      rewrite <- rsum_add.
      rewrite (rsum_ext (n := b) _ (fun l => P i l * P l j - Q i l * Q l j)).
      - rewrite rsum_sub, HE. ring.
      - intros l Hl. unfold D. ring. }
    assert (0 <= rsum b (fun j => quad b Q (fun i => D i j))).
    { apply rsum_pos. intros. apply HQ. }
    lra. }
  intros i j Hi Hj. specialize (HD i j Hi Hj). unfold D in HD. lra.
Qed.

Lemma sum_delta b f j : (j < b)%nat ->
  rsum b (fun l => f l * (if Nat.eqb l j then 1 else 0)) = f j.
Proof.
  intros Hj. rewrite (rsum_single (n := b) (k := j)); auto.
  - rewrite Nat.eqb_refl. ring.
  - intros i Hi N. destruct (Nat.eqb_spec i j); [congruence|ring].
Qed.

(** (W^T diag(s)) (M) (diag(t) W) with M = I. *)
Lemma sandwich b (s t : fvec) (M W : fmat) i j :
  (forall p q, (p < b)%nat -> (q < b)%nat -> M p q = if Nat.eqb p q then 1 else 0) ->
  rsum b (fun p => rsum b (fun q => W p i * s p * M p q * (t q * W q j))) =
  rsum b (fun p => s p * t p * (W p i * W p j)).
Proof.
  intros HM. apply rsum_ext. intros p Hp.
  rewrite (rsum_single (n := b) (k := p)); auto.
  - rewrite HM, Nat.eqb_refl by auto. ring.
  - intros q Hq N. rewrite HM by auto. destruct (Nat.eqb_spec p q); [congruence|ring].
Qed.

(** The product of two sums. *)
Lemma sum_prod_mid b (F G : nat -> nat -> R) :
  rsum b (fun l => rsum b (fun p => F p l) * rsum b (fun q => G q l)) =
  rsum b (fun p => rsum b (fun q => rsum b (fun l => F p l * G q l))).
Proof.
  rewrite (rsum_ext (n := b) _ (fun l => rsum b (fun p => rsum b (fun q => F p l * G q l)))).
  - rewrite rsum_exchange. apply rsum_ext. intros p Hp. apply rsum_exchange.
  - intros l Hl. rewrite <- rsum_mul_r. apply rsum_ext. intros p Hp.
    rewrite <- rsum_mul_l. reflexivity.
Qed.

Lemma svd_sqrt b svd B h : svd_ok b svd -> spd b B ->
  fsq b (fmv b (sqrtm_svd b svd B) h) = quad b B h.
Proof.
  intros HV HB. specialize (HV B HB). unfold sqrtm_svd.
  destruct (svd B) as [[u s] vh]. destruct HV as [Hs [Hu [Hv HE]]].
  set (Q := fun i j => rsum b (fun l => s l * (vh l i * vh l j))).
  assert (HQq : forall x, quad b Q x =
     rsum b (fun l => s l * (rsum b (fun i => vh l i * x i) *
                             rsum b (fun j => vh l j * x j)))).
  { intros x. unfold quad, Q.
    rewrite (rsum_ext (n := b) _ (fun i => rsum b (fun l => rsum b (fun j =>
      s l * (vh l i * x i) * (vh l j * x j))))).
    - rewrite rsum_exchange. apply rsum_ext. intros l Hl.
      rewrite (rsum_ext (n := b) _ (fun i => s l * (vh l i * x i) *
        rsum b (fun j => vh l j * x j))) by (intros; apply rsum_mul_l).
      rewrite rsum_mul_r, rsum_mul_l. ring.
    - intros i Hi. rewrite rsum_exchange. apply rsum_ext. intros j Hj.
      rewrite <- rsum_mul_l, <- rsum_mul_r. apply rsum_ext. intros. ring. }
  assert (HQ : psd b Q).
  { split.
    - intros i j Hi Hj. apply rsum_ext. intros. ring.
    - intros x. rewrite HQq. apply rsum_pos. intros l Hl.
      apply Rmult_le_pos; auto. apply Rle_0_sqr. }
  assert (HBQ : forall i j, (i < b)%nat -> (j < b)%nat -> B i j = Q i j).
  { apply root_unique; auto. intros i j Hi Hj.
    transitivity (rsum b (fun p => s p * s p * (vh p i * vh p j))).
    - unfold fmul.
      rewrite (rsum_ext (n := b) _ (fun l =>
        rsum b (fun p => u l p * s p * vh p i) * rsum b (fun q => u l q * s q * vh q j))).
      2:{ intros l Hl. rewrite !HE by auto. rewrite (proj1 HB i l) by auto.
          reflexivity. }
      rewrite sum_prod_mid.
      rewrite <- (sandwich b s s (fun p q => rsum b (fun l => u l p * u l q)) vh i j Hu).
      apply rsum_ext. intros p Hp. apply rsum_ext. intros q Hq.
      rewrite <- rsum_mul_l, <- rsum_mul_r. apply rsum_ext. intros. ring.
    - symmetry. unfold fmul, Q.
      rewrite (sum_prod_mid b (fun p l => s p * (vh p i * vh p l))
        (fun q l => s q * (vh q l * vh q j))).
      rewrite <- (sandwich b s s (fun p q => rsum b (fun l => vh p l * vh q l)) vh i j Hv).
      apply rsum_ext. intros p Hp. apply rsum_ext. intros q Hq.
      rewrite <- rsum_mul_l, <- rsum_mul_r. apply rsum_ext. intros. ring. }
  transitivity (quad b Q h).
  2:{ apply rsum_ext. intros i Hi. apply rsum_ext. intros j Hj.
      rewrite HBQ by auto. reflexivity. }
  rewrite HQq.
  set (w := fun l => rsum b (fun i => vh l i * h i)).
  assert (EF : forall r, (r < b)%nat ->
    fmv b (fmul b (fmul b u (fun i j => if Nat.eqb i j then sqrt (s i) else 0)) vh) h r
    = rsum b (fun p => u r p * (sqrt (s p) * w p))).
  { intros r Hr. rewrite fmv_fmul. unfold fmv at 1. apply rsum_ext. intros p Hp.
    change (fmv b vh h p) with (w p).
    replace (fmul b u (fun i j => if Nat.eqb i j then sqrt (s i) else 0) r p)
      with (u r p * sqrt (s p)); [ring|].
    unfold fmul. rewrite (rsum_single (n := b) (k := p)); auto.
    - rewrite Nat.eqb_refl. reflexivity.
    - intros q Hq N. destruct (Nat.eqb_spec q p); [congruence|ring]. }
  unfold fsq.
  rewrite (rsum_ext (n := b) _ (fun r =>
    rsum b (fun p => u r p * (sqrt (s p) * w p)) *
    rsum b (fun q => u r q * (sqrt (s q) * w q)))).
  2:{ intros r Hr. rewrite !EF by auto. reflexivity. }
  rewrite (sum_prod_mid b (fun p r => u r p * (sqrt (s p) * w p))
    (fun q r => u r q * (sqrt (s q) * w q))).
  transitivity (rsum b (fun p => sqrt (s p) * sqrt (s p) * (w p * w p))).
  - rewrite <- (sandwich b (fun p => sqrt (s p)) (fun p => sqrt (s p))
      (fun p q => rsum b (fun l => u l p * u l q)) (fun p _ => w p) 0%nat 0%nat Hu).
    apply rsum_ext. intros p Hp. apply rsum_ext. intros q Hq.
    rewrite <- rsum_mul_l, <- rsum_mul_r. apply rsum_ext. intros. ring.
  - apply rsum_ext. intros p Hp. rewrite sqrt_sqrt by auto. reflexivity.
Qed.

(** ** The learned correlation *)
Lemma B_learned b inv B0 B Bi : (0 < b)%nat ->
  compute_B_B_inv b inv B0 = Some (B, Bi) -> 0 < ftrace b B0 ->
  exists r, Rabs r <= 99 / 100 /\ B = toeplitz r /\ Bi = inv (toeplitz r) /\
    ((2 <= b)%nat -> r = clip99 (lag_ratio b B0)).
Proof.
  intros Hb H HT. destruct (Nat.eq_dec b 1) as [->|N].
  - unfold compute_B_B_inv in H. cbn [Nat.eqb] in H. injection H as <- <-.
    exists 0. rewrite Rabs_R0. repeat split; [lra|lia].
  - unfold compute_B_B_inv in H.
    destruct (Nat.eqb_spec b 1); [congruence|].
    destruct (corr_coef b B0) as [r| | |] eqn:E; try discriminate.
    injection H as <- <-. exists r. split; [eapply corr_coef_range; eauto|].
    repeat split. intros _. revert E. unfold corr_coef.
    destruct (Nat.eqb_spec b 1); [congruence|].
    unfold xdiv.
    destruct (Reqb_spec (rsum b (fun i => B0 i i) / INR b) 0) as [Z|_].
    + exfalso. unfold ftrace in HT.
      assert (HI : 0 < / INR b) by (apply Rinv_0_lt_compat, lt_0_INR; auto).
      unfold Rdiv in Z. apply Rmult_integral in Z. lra.
    + cbn [xmin xmax]. intros E. injection E as <-. reflexivity.
Qed.

Lemma cov_ext m n Phi P P' lam C :
  (forall k j, (k < n)%nat -> (j < n)%nat -> P k j = P' k j) ->
  posterior_cov m n Phi P lam C -> posterior_cov m n Phi P' lam C.
Proof.
  intros HE HM k c Hk Hc. specialize (HM k c Hk Hc).
  rewrite <- HE, <- HM by auto. f_equal.
  apply rsum_ext. intros j Hj. rewrite HE; auto.
Qed.

(** ** One step *)
Section Learn.
  Variables (m nb b : nat) (Phi : fmat) (y : fvec).
  Variable solve : fmat -> fmat -> fmat.
  Variable inv : fmat -> fmat.
  Variable svd : fmat -> fmat * fvec * fmat.
  Hypothesis HS : solver_ok m solve.
  Hypothesis HI : inv_ok b inv.
  Hypothesis Hb : (0 < b)%nat.
  Variables (S0 : nat -> fmat) (act : nat -> bool) (gam : fvec) (lam r : R).
  Hypothesis Hr : Rabs r < 1.
  Hypothesis HL : 0 < lam.
  Hypothesis HG : forall i, (i < nb)%nat -> 0 <= gam i.
  Hypothesis HA : forall i, (i < nb)%nat -> act i = true -> 0 < gam i.
  Hypothesis H0 : forall i p q, (i < nb)%nat -> S0 i p q = gam i * toeplitz r p q.

  Notation n := (nb * b)%nat.
  Notation D := (prior b act S0).
  Notation A := (add_to_diagonal (cum_phi_b_phi_pruned nb b Phi S0 act) lam).
  Notation H := (compute_h Phi solve (cum_phi_b_phi_pruned nb b Phi S0 act) lam).
  Notation mu := (compute_mu_x_pruned m b y S0 H act).
  Notation Sx := (compute_sigma_x_pruned m b Phi S0 H act).
  Notation Cx := (compute_cov_x b Sx mu).
  Notation W := (compute_cov_x_sum_pruned nb Cx gam act).
  Notation C := (pcov m nb b Phi solve S0 act lam).

  Lemma S0_psd i : (i < nb)%nat -> act i = true -> psd b (S0 i).
  Proof.
    intros Hi _. apply (psd_ext b (fun p q => gam i * toeplitz r p q)).
    - intros. symmetry. auto.
    - apply psd_scale; auto. apply spd_psd. apply toep_spd; auto.
  Qed.

  Lemma D_is k j : (k < n)%nat -> (j < n)%nat ->
    D k j = block_prior b act gam r k j.
  Proof.
    intros Hk Hj. destruct (blk_range nb b k Hk) as [Hi _].
    unfold block_prior, prior, block_diag.
    destruct (Nat.eqb _ _); auto. destruct (act (k / b)); auto.
  Qed.

  Lemma C_cov : posterior_cov m n Phi (block_prior b act gam r) lam C.
  Proof.
    apply (cov_ext m n Phi D); [exact D_is|].
    apply pcov_spec; auto. apply S0_psd.
  Qed.

  Lemma Cx_is i p q : (i < nb)%nat -> (p < b)%nat -> (q < b)%nat ->
    Cx i p q = used_moment b C mu i p q.
  Proof.
    intros Hi Hp Hq. unfold compute_cov_x, used_moment. f_equal.
    apply (sigma_is m nb b Phi solve HS S0 act lam S0_psd HL); auto.
  Qed.

  Lemma W_is p q : (p < b)%nat -> (q < b)%nat ->
    W p q = moment_sum nb act gam (used_moment b C mu) p q.
  Proof.
    intros Hp Hq. unfold compute_cov_x_sum_pruned, moment_sum.
    apply rsum_ext. intros i Hi. rewrite Cx_is by auto.
    destruct (act i); auto. field.
  Qed.

  Lemma Cx_psd i : (i < nb)%nat -> psd b (Cx i).
  Proof.
    intros Hi. unfold compute_cov_x. apply psd_add_const.
    - apply rsum_pos. intros. nra.
    - apply (sigma_psd m nb b Phi solve HS S0 act lam S0_psd HL); auto.
  Qed.

  Lemma W_trace : (exists i, (i < nb)%nat /\ act i = true) -> 0 < ftrace b W.
  Proof.
    intros [i [Hi HAi]].
    assert (HT : forall j p, (j < nb)%nat -> (p < b)%nat ->
      0 <= (if act j then Cx j p p / gam j else Cx j p p)).
    { intros j p Hj Hp. pose proof (psd_diag b _ p (Cx_psd j Hj) Hp) as HC.
      destruct (act j) eqn:E; auto. apply Rmult_le_pos; auto.
      left. apply Rinv_0_lt_compat. auto. }
    assert (HP : forall p, (p < b)%nat -> 0 <= W p p)
      by (intros; apply rsum_pos; intros; apply HT; auto).
    apply Rlt_le_trans with (W 0%nat 0%nat).
    2:{ apply (@rsum_ge_term b (fun p => W p p) 0%nat Hb HP). }
    apply Rlt_le_trans with (Cx i 0%nat 0%nat / gam i).
    2:{ pose proof (@rsum_ge_term nb (fun j => if act j then Cx j 0%nat 0%nat / gam j
          else Cx j 0%nat 0%nat) i Hi (fun j Hj => HT j 0%nat Hj Hb)) as HX.
        cbn beta in HX. rewrite HAi in HX. exact HX. }
    apply Rdiv_lt_0_compat; [|auto].
    destruct (sigma_diag m nb b Phi solve HS S0 act lam S0_psd HL i 0%nat Hi Hb HAi)
      as [[H1 _] H2].
    assert (H3 : 0 < Sx i 0%nat 0%nat).
    { destruct H1 as [|E]; auto. exfalso. symmetry in E. specialize (H2 E).
      rewrite H0, toep_diag in H2 by auto. specialize (HA i Hi HAi). lra. }
    unfold compute_cov_x.
    assert (0 <= rsum b (fun c => mu i c * mu i c)) by (apply rsum_pos; intros; nra).
    lra.
  Qed.

  Lemma lag_is : lag_ratio b W = lag_ratio b (moment_sum nb act gam (used_moment b C mu)).
  Proof.
    unfold lag_ratio.
    rewrite (rsum_ext (n := b) (fun p => W p p)
      (fun p => moment_sum nb act gam (used_moment b C mu) p p))
      by (intros; apply W_is; auto).
    rewrite (rsum_ext (n := b - 1) (fun p => W p (S p))
      (fun p => moment_sum nb act gam (used_moment b C mu) p (S p)))
      by (intros; apply W_is; lia).
    reflexivity.
  Qed.

  Lemma step_learned B Bi s s' : (exists i, (i < nb)%nat /\ act i = true) ->
    bs_S0 s = Some S0 -> bs_gam s = gam -> bs_lam s = lam ->
    compute_B_B_inv b inv W = Some (B, Bi) ->
    bs_mu s' = mu -> bs_S0 s' = Some (update_sigma_0 (bs_gam s') B) ->
    exists r', learned m nb b Phi act s s' r C r' /\ B = toeplitz r' /\
      Bi = inv (toeplitz r').
  Proof.
    intros HE E0 EG EL EB EM ES.
    pose proof (W_trace HE) as HT.
    destruct (B_learned b inv _ B Bi Hb EB HT) as [r' [Hr' [-> [-> Hc]]]].
    exists r'. split; [|auto]. split; [exact Hr|].
    split; [intros S1 E1; rewrite E0 in E1; injection E1 as <-; rewrite EG; exact H0|].
    rewrite EG, EL. split; [exact C_cov|]. split; [exact Hr'|]. split.
    - intros Hb2. cbv zeta. rewrite EM. split.
      + rewrite (rsum_ext (n := b) _ (fun p => W p p))
          by (intros; symmetry; apply W_is; auto). exact HT.
      + rewrite <- lag_is. auto.
    - exists (update_sigma_0 (bs_gam s') (toeplitz r')). split; [exact ES|].
      intros. reflexivity.
  Qed.

  Lemma inv_unique r' X : Rabs r' < 1 -> inverse_of b (ar1 r') X ->
    forall p q, (p < b)%nat -> (q < b)%nat -> X p q = inv (toeplitz r') p q.
  Proof.
    intros Hr' HX. apply (right_inverse_unique b (toeplitz r')).
    - apply toep_spd; auto.
    - intros i j Hi Hj. rewrite (HI _ (toep_spd r' b Hr')) by auto.
      exact (HX i j Hi Hj).
  Qed.

  Lemma em_gam r' X i : Rabs r' < 1 -> inverse_of b (ar1 r') X ->
    (i < nb)%nat -> act i = true ->
    update_gammas_em_pruned b Cx (inv (toeplitz r')) act i * INR b =
    trace_mul b X (used_moment b C mu i).
  Proof.
    intros Hr' HX Hi HAi. unfold update_gammas_em_pruned. rewrite HAi.
    unfold Rdiv. rewrite Rmult_assoc, Rinv_l, Rmult_1_r
      by (apply not_0_INR; lia).
    unfold ftrace, fmul, trace_mul. apply rsum_ext. intros p Hp.
    apply rsum_ext. intros q Hq. rewrite (inv_unique r' X) by auto.
    rewrite Cx_is by auto. reflexivity.
  Qed.

  Lemma data_is p q : data_cov n Phi (block_prior b act gam r) lam p q =
    sysmat n Phi D lam p q.
  Proof.
    unfold data_cov, sysmat. f_equal. unfold fmul, ftr. apply rsum_ext. intros l Hl.
    f_equal. apply rsum_ext. intros k Hk. rewrite D_is by auto. reflexivity.
  Qed.

  Lemma bo_gam_is r' Z z i : Rabs r' < 1 -> svd_ok b svd ->
    (forall p k, (p < m)%nat -> (k < n)%nat ->
       rsum m (fun l => data_cov n Phi (block_prior b act gam r) lam p l * Z l k)
       = Phi p k) ->
    (forall p, (p < m)%nat ->
       rsum m (fun l => data_cov n Phi (block_prior b act gam r) lam p l * z l) = y p) ->
    (i < nb)%nat ->
    let N := quad b (ar1 r') (fun c => rsum m (fun p => Phi p (i * b + c)%nat * z p)) in
    let T := trace_mul b (fun c d =>
       rsum m (fun p => Z p (i * b + c)%nat * Phi p (i * b + d)%nat)) (ar1 r') in
    fsq b (fmv b (sqrtm_svd b svd (toeplitz r')) (h_y m b y H i)) = N /\
    ftrace b (fmul b (h_phi m b Phi H i) (toeplitz r')) = T.
  Proof.
    intros Hr' HV HZ Hz Hi N T. split.
    - rewrite (svd_sqrt b svd _ _ HV (toep_spd r' b Hr')).
      unfold N, quad. apply rsum_ext. intros c Hc. apply rsum_ext. intros d Hd.
      assert (E : forall c, (c < b)%nat -> h_y m b y H i c =
        rsum m (fun p => Phi p (i * b + c)%nat * z p)).
      { intros e He. unfold h_y.
        rewrite (H_apply m nb b Phi solve HS S0 act lam S0_psd HL z y).
        - reflexivity.
        - intros p Hp. unfold fmv. rewrite <- Hz by auto. apply rsum_ext.
          intros l Hl. rewrite data_is. reflexivity. }
      rewrite !E by auto. reflexivity.
    - unfold T, ftrace, fmul, trace_mul. apply rsum_ext. intros c Hc.
      apply rsum_ext. intros d Hd. f_equal.
      unfold h_phi, fmul, compute_h, ftr. apply rsum_ext. intros p Hp. f_equal.
      assert (HX : solve A Phi p (i * b + c)%nat - Z p (i * b + c)%nat = 0).
      { apply (sys_inj m n Phi D lam (prior_psd nb b S0 act S0_psd) HL
          (fun p => solve A Phi p (i * b + c)%nat - Z p (i * b + c)%nat)); auto.
        intros q Hq. rewrite fmv_sub. unfold fmv.
        rewrite (solve_sys m nb b Phi solve HS S0 act lam S0_psd HL) by auto.
        rewrite <- (HZ q (i * b + c)%nat Hq (blk_lt nb b i c Hi Hc)).
        rewrite <- rsum_sub. apply rsum_0'. intros l Hl. rewrite data_is. ring. }
      lra.
  Qed.

  Lemma noise_is rule B Bi s s' r' l : (0 < m)%nat ->
    bs_gam s = gam -> bs_lam s = lam -> bs_mu s' = mu ->
    bs_rn s' = fsq m (residual nb b Phi y mu) ->
    Rabs r' < 1 -> Bi = Some B -> B = inv (toeplitz r') ->
    update_lambda m nb b Phi rule lam gam Sx Bi
      (fsq m (residual nb b Phi y mu)) = Some l ->
    bs_lam s' = l -> noise_learned m nb b Phi rule s s' C r'.
  Proof.
    intros Hm EG EL EM ER Hr' -> -> EU ES.
    assert (HM : INR m <> 0) by (apply not_0_INR; lia).
    destruct rule as [|[|rule]]; cbn [update_lambda] in EU.
    - cbn. congruence.
    - injection EU as <-. cbn [noise_learned]. rewrite ES, ER.
      unfold update_lambda_low_snr. unfold Rdiv.
      rewrite Rmult_assoc, Rinv_l, Rmult_1_r by auto. f_equal.
      apply rsum_ext. intros i Hi. apply rsum_ext. intros p Hp.
      unfold fmul at 1, ftr, subdict.
      rewrite (rsum_exchange b b (fun c d => Phi p (i * b + c)%nat *
        C (i * b + c)%nat (i * b + d)%nat * Phi p (i * b + d)%nat)).
      apply rsum_ext. intros d Hd. unfold fmul. rewrite <- rsum_mul_r.
      apply rsum_ext. intros c Hc.
      rewrite (sigma_is m nb b Phi solve HS S0 act lam S0_psd HL) by auto. reflexivity.
    - unfold update_lambda_high_snr in EU.
      destruct (forallb _ _) eqn:EF; [|discriminate]. injection EU as <-.
      rewrite forallb_forall in EF.
      cbn [noise_learned]. rewrite EG, EL. split.
      + intros i Hi Z. specialize (EF i ltac:(apply in_seq; lia)).
        rewrite Z in EF. destruct (Reqb_spec 0 0); [discriminate|lra].
      + intros X HX. rewrite ES, ER. unfold Rdiv at 1.
        rewrite Rmult_assoc, Rinv_l, Rmult_1_r by auto. f_equal. f_equal. f_equal.
        apply rsum_ext. intros i Hi. f_equal. unfold ftrace, fmul, trace_mul.
        apply rsum_ext. intros p Hp. apply rsum_ext. intros q Hq.
        rewrite (inv_unique r' X) by auto. f_equal.
        apply (sigma_is m nb b Phi solve HS S0 act lam S0_psd HL); auto.
  Qed.
End Learn.
