(** The iterations of block sparse Bayesian learning. *)
From Coq Require Import List Arith Bool Reals Lia Lra Psatz.
From Verif Require Import Scalar Vec RVec Loop XReal SolverSpec LoopLemmas
  BsblModel BsblSpec BsblProofs BsblProofs2 BsblProofs3 BsblProofs4 BsblProofs5.
Import ListNotations.
Local Open Scope R_scope.

Lemma some_block_true nb f : some_block nb f = true <->
  exists i, (i < nb)%nat /\ f i = true.
Proof.
  unfold some_block. rewrite existsb_exists. split.
  - intros [i [Hi Hf]]. apply in_seq in Hi. exists i. split; auto. lia.
  - intros [i [Hi Hf]]. exists i. split; auto. apply in_seq. lia.
Qed.

Lemma some_block_false nb f : some_block nb f = false <->
  forall i, (i < nb)%nat -> f i = false.
Proof.
  split.
  - intros H i Hi. destruct (f i) eqn:E; auto.
    assert (some_block nb f = true) by (apply some_block_true; eauto). congruence.
  - intros H. destruct (some_block nb f) eqn:E; auto.
    apply some_block_true in E. destruct E as [i [Hi Hf]].
    rewrite H in Hf by auto. discriminate.
Qed.

Lemma toep_eye i j : toeplitz 0 i j = feye i j.
Proof.
  unfold toeplitz, feye. destruct (Nat.eqb_spec i j) as [->|H].
  - rewrite Nat.sub_diag. reflexivity.
  - apply pow_ne_zero. lia.
Qed.

Lemma Rltb_iff a c : Rltb a c = true <-> a < c.
Proof. destruct (Rltb_spec a c); split; auto; try discriminate; lra. Qed.

Section Iter.
  Variables (m nb b : nat) (Phi : fmat) (y : fvec).
  Variable solve : fmat -> fmat -> fmat.
  Variable inv : fmat -> fmat.
  Variable svd : fmat -> fmat * fvec * fmat.
  Hypothesis HS : solver_ok m solve.
  Hypothesis HI : inv_ok b inv.
  Hypothesis Hb : (0 < b)%nat.

  Notation n := (nb * b)%nat.
  Notation em := (em_body m nb b Phi y solve inv).
  Notation bo := (bo_body m nb b Phi y solve inv svd).
  Notation np := (bo_np_body m nb b Phi y solve inv svd).

  (** The prior matrices actually used in a step. *)
  Definition used_S0 (s : bsbl_state) : nat -> fmat :=
    match bs_S0 s with Some S0 => S0 | None => fun _ _ _ => 0 end.

  Definition bsbl_ok (s : bsbl_state) : Prop :=
    0 < bs_lam s /\ (forall i, (i < nb)%nat -> 0 <= bs_gam s i) /\
    match bs_S0 s with
    | Some S0 => exists r, Rabs r < 1 /\
        forall i p q, (i < nb)%nat -> S0 i p q = bs_gam s i * toeplitz r p q
    | None => forall i, (i < nb)%nat -> bs_gam s i = 0
    end.

  Lemma init_ok o : 0 < bo_lambda o -> bsbl_ok (bsbl_init m y o).
  Proof.
    intros HL. split; [exact HL|]. split; [intros; cbn; lra|].
    cbn. exists 0. split; [rewrite Rabs_R0; lra|].
    intros. rewrite toep_eye. ring.
  Qed.

  Lemma ok_psd s i : bsbl_ok s -> (i < nb)%nat -> psd b (used_S0 s i).
  Proof.
    intros [_ [HG H0]] Hi. unfold used_S0. destruct (bs_S0 s) as [S0|].
    - destruct H0 as [r [Hr H0]].
      apply (psd_ext b (fun p q => bs_gam s i * toeplitz r p q)).
      + intros. symmetry. auto.
      + apply psd_scale; auto. apply spd_psd. apply toep_spd; auto.
    - apply psd_zero.
  Qed.

  Definition the_H (o : bsbl_options) (s : bsbl_state) : fmat :=
    compute_h Phi solve
      (cum_phi_b_phi_pruned nb b Phi (used_S0 s) (is_active o s)) (bs_lam s).
  Definition the_mu (o : bsbl_options) (s : bsbl_state) : fmat :=
    compute_mu_x_pruned m b y (used_S0 s) (the_H o s) (is_active o s).
  Definition the_Sx (o : bsbl_options) (s : bsbl_state) : nat -> fmat :=
    compute_sigma_x_pruned m b Phi (used_S0 s) (the_H o s) (is_active o s).
  Definition the_Cx (o : bsbl_options) (s : bsbl_state) : nat -> fmat :=
    compute_cov_x b (the_Sx o s) (the_mu o s).
  Definition the_BB (o : bsbl_options) (s : bsbl_state) :=
    compute_B_B_inv b inv
      (compute_cov_x_sum_pruned nb (the_Cx o s) (bs_gam s) (is_active o s)).

  Lemma parts_is o s p : pruned_parts m nb b Phi y solve inv o s = Some p ->
    p = (is_active o s, the_mu o s, the_H o s, the_Sx o s, the_Cx o s,
         the_BB o s).
  Proof.
    unfold pruned_parts, the_BB, the_Cx, the_Sx, the_mu, the_H, used_S0, is_active.
    destruct (bs_S0 s) as [S0|]; [|destruct (some_block nb _); [discriminate|]];
      (destruct (some_block nb _); [discriminate|]); intros H; injection H as <-;
      reflexivity.
  Qed.

  Lemma parts_some o s : 0 <= bo_prune o -> bsbl_ok s ->
    exists p, pruned_parts m nb b Phi y solve inv o s = Some p.
  Proof.
    intros HP [_ [_ H0]]. unfold pruned_parts.
    assert (E1 : some_block nb (fun i => Rltb (bo_prune o) (bs_gam s i) &&
       Reqb (bs_gam s i) 0) = false).
    { apply some_block_false. intros i Hi.
      destruct (Rltb_spec (bo_prune o) (bs_gam s i)); auto. cbn [andb].
      destruct (Reqb (bs_gam s i) 0) eqn:E; auto. apply Reqb_true in E. lra. }
    destruct (bs_S0 s) as [S0|].
    - rewrite E1. eauto.
    - destruct (some_block nb (fun i => Rltb (bo_prune o) (bs_gam s i))) eqn:E2.
      + apply some_block_true in E2. destruct E2 as [i [Hi E2]].
        apply Rltb_iff in E2. rewrite H0 in E2 by auto. lra.
      + rewrite E1. eauto.
  Qed.

  (** What every step does, whatever the state. *)
  Definition step_result (o : bsbl_options) (s s' : bsbl_state) (mu : fmat) : Prop :=
    bs_mu s' = mu /\ bs_r s' = residual nb b Phi y mu /\
    bs_rn s' = fsq m (bs_r s') /\ bs_it s' = S (bs_it s) /\
    bs_dmu s' = mu_change nb b mu (bs_mu s).

  Lemma em_result o s s' : em o s = Some s' ->
    step_result o s s' (the_mu o s) /\
    (forall i, is_active o s i = false -> bs_gam s' i = 0).
  Proof.
    unfold em_body. destruct (pruned_parts _ _ _ _ _ _ _ o s) as [p|] eqn:E;
      [|discriminate].
    apply parts_is in E. subst p.
    destruct (update_lambda _ _ _ _ _ _ _ _ _) as [lam|]; [|discriminate].
    destruct (the_BB o s) as [[B Bi]|].
    - intros H. injection H as <-. split; [repeat split|].
      intros i Hi. cbn. unfold update_gammas_em_pruned. rewrite Hi.
      unfold Rdiv. ring.
    - destruct (some_block nb _); [discriminate|].
      intros H. injection H as <-. split; [repeat split|]. reflexivity.
  Qed.

  Lemma bo_gam gam B Hy HPhi act gam' :
    update_gammas_bo_pruned nb b svd gam B Hy HPhi act = Some gam' ->
    (forall i, act i = false -> gam' i = 0) /\
    ((forall i, (i < nb)%nat -> 0 <= gam i) ->
      forall i, (i < nb)%nat -> 0 <= gam' i).
  Proof.
    unfold update_gammas_bo_pruned. destruct (forallb _ _) eqn:E; [|discriminate].
    intros H. injection H as <-. split.
    - intros i Hi. rewrite Hi. reflexivity.
    - intros HG i Hi. destruct (act i); [|lra].
      unfold bo_mapper.
      destruct (Rltb_spec 0 (ftrace b (fmul b (HPhi i) B))) as [Hlt|Hge]; [|lra].
      apply Rmult_le_pos.
      + apply Rmult_le_pos; [auto|apply sqrt_pos].
      + left. apply Rinv_0_lt_compat. apply sqrt_lt_R0. auto.
  Qed.

  Lemma bo_result o s s' : bo o s = Some s' ->
    step_result o s s' (the_mu o s) /\
    (forall i, is_active o s i = false -> bs_gam s' i = 0).
  Proof.
    unfold bo_body. destruct (pruned_parts _ _ _ _ _ _ _ o s) as [p|] eqn:E;
      [|discriminate].
    apply parts_is in E. subst p.
    destruct (update_lambda _ _ _ _ _ _ _ _ _) as [lam|]; [|discriminate].
    destruct (the_BB o s) as [[B Bi]|].
    - destruct (update_gammas_bo_pruned _ _ _ _ _ _ _ _) as [gam|] eqn:EG;
        [|discriminate].
      intros H. injection H as <-. split; [repeat split|].
      apply (bo_gam _ _ _ _ _ _ EG).
    - destruct (some_block nb _); [discriminate|].
      intros H. injection H as <-. split; [repeat split|]. reflexivity.
  Qed.

  (** Unpruned steps. *)
  Definition np_mu (s : bsbl_state) : fmat :=
    compute_mu_x m b y (used_S0 s)
      (compute_h Phi solve (cum_phi_b_phi nb b Phi (used_S0 s)) (bs_lam s)).

  Lemma np_result o s s' : np o s = Some s' -> step_result o s s' (np_mu s).
  Proof.
    unfold bo_np_body, np_mu, used_S0. destruct (bs_S0 s) as [S0|]; [|discriminate].
    destruct (some_block nb _); [discriminate|].
    destruct (compute_B_B_inv b inv _) as [[B Bi]|]; [|discriminate].
    destruct (update_lambda _ _ _ _ _ _ _ _ _) as [lam|]; [|discriminate].
    destruct (update_gammas_bo_pruned _ _ _ _ _ _ _ _) as [gam|]; [|discriminate].
    intros H. injection H as <-. repeat split.
  Qed.

  Lemma np_mu_eq s i c :
    np_mu s i c = compute_mu_x_pruned m b y (used_S0 s)
      (compute_h Phi solve (cum_phi_b_phi_pruned nb b Phi (used_S0 s)
        (fun _ => true)) (bs_lam s)) (fun _ => true) i c.
  Proof. reflexivity. Qed.

  (** Positivity of the quantities of a good step. *)
  Lemma the_Sx_psd o s i : bsbl_ok s -> (i < nb)%nat -> psd b (the_Sx o s i).
  Proof.
    intros Hok Hi. unfold the_Sx, the_H.
    apply (sigma_psd m nb b Phi solve HS (used_S0 s) (is_active o s) (bs_lam s));
      auto; [intros; apply ok_psd; auto|apply Hok].
  Qed.

  Lemma the_Cx_psd o s i : bsbl_ok s -> (i < nb)%nat -> psd b (the_Cx o s i).
  Proof.
    intros Hok Hi. unfold the_Cx, compute_cov_x.
    apply psd_add_const; [|apply the_Sx_psd; auto].
    apply rsum_pos. intros. nra.
  Qed.

  (** An active block forces a positive sum of second moments. *)
  Lemma BB_some o s : 0 <= bo_prune o -> bsbl_ok s ->
    some_block nb (is_active o s) = true -> the_BB o s <> None.
  Proof.
    intros HP Hok HA HN. unfold the_BB in HN.
    apply B_none in HN; auto.
    apply some_block_true in HA. destruct HA as [i [Hi HA]].
    assert (HG : bo_prune o < bs_gam s i) by (apply Rltb_iff; exact HA).
    unfold ftrace, compute_cov_x_sum_pruned in HN.
    assert (HT : forall j p, (j < nb)%nat -> (p < b)%nat ->
      0 <= (if is_active o s j then the_Cx o s j p p / bs_gam s j
            else the_Cx o s j p p)).
    { intros j p Hj Hp.
      pose proof (psd_diag b _ p (the_Cx_psd o s j Hok Hj) Hp) as HC.
      destruct (is_active o s j) eqn:E; auto.
      apply Rltb_iff in E. apply Rmult_le_pos; auto.
      left. apply Rinv_0_lt_compat. lra. }
    pose proof (@rsum_eq0 b _ (fun p Hp => @rsum_pos nb _
      (fun j Hj => HT j p Hj Hp)) HN 0%nat Hb) as H1.
    cbn beta in H1.
    pose proof (@rsum_eq0 nb _ (fun j Hj => HT j 0%nat Hj Hb) H1 i Hi) as H2.
    cbn beta in H2. rewrite HA in H2.
    assert (H3 : the_Cx o s i 0%nat 0%nat = 0).
    { apply Rmult_integral in H2. destruct H2 as [|H2]; auto.
      exfalso. revert H2. apply Rinv_neq_0_compat. lra. }
    unfold the_Cx, compute_cov_x in H3.
    pose proof (psd_diag b _ 0%nat (the_Sx_psd o s i Hok Hi) Hb) as H4.
    assert (H5 : 0 <= rsum b (fun c => the_mu o s i c * the_mu o s i c))
      by (apply rsum_pos; intros; nra).
    assert (H6 : the_Sx o s i 0%nat 0%nat = 0) by lra.
    destruct (sigma_diag m nb b Phi solve HS (used_S0 s) (is_active o s)
      (bs_lam s) ltac:(intros; apply ok_psd; auto) ltac:(apply Hok) i 0%nat Hi Hb HA)
      as [_ H7].
    specialize (H7 H6). destruct Hok as [_ [_ H8]]. unfold used_S0 in H7.
    destruct (bs_S0 s) as [S0|].
    - destruct H8 as [r [_ H8]]. rewrite H8, toep_diag in H7 by auto. lra.
    - rewrite H8 in HG by auto. lra.
  Qed.

  (** The estimate of the noise level stays positive. *)
  Lemma low_snr_pos o s : bsbl_ok s -> (exists r, (r < m)%nat /\ y r <> 0) ->
    0 < update_lambda_low_snr m nb b Phi (the_Sx o s)
          (fsq m (residual nb b Phi y (the_mu o s))).
  Proof.
    intros Hok [r0 [Hr0 Hy]]. unfold update_lambda_low_snr.
    apply Rmult_lt_0_compat.
    - assert (H1 : 0 < fsq m (residual nb b Phi y (the_mu o s))).
      { destruct (Rle_lt_or_eq_dec 0 _ (fsq_pos m
          (residual nb b Phi y (the_mu o s)))) as [|Z]; auto.
        exfalso. apply Hy. symmetry in Z.
        exact (residual_zero m nb b Phi y solve HS (used_S0 s) (is_active o s)
          (bs_lam s) ltac:(intros; apply ok_psd; auto) ltac:(apply Hok) Z r0 Hr0). }
      assert (H2 : 0 <= rsum nb (fun i => ftrace m (fmul b (fmul b
        (subdict b Phi i) (the_Sx o s i)) (ftr (subdict b Phi i))))); [|lra].
      apply rsum_pos. intros i Hi. apply rsum_pos. intros r Hr.
      replace (fmul b _ _ r r) with
        (quad b (the_Sx o s i) (fun c => subdict b Phi i r c)).
      + apply the_Sx_psd; auto.
      + unfold quad, fmul, ftr.
        rewrite rsum_exchange. apply rsum_ext. intros c Hc.
        rewrite rsum_mul_r. reflexivity.
    - apply Rinv_0_lt_compat. apply lt_0_INR. lia.
  Qed.

  Lemma lambda_ok o s Bi : bsbl_ok s -> (bo_learn_lambda o <= 1)%nat ->
    (bo_learn_lambda o = 1%nat -> exists r, (r < m)%nat /\ y r <> 0) ->
    exists lam, update_lambda m nb b Phi (bo_learn_lambda o) (bs_lam s)
      (bs_gam s) (the_Sx o s) Bi (fsq m (residual nb b Phi y (the_mu o s)))
      = Some lam /\ 0 < lam.
  Proof.
    intros Hok Hr Hy. destruct (bo_learn_lambda o) as [|[|k]]; [| |lia]; cbn.
    - exists (bs_lam s). split; auto. apply Hok.
    - eexists. split; [reflexivity|]. apply low_snr_pos; auto.
  Qed.

  Lemma next_ok s mu gam B lam : 0 < lam ->
    (forall i, (i < nb)%nat -> 0 <= gam i) ->
    match B with
    | Some B => exists r, Rabs r < 1 /\ B = toeplitz r
    | None => forall i, (i < nb)%nat -> gam i = 0
    end -> bsbl_ok (next_state m nb b Phi y s mu gam B lam).
  Proof.
    intros HL HG HB. split; [exact HL|]. split; [exact HG|].
    cbn. destruct B as [B|]; auto.
    destruct HB as [r [Hr ->]]. exists r. split; auto.
  Qed.

  Lemma BB_toep o s B Bi : the_BB o s = Some (B, Bi) ->
    exists r, Rabs r < 1 /\ B = toeplitz r /\ Bi = inv (toeplitz r).
  Proof.
    intros H. apply B_facts in H. destruct H as [r [Hr [-> ->]]].
    exists r. repeat split; auto. lra.
  Qed.

  Lemma em_step o s : 0 <= bo_prune o -> (bo_learn_lambda o <= 1)%nat ->
    (bo_learn_lambda o = 1%nat -> exists r, (r < m)%nat /\ y r <> 0) ->
    bsbl_ok s -> exists s', em o s = Some s' /\ bsbl_ok s'.
  Proof.
    intros HP Hr Hy Hok. unfold em_body.
    destruct (parts_some o s HP Hok) as [p E]. rewrite E.
    apply parts_is in E. subst p.
    destruct (lambda_ok o s (option_map snd (the_BB o s)) Hok Hr Hy)
      as [lam [-> HL]].
    destruct (the_BB o s) as [[B Bi]|] eqn:EB.
    - destruct (BB_toep o s B Bi EB) as [r [Hr' [-> ->]]].
      eexists. split; [reflexivity|]. apply next_ok; auto.
      + intros i Hi. unfold update_gammas_em_pruned.
        apply Rmult_le_pos; [|left; apply Rinv_0_lt_compat; apply lt_0_INR; auto].
        destruct (is_active o s i); [|lra].
        apply trace_inv_pos; auto. apply the_Cx_psd; auto.
      + eauto.
    - destruct (some_block nb (is_active o s)) eqn:EA.
      + exfalso. exact (BB_some o s HP Hok EA EB).
      + eexists. split; [reflexivity|]. apply next_ok; auto. intros; lra.
  Qed.

  Lemma bo_step o s s' : 0 <= bo_prune o -> (bo_learn_lambda o <= 1)%nat ->
    (bo_learn_lambda o = 1%nat -> exists r, (r < m)%nat /\ y r <> 0) ->
    bsbl_ok s -> bo o s = Some s' -> bsbl_ok s'.
  Proof.
    intros HP Hr Hy Hok. unfold bo_body.
    destruct (parts_some o s HP Hok) as [p E]. rewrite E.
    apply parts_is in E. subst p.
    destruct (lambda_ok o s (option_map snd (the_BB o s)) Hok Hr Hy)
      as [lam [-> HL]].
    destruct (the_BB o s) as [[B Bi]|] eqn:EB.
    - destruct (BB_toep o s B Bi EB) as [r [Hr' [-> ->]]].
      destruct (update_gammas_bo_pruned _ _ _ _ _ _ _ _) as [gam|] eqn:EG;
        [|discriminate].
      intros H. injection H as <-. apply next_ok; auto.
      + apply (bo_gam _ _ _ _ _ _ EG). apply Hok.
      + eauto.
    - destruct (some_block nb (is_active o s)) eqn:EA; [discriminate|].
      intros H. injection H as <-. apply next_ok; auto. intros; lra.
  Qed.

  Lemma bo_some o s : 0 <= bo_prune o -> (bo_learn_lambda o <= 1)%nat ->
    (bo_learn_lambda o = 1%nat -> exists r, (r < m)%nat /\ y r <> 0) ->
    (forall i, (i < nb)%nat ->
       exists p c, (p < m)%nat /\ (c < b)%nat /\ Phi p (i * b + c)%nat <> 0) ->
    bsbl_ok s -> exists s', bo o s = Some s'.
  Proof.
    intros HP Hr Hy HN Hok. unfold bo_body.
    destruct (parts_some o s HP Hok) as [p E]. rewrite E.
    apply parts_is in E. subst p.
    destruct (lambda_ok o s (option_map snd (the_BB o s)) Hok Hr Hy)
      as [lam [-> HL]].
    destruct (the_BB o s) as [[B Bi]|] eqn:EB.
    - destruct (BB_toep o s B Bi EB) as [r [Hr' [-> ->]]].
      unfold update_gammas_bo_pruned.
      rewrite (proj2 (forallb_forall _ (seq 0 nb))); [eauto|].
      intros i Hi. apply in_seq in Hi. destruct (is_active o s i) eqn:EA; auto.
      unfold bo_mapper.
      pose proof (bo_trace_pos m nb b Phi solve HS (used_S0 s) (is_active o s)
        (bs_lam s) ltac:(intros; apply ok_psd; auto) ltac:(apply Hok) i r
        ltac:(lia) Hr' (HN i ltac:(lia))) as HT.
      fold (the_H o s) in HT.
      destruct (Rltb_spec 0 (ftrace b (fmul b (h_phi m b Phi (the_H o s) i)
        (toeplitz r)))); [auto|lra].
    - destruct (some_block nb (is_active o s)) eqn:EA; [|eauto].
      exfalso. exact (BB_some o s HP Hok EA EB).
  Qed.
End Iter.
