(** What the steps of the three block sparse Bayesian learners learn, how they
    measure progress, and when the pruned and unpruned learners agree. *)
From Coq Require Import List Arith Bool Reals Lia Lra Psatz.
From Verif Require Import Scalar Vec RVec Loop XReal SolverSpec LoopLemmas
  BsblModel BsblSpec BsblSpec2 BsblProofs BsblProofs2 BsblProofs3 BsblProofs4
  BsblProofs5 BsblProofs6 BsblProofs7 BsblProofs8.
Import ListNotations.
Local Open Scope R_scope.

(** ** Two minimisation problems *)
Lemma ln_min k t g g0 : 0 <= k -> g0 * k = t -> 0 < g0 -> 0 < g ->
  k * ln g0 + t / g0 <= k * ln g + t / g.
Proof.
  intros Hk <- H0 Hg.
  assert (HL : 1 - g0 / g <= ln g - ln g0).
  { assert (HX : ln (g0 / g) <= g0 / g - 1).
    { assert (HP : 0 < g0 / g) by (apply Rdiv_lt_0_compat; auto).
      pose proof (exp_ineq1_le (ln (g0 / g))) as HE.
      rewrite exp_ln in HE by auto. lra. }
    unfold Rdiv in HX at 1. rewrite ln_mult, ln_Rinv in HX; auto.
    - lra.
    - apply Rinv_0_lt_compat; auto. }
  replace (g0 * k / g0) with k by (field; lra).
  replace (g0 * k / g) with (k * (g0 / g)) by (field; lra). nra.
Qed.

Lemma ratio_min N T g0 g h : 0 < T -> 0 <= N -> 0 <= h ->
  g0 = h * sqrt N / sqrt T -> 0 < g0 -> 0 < g ->
  g0 * T + h * h * N / g0 <= g * T + h * h * N / g.
Proof.
  intros HT HN Hh E H0 Hg.
  assert (HQ : 0 < sqrt T) by (apply sqrt_lt_R0; auto).
  assert (E2 : g0 * g0 * T = h * h * N).
  { rewrite E. rewrite <- (sqrt_sqrt N HN), <- (sqrt_sqrt T) by lra.
    rewrite (sqrt_sqrt N HN), (sqrt_sqrt T) by lra.
    transitivity (h * h * (sqrt N * sqrt N) * T / (sqrt T * sqrt T)); [field; lra|].
    rewrite (sqrt_sqrt N HN), (sqrt_sqrt T) by lra. field. lra. }
  rewrite <- E2.
  replace (g0 * g0 * T / g0) with (g0 * T) by (field; lra).
  assert (HM : 0 <= T * ((g - g0) * (g - g0)) / g).
  { apply Rmult_le_pos; [|left; apply Rinv_0_lt_compat; auto].
    apply Rmult_le_pos; [lra|]. apply Rle_0_sqr. }
  replace (T * ((g - g0) * (g - g0)) / g) with
    (g * T + g0 * g0 * T / g - 2 * (g0 * T)) in HM by (field; lra).
  lra.
Qed.

(** ** The largest change *)
Lemma fmax_ge n f i : (i < n)%nat -> f i <= fmax n f.
Proof.
  induction n as [|n IH]; intros Hi; [lia|]. cbn [fmax].
  destruct (Nat.eq_dec i n) as [->|]; [apply Rmax_r|].
  apply Rle_trans with (fmax n f); [apply IH; lia|apply Rmax_l].
Qed.

Lemma fmax_att n f : (0 < n)%nat -> (forall i, (i < n)%nat -> 0 <= f i) ->
  exists i, (i < n)%nat /\ fmax n f = f i.
Proof.
  induction n as [|n IH]; intros Hn Hf; [lia|]. cbn [fmax].
  destruct n as [|n].
  - exists 0%nat. split; [lia|]. cbn [fmax]. apply Rmax_right. auto.
  - destruct IH as [i [Hi E]]; [lia|auto|]. rewrite E.
    destruct (Rle_dec (f i) (f (S n))).
    + exists (S n). split; [lia|]. apply Rmax_right. auto.
    + exists i. split; [lia|]. apply Rmax_left. lra.
Qed.

Lemma fmax_pos n f : 0 <= fmax n f.
Proof.
  induction n as [|n IH]; cbn [fmax]; [lra|].
  apply Rle_trans with (fmax n f); [auto|apply Rmax_l].
Qed.

Section Steps.
  Variables (m nb b : nat) (Phi : fmat) (y : fvec).
  Variable solve : fmat -> fmat -> fmat.
  Variable inv : fmat -> fmat.
  Variable svd : fmat -> fmat * fvec * fmat.

  Notation n := (nb * b)%nat.
  Notation em := (em_body m nb b Phi y solve inv).
  Notation bo := (bo_body m nb b Phi y solve inv svd).
  Notation np := (bo_np_body m nb b Phi y solve inv svd).

  Lemma step_change o body s s' :
    body = em o \/ body = bo o \/ body = np o -> body s = Some s' ->
    (forall i c, (i < nb)%nat -> (c < b)%nat ->
       Rabs (bs_mu s' i c - bs_mu s i c) <= bs_dmu s') /\
    ((0 < nb)%nat -> (0 < b)%nat -> exists i c, (i < nb)%nat /\ (c < b)%nat /\
       bs_dmu s' = Rabs (bs_mu s' i c - bs_mu s i c)).
  Proof.
    intros HB Hs.
    assert (E : bs_dmu s' = mu_change nb b (bs_mu s') (bs_mu s)).
    { destruct HB as [->|[->| ->]].
      - apply em_result in Hs. destruct Hs as [[-> [_ [_ [_ ->]]]] _]. reflexivity.
      - apply bo_result in Hs. destruct Hs as [[-> [_ [_ [_ ->]]]] _]. reflexivity.
      - apply np_result in Hs. destruct Hs as [-> [_ [_ [_ ->]]]]. reflexivity. }
    rewrite E. unfold mu_change. split.
    - intros i c Hi Hc. eapply Rle_trans.
      + apply (fmax_ge b (fun c => Rabs (bs_mu s' i c - bs_mu s i c)) c Hc).
      + apply (fmax_ge nb (fun i => fmax b (fun c => Rabs (bs_mu s' i c - bs_mu s i c)))
          i Hi).
    - intros H1 H2.
      destruct (fmax_att nb (fun i => fmax b (fun c => Rabs (bs_mu s' i c - bs_mu s i c)))
        H1) as [i [Hi ->]]; [intros; apply fmax_pos|].
      destruct (fmax_att b (fun c => Rabs (bs_mu s' i c - bs_mu s i c)) H2)
        as [c [Hc ->]]; [intros; apply Rabs_pos|]. eauto.
  Qed.

  Hypothesis HS : solver_ok m solve.
  Hypothesis HI : inv_ok b inv.
  Hypothesis Hb : (0 < b)%nat.
  Hypothesis Hm : (0 < m)%nat.

  Lemma em_learns o s s' : 0 <= bo_prune o -> good_state nb s ->
    (exists i, (i < nb)%nat /\ is_active o s i = true) -> em o s = Some s' ->
    exists r C r', learned m nb b Phi (is_active o s) s s' r C r' /\
      noise_learned m nb b Phi (bo_learn_lambda o) s s' C r' /\
      forall i X, (i < nb)%nat -> is_active o s i = true ->
        inverse_of b (ar1 r') X ->
        let t := trace_mul b X (used_moment b C (bs_mu s') i) in
        bs_gam s' i * INR b = t /\
        (0 < bs_gam s' i -> forall g, 0 < g ->
           INR b * ln (bs_gam s' i) + t / bs_gam s' i <= INR b * ln g + t / g).
  Proof.
    intros HP [HL [HG H0]] HE Hs.
    destruct (bs_S0 s) as [S0|] eqn:E0.
    2:{ exfalso. destruct HE as [i [Hi HA]]. apply Rltb_iff in HA.
        rewrite H0 in HA by auto. lra. }
    destruct H0 as [r [Hr H0]].
    unfold em_body in Hs.
    destruct (pruned_parts _ _ _ _ _ _ _ o s) as [p|] eqn:EP; [|discriminate].
    apply parts_is in EP. subst p.
    destruct (update_lambda _ _ _ _ _ _ _ _ _) as [lam|] eqn:EU; [|discriminate].
    assert (HA : forall i, (i < nb)%nat -> is_active o s i = true -> 0 < bs_gam s i).
    { intros i Hi HA. apply Rltb_iff in HA. lra. }
    destruct (the_BB m nb b Phi y solve inv o s) as [[B Bi]|] eqn:EB.
    2:{ exfalso. revert Hs. replace (some_block nb (is_active o s)) with true;
          [discriminate|]. symmetry. apply some_block_true. exact HE. }
    injection Hs as <-.
    unfold the_BB, the_Cx, the_mu, the_Sx, the_H, used_S0 in *. rewrite E0 in *.
    set (s' := next_state _ _ _ _ _ _ _ _ _ _) in *.
    destruct (step_learned m nb b Phi y solve inv HS Hb S0 (is_active o s)
      (bs_gam s) (bs_lam s) r Hr HL HG HA H0 B Bi s s' HE E0 eq_refl eq_refl EB
      eq_refl eq_refl) as [r' [HLn [EB1 EB2]]].
    assert (Hr' : Rabs r' < 1) by (destruct HLn as (_&_&_&Hr'&_); lra).
    exists r, (pcov m nb b Phi solve S0 (is_active o s) (bs_lam s)), r'.
    split; [exact HLn|]. split.
    - eapply (noise_is m nb b Phi y solve inv HS HI Hb S0 (is_active o s) (bs_gam s)
        (bs_lam s) r Hr HL HG H0 (bo_learn_lambda o) Bi (Some Bi) s s' r' lam Hm);
        try reflexivity; auto.
    - intros i X Hi HAi HX. set (t := trace_mul _ _ _).
      assert (Et : bs_gam s' i * INR b = t).
      { cbn [bs_gam s' next_state]. rewrite EB2.
        apply (em_gam m nb b Phi y solve inv HS HI Hb S0 (is_active o s) (bs_gam s)
          (bs_lam s) r Hr HL HG H0 r' X i Hr' HX Hi HAi). }
      split; [exact Et|]. intros Hg g Hg'.
      apply ln_min; auto. apply pos_INR.
  Qed.

  Lemma bo_rule_ok S0 act s s' r r' : svd_ok b svd -> Rabs r < 1 -> Rabs r' < 1 ->
    0 < bs_lam s -> (forall i, (i < nb)%nat -> 0 <= bs_gam s i) ->
    (forall i p q, (i < nb)%nat -> S0 i p q = bs_gam s i * toeplitz r p q) ->
    let H := compute_h Phi solve (cum_phi_b_phi_pruned nb b Phi S0 act) (bs_lam s) in
    update_gammas_bo_pruned nb b svd (bs_gam s) (toeplitz r') (h_y m b y H)
      (h_phi m b Phi H) act = Some (bs_gam s') ->
    bo_rule m nb b Phi y act s s' r r'.
  Proof.
    intros HV Hr Hr' HL HG H0 H EU i Z z Hi HA HZ Hz N T cost.
    destruct (bo_gam_is m nb b Phi y solve svd HS S0 act (bs_gam s) (bs_lam s) r
      Hr HL HG H0 r' Z z i Hr' HV HZ Hz Hi) as [EN ET].
    fold N in EN. fold T in ET. fold H in EN, ET.
    unfold update_gammas_bo_pruned in EU.
    destruct (forallb _ _) eqn:EF; [|discriminate].
    injection EU as EU.
    rewrite forallb_forall in EF. specialize (EF i ltac:(apply in_seq; lia)).
    assert (Eg : bs_gam s' i = (fun i => if act i then
       match bo_mapper b svd (toeplitz r') (bs_gam s i) (h_y m b y H i)
         (h_phi m b Phi H i) with Some g => g | None => 0 end else 0) i)
      by (rewrite <- EU; reflexivity).
    cbn beta in Eg. rewrite HA in Eg, EF. unfold bo_mapper in Eg, EF.
    rewrite EN, ET in Eg, EF.
    destruct (Rltb_spec 0 T) as [HT|]; [|discriminate].
    split; [exact HT|]. split; [exact Eg|]. intros Hg g Hg'.
    assert (HN : 0 <= N) by (rewrite <- EN; apply fsq_pos).
    unfold cost. apply ratio_min; auto.
  Qed.

  Lemma bo_learns o s s' : svd_ok b svd -> 0 <= bo_prune o -> good_state nb s ->
    (exists i, (i < nb)%nat /\ is_active o s i = true) -> bo o s = Some s' ->
    exists r C r', learned m nb b Phi (is_active o s) s s' r C r' /\
      noise_learned m nb b Phi (bo_learn_lambda o) s s' C r' /\
      bo_rule m nb b Phi y (is_active o s) s s' r r'.
  Proof.
    intros HV HP [HL [HG H0]] HE Hs.
    destruct (bs_S0 s) as [S0|] eqn:E0.
    2:{ exfalso. destruct HE as [i [Hi HA]]. apply Rltb_iff in HA.
        rewrite H0 in HA by auto. lra. }
    destruct H0 as [r [Hr H0]].
    unfold bo_body in Hs.
    destruct (pruned_parts _ _ _ _ _ _ _ o s) as [p|] eqn:EP; [|discriminate].
    apply parts_is in EP. subst p.
    destruct (update_lambda _ _ _ _ _ _ _ _ _) as [lam|] eqn:EU; [|discriminate].
    assert (HA : forall i, (i < nb)%nat -> is_active o s i = true -> 0 < bs_gam s i).
    { intros i Hi HA. apply Rltb_iff in HA. lra. }
    destruct (the_BB m nb b Phi y solve inv o s) as [[B Bi]|] eqn:EB.
    2:{ exfalso. revert Hs. replace (some_block nb (is_active o s)) with true;
          [discriminate|]. symmetry. apply some_block_true. exact HE. }
    destruct (update_gammas_bo_pruned _ _ _ _ _ _ _ _) as [gam'|] eqn:EG;
      [|discriminate].
    injection Hs as <-.
    unfold the_BB, the_Cx, the_mu, the_Sx, the_H, used_S0 in *. rewrite E0 in *.
    set (s' := next_state _ _ _ _ _ _ _ _ _ _) in *.
    destruct (step_learned m nb b Phi y solve inv HS Hb S0 (is_active o s)
      (bs_gam s) (bs_lam s) r Hr HL HG HA H0 B Bi s s' HE E0 eq_refl eq_refl EB
      eq_refl eq_refl) as [r' [HLn [EB1 EB2]]].
    assert (Hr' : Rabs r' < 1) by (destruct HLn as (_&_&_&Hr'&_); lra).
    exists r, (pcov m nb b Phi solve S0 (is_active o s) (bs_lam s)), r'.
    split; [exact HLn|]. split.
    - eapply (noise_is m nb b Phi y solve inv HS HI Hb S0 (is_active o s) (bs_gam s)
        (bs_lam s) r Hr HL HG H0 (bo_learn_lambda o) Bi (Some Bi) s s' r' lam Hm);
        try reflexivity; auto.
    - rewrite EB1 in EG.
      apply (bo_rule_ok S0 (is_active o s) s s' r r' HV Hr Hr' HL HG H0 EG).
  Qed.

  Notation all := (fun _ : nat => true).

  Lemma np_learns o s s' : svd_ok b svd -> (0 < nb)%nat -> good_state nb s ->
    np o s = Some s' ->
    exists r C r', learned m nb b Phi all s s' r C r' /\
      noise_learned m nb b Phi (bo_learn_lambda o) s s' C r' /\
      bo_rule m nb b Phi y all s s' r r' /\
      posterior_mean m n Phi (block_prior b all (bs_gam s) r) (bs_lam s) y
        (flatten b (bs_mu s')) /\
      forall i, (i < nb)%nat -> 0 < bs_gam s i.
  Proof.
    intros HV Hnb [HL [HG H0]] Hs. unfold bo_np_body in Hs.
    destruct (bs_S0 s) as [S0|] eqn:E0; [|discriminate].
    destruct H0 as [r [Hr H0]].
    destruct (some_block nb _) eqn:EZ; [discriminate|].
    assert (HA : forall i, (i < nb)%nat -> 0 < bs_gam s i).
    { intros i Hi. destruct (HG i Hi) as [|E]; auto. exfalso.
      assert (HX : some_block nb (fun i => Reqb (bs_gam s i) 0) = true).
      { apply some_block_true. exists i. split; auto. rewrite <- E.
        destruct (Reqb_spec 0 0); auto. }
      rewrite HX in EZ. discriminate. }
    destruct (compute_B_B_inv b inv _) as [[B Bi]|] eqn:EB; [|discriminate].
    destruct (update_lambda _ _ _ _ _ _ _ _ _) as [lam|] eqn:EU; [|discriminate].
    destruct (update_gammas_bo_pruned _ _ _ _ _ _ _ _) as [gam'|] eqn:EG;
      [|discriminate].
    injection Hs as <-.
    set (s' := next_state _ _ _ _ _ _ _ _ _ _) in *.
    destruct (step_learned m nb b Phi y solve inv HS Hb S0 all
      (bs_gam s) (bs_lam s) r Hr HL HG (fun i Hi _ => HA i Hi) H0 B Bi s s'
      (ex_intro _ 0%nat (conj Hnb eq_refl)) E0 eq_refl eq_refl EB
      eq_refl eq_refl) as [r' [HLn [EB1 EB2]]].
    assert (Hr' : Rabs r' < 1) by (destruct HLn as (_&_&_&Hr'&_); lra).
    exists r, (pcov m nb b Phi solve S0 all (bs_lam s)), r'.
    split; [exact HLn|]. split; [|split; [|split]].
    - eapply (noise_is m nb b Phi y solve inv HS HI Hb S0 all (bs_gam s)
        (bs_lam s) r Hr HL HG H0 (bo_learn_lambda o) Bi (Some Bi) s s' r' lam Hm);
        try reflexivity; auto.
    - rewrite EB1 in EG.
      apply (bo_rule_ok S0 all s s' r r' HV Hr Hr' HL HG H0 EG).
    - apply (mean_ext m n Phi (prior b all S0)).
      + apply (D_is nb b S0 all (bs_gam s) r H0).
      + apply (mu_mean m nb b Phi y solve HS S0 all (bs_lam s)
          (S0_psd nb b S0 all (bs_gam s) r Hr HG H0) HL).
    - exact HA.
  Qed.

  (** The unpruned learner keeps good states good. *)
  Lemma np_good o s s' : (bo_learn_lambda o <= 1)%nat ->
    (bo_learn_lambda o = 1%nat -> exists r, (r < m)%nat /\ y r <> 0) ->
    good_state nb s -> np o s = Some s' -> good_state nb s'.
  Proof.
    intros Hrule Hy [HL [HG H0]] Hs. unfold bo_np_body in Hs.
    destruct (bs_S0 s) as [S0|] eqn:E0; [|discriminate].
    destruct H0 as [r [Hr H0]].
    destruct (some_block nb _) eqn:EZ; [discriminate|].
    destruct (compute_B_B_inv b inv _) as [[B Bi]|] eqn:EB; [|discriminate].
    destruct (update_lambda _ _ _ _ _ _ _ _ _) as [lam|] eqn:EU; [|discriminate].
    destruct (update_gammas_bo_pruned _ _ _ _ _ _ _ _) as [gam'|] eqn:EG;
      [|discriminate].
    injection Hs as <-.
    apply B_facts in EB. destruct EB as [r' [Hr' [-> _]]].
    apply next_ok.
    - destruct (bo_learn_lambda o) as [|[|k]]; [| |lia]; cbn [update_lambda] in EU;
        injection EU as <-; auto.
      unfold update_lambda_low_snr. destruct (Hy eq_refl) as [r0 [Hr0 Hy0]].
      pose proof (S0_psd nb b S0 all (bs_gam s) r Hr HG H0) as HD.
      apply Rmult_lt_0_compat; [|apply Rinv_0_lt_compat, lt_0_INR; lia].
      set (mu := compute_mu_x _ _ _ _ _).
      assert (H1 : 0 < fsq m (residual nb b Phi y mu)).
      { destruct (Rle_lt_or_eq_dec 0 _ (fsq_pos m (residual nb b Phi y mu)))
          as [|Z]; auto.
        exfalso. apply Hy0. symmetry in Z.
        exact (residual_zero m nb b Phi y solve HS S0 all (bs_lam s) HD HL Z r0 Hr0). }
      set (Sx := compute_sigma_x _ _ _ _ _).
      assert (H2 : 0 <= rsum nb (fun i => ftrace m (fmul b (fmul b
        (subdict b Phi i) (Sx i)) (ftr (subdict b Phi i))))); [|lra].
      apply rsum_pos. intros i Hi. apply rsum_pos. intros q Hq.
      replace (fmul b _ _ q q) with
        (quad b (Sx i) (fun c => subdict b Phi i q c)).
      + apply (sigma_psd m nb b Phi solve HS S0 all (bs_lam s) HD HL i Hi).
      + unfold quad, fmul, ftr.
        rewrite rsum_exchange. apply rsum_ext. intros c Hc.
        rewrite rsum_mul_r. reflexivity.
    - apply (bo_gam _ _ _ _ _ _ _ _ _ EG). exact HG.
    - exists r'. split; [lra|reflexivity].
  Qed.
End Steps.

(** Reached states are good. *)
Lemma reached_good m nb b Phi y solve inv svd o body k s :
  solver_ok m solve -> inv_ok b inv -> (0 < b)%nat -> (0 < m)%nat ->
  0 <= bo_prune o -> 0 < bo_lambda o -> (bo_learn_lambda o <= 1)%nat ->
  (bo_learn_lambda o = 1%nat -> exists r, (r < m)%nat /\ y r <> 0) ->
  body = em_body m nb b Phi y solve inv o \/
  body = bo_body m nb b Phi y solve inv svd o \/
  body = bo_np_body m nb b Phi y solve inv svd o ->
  reaches (bsbl_cond o) body (bsbl_init m y o) k s -> good_state nb s.
Proof.
  intros HS HI Hb Hm HP HL Hrule Hy HB HR.
  destruct HB as [HB|[HB|HB]].
  - exact (run_ok m nb b Phi y solve inv svd HS HI Hb o HP HL Hrule Hy body k s
      (or_introl HB) HR).
  - exact (run_ok m nb b Phi y solve inv svd HS HI Hb o HP HL Hrule Hy body k s
      (or_intror HB) HR).
  - subst body. revert k s HR. apply reaches_inv.
    + apply (init_ok m nb y o HL).
    + intros s s' Hok _ Hs.
      apply (np_good m nb b Phi y solve inv svd HS Hb Hm o s s' Hrule Hy Hok Hs).
Qed.
