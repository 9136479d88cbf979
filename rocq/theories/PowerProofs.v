From Coq Require Import List Arith Bool Lia Reals Lra.
From Verif Require Import Scalar Vec RVec RMat Loop LoopLemmas XReal OptSpec OptModel OptProofs CGModel SolverSpec SolverLemmas SlsModel SlsSpec SlsProofs SlsLemmas PowerSpec.
Import ListNotations.
Set Implicit Arguments.
Unset Strict Implicit.
Local Open Scope R_scope.

Lemma tan2_scale v x c : c <> 0 -> rdot x v <> 0 -> tan2 v (rscale c x) = tan2 v x.
Proof. intros Hc Hx. unfold tan2, nrm2. rewrite !rdot_scale_l, rdot_scale_r. field. auto. Qed.
Section Dom.
  Variables (n : nat) (A : vec -> vec) (lam mu : R) (v : vec).
  Hypothesis HD : dominant n A lam mu v.
  Lemma dom_L : linear_op n n A. Proof. apply HD. Qed.
  Lemma dom_S : symmetric_op n A. Proof. apply HD. Qed.
  Lemma dom_v : length v = n. Proof. apply HD. Qed.
  Lemma dom_N : nrm2 v = 1. Proof. apply HD. Qed.
  Lemma dom_E : A v = rscale lam v. Proof. apply HD. Qed.
  Lemma dom_mu : 0 <= mu < Rabs lam. Proof. apply HD. Qed.
  Lemma dom_w x : length x = n -> rdot x v = 0 -> nrm2 (A x) <= mu ^ 2 * nrm2 x. Proof. apply HD. Qed.
  Lemma lam_nz : lam <> 0. Proof. pose proof dom_mu as Hmu. pose proof dom_v as Lv. intros E. rewrite E, Rabs_R0 in Hmu. lra. Qed.
  Definition per (x : vec) : vec := rsub x (rscale (rdot x v) v).
  Lemma per_len x : length x = n -> length (per x) = n. Proof. pose proof dom_v as Lv. intros. unfold per. rewrite rsub_len, rscale_len. lia. Qed.
  Lemma per_orth x : length x = n -> rdot (per x) v = 0.
  Proof. pose proof dom_mu as Hmu. pose proof dom_v as Lv. intros Lx. unfold per. rewrite rdot_sub_l, rdot_scale_l by (rewrite rscale_len; lia). fold (nrm2 v). rewrite dom_N. ring. Qed.
  Lemma per_split x : length x = n -> x = radd (rscale (rdot x v) v) (per x).
  Proof. pose proof dom_mu as Hmu. pose proof dom_v as Lv. intros Lx. unfold per. apply vec_eq; [rewrite radd_len, rsub_len, !rscale_len; lia|]. intros i Hi.
    rewrite radd_nth, rsub_nth by (rewrite ?rsub_len, ?rscale_len; lia). ring.
  Qed.
  Lemma per_nrm2 x : length x = n -> nrm2 (per x) = nrm2 x - rdot x v ^ 2.
  Proof. pose proof dom_mu as Hmu. pose proof dom_v as Lv. intros Lx. unfold per, nrm2. rewrite rdot_sub_l, !rdot_sub_r, !rdot_scale_l, !rdot_scale_r by (rewrite ?rscale_len; lia).
    fold (nrm2 v). rewrite dom_N, (rdot_sym v x). ring.
  Qed.
  Lemma tan2_per x : length x = n -> tan2 v x = nrm2 (per x) / rdot x v ^ 2.
  Proof. pose proof dom_mu as Hmu. pose proof dom_v as Lv. intros Lx. now rewrite per_nrm2. Qed.
  Lemma tan2_pos x : length x = n -> rdot x v <> 0 -> 0 <= tan2 v x.
  Proof. pose proof dom_mu as Hmu. pose proof dom_v as Lv. intros Lx Hx. rewrite tan2_per by auto. apply Rmult_le_pos; [apply rdot_pos|]. apply Rlt_le, Rinv_0_lt_compat. rewrite <- Rsqr_pow2. now apply Rlt_0_sqr. Qed.
  Lemma dot_A x : length x = n -> rdot (A x) v = lam * rdot x v.
  Proof. pose proof dom_mu as Hmu. pose proof dom_v as Lv. intros Lx. rewrite dom_S by auto. rewrite dom_E. apply rdot_scale_r. Qed.
  Lemma per_A x : length x = n -> per (A x) = A (per x).
  Proof. pose proof dom_mu as Hmu. pose proof dom_v as Lv. intros Lx. pose proof dom_L as [L1 [L2 L3]]. pose proof (L1 x Lx). pose proof (L1 _ (per_len Lx)).
    assert (E : A x = radd (rscale (rdot x v) (rscale lam v)) (A (per x))).
    { rewrite (per_split Lx) at 1. rewrite L2, L3, dom_E by (rewrite ?rscale_len, ?per_len; auto). reflexivity. }
    unfold per at 1. rewrite dot_A by auto. rewrite E. apply vec_eq; [rewrite rsub_len, radd_len, !rscale_len; lia|]. intros i Hi.
    rewrite rsub_len, radd_len, !rscale_len in Hi. rewrite rsub_nth, radd_nth, !rscale_nth by (rewrite ?radd_len, ?rscale_len; lia). ring.
  Qed.
  Lemma tan2_A x : length x = n -> rdot x v <> 0 -> tan2 v (A x) <= (mu / lam) ^ 2 * tan2 v x.
  Proof. pose proof dom_mu as Hmu. pose proof dom_v as Lv. intros Lx Hx. assert (LAx : length (A x) = n) by now apply dom_L. rewrite !tan2_per by auto. rewrite per_A, dot_A by auto.
    pose proof (dom_w (per_len Lx) (per_orth Lx)). pose proof lam_nz.
    assert (P : 0 < (lam * rdot x v) ^ 2) by (rewrite <- Rsqr_pow2; apply Rlt_0_sqr; now apply Rmult_integral_contrapositive_currified).
    apply Rle_trans with (mu ^ 2 * nrm2 (per x) / (lam * rdot x v) ^ 2).
    - apply Rmult_le_compat_r; auto. apply Rlt_le, Rinv_0_lt_compat. auto.
    - apply Req_le. field. auto.
  Qed.
  Lemma ray_split u : length u = n -> rdot u (A u) = lam * rdot u v ^ 2 + rdot (per u) (A (per u)).
  Proof.
    intros Lu. pose proof dom_v as Lv. pose proof dom_L as [L1 _]. pose proof (L1 u Lu) as LAu. pose proof (per_len Lu) as Lp.
    rewrite <- per_A by auto. rewrite (per_split Lu) at 1. rewrite rdot_add_l by (rewrite rscale_len; lia). rewrite rdot_scale_l, (rdot_sym v), dot_A by auto.
      assert (E2 : rdot (per u) (per (A u)) = rdot (per u) (A u)).
      { unfold per at 2. rewrite rdot_sub_r, rdot_scale_r, per_orth by (rewrite ?rscale_len; auto; lia). ring. }
      rewrite E2. ring.
  Qed.
  Lemma rayleigh u : length u = n -> nrm2 u = 1 -> rdot u v <> 0 -> Rabs (rdot u (A u) - lam) <= (Rabs lam + mu) * tan2 v u.
  Proof. pose proof dom_mu as Hmu. pose proof dom_v as Lv. intros Lu Nu Hu. pose proof dom_L as [L1 _]. pose proof (L1 u Lu) as LAu. pose proof (per_len Lu) as Lp. pose proof (L1 _ Lp) as LAp.
    pose proof (ray_split Lu) as E.
    assert (C : Rabs (rdot (per u) (A (per u))) <= mu * nrm2 (per u)).
    { pose proof (dom_w Lp (per_orth Lu)) as W. pose proof (cauchy_sq (per u) (A (per u))) as CS.
      apply Rsqr_incr_0_var; [|apply Rmult_le_pos; [lra|apply rdot_pos]]. rewrite <- Rsqr_abs. unfold Rsqr in *. fold (nrm2 (per u)) (nrm2 (A (per u))) in CS.
      eapply Rle_trans; [exact CS|]. apply Rle_trans with (nrm2 (per u) * (mu ^ 2 * nrm2 (per u))); [apply Rmult_le_compat_l; auto; apply rdot_pos|apply Req_le; ring]. }
    assert (N : nrm2 (per u) = 1 - rdot u v ^ 2) by (rewrite per_nrm2 by auto; lra).
    replace (rdot u (A u) - lam) with (rdot (per u) (A (per u)) + - (lam * nrm2 (per u))) by (rewrite E, N; ring).
    eapply Rle_trans; [apply Rabs_triang|]. rewrite Rabs_Ropp, Rabs_mult, (Rabs_right (nrm2 (per u))) by (apply Rle_ge, rdot_pos).
    apply Rle_trans with ((Rabs lam + mu) * nrm2 (per u)); [lra|]. apply Rmult_le_compat_l; [pose proof (Rabs_pos lam); lra|].
    rewrite tan2_per by auto. pose proof (rdot_pos (per u)) as P. fold (nrm2 (per u)) in P.
    assert (0 < rdot u v ^ 2) by (rewrite <- Rsqr_pow2; now apply Rlt_0_sqr).
    apply Rmult_le_reg_r with (rdot u v ^ 2); auto. unfold Rdiv. rewrite Rmult_assoc, Rinv_l, Rmult_1_r by lra.
    rewrite <- (Rmult_1_r (nrm2 (per u))) at 2. apply Rmult_le_compat_l; lra.
  Qed.
  (** the nearer of v and -v *)
  Lemma near_v u : length u = n -> nrm2 u = 1 -> rdot u v <> 0 -> exists sg, (sg = 1 \/ sg = -1) /\ nrm2 (rsub u (rscale sg v)) <= 2 * tan2 v u.
  Proof. pose proof dom_mu as Hmu. pose proof dom_v as Lv. intros Lu Nu Hu. set (al := rdot u v) in *.
    assert (Q : al ^ 2 <= 1). { pose proof (rdot_pos (per u)) as P. fold (nrm2 (per u)) in P. rewrite per_nrm2, Nu in P by auto. fold al in P. lra. }
    assert (K : forall sg, sg * sg = 1 -> nrm2 (rsub u (rscale sg v)) = 2 - 2 * (sg * al)).
    { intros sg Hs. unfold nrm2. rewrite rdot_sub_l, !rdot_sub_r, !rdot_scale_l, !rdot_scale_r by (rewrite ?rscale_len; lia).
      fold (nrm2 v) (nrm2 u). rewrite dom_N, Nu, (rdot_sym v u). fold al. replace (sg * (sg * 1)) with 1 by lra. ring. }
    assert (T : forall be, 0 < be -> be ^ 2 = al ^ 2 -> 2 - 2 * be <= 2 * tan2 v u).
    { intros be Hb Eb. unfold tan2. fold al. rewrite Nu, <- Eb. rewrite <- Eb in Q. assert (be <= 1) by nra.
      apply Rmult_le_reg_r with (be ^ 2); [nra|]. replace (2 * ((1 - be ^ 2) / be ^ 2) * be ^ 2) with (2 * (1 - be ^ 2)) by (field; lra). nra. }
    destruct (Rlt_dec 0 al) as [P|P].
    - exists 1. split; auto. rewrite K, Rmult_1_l by ring. apply T; auto.
    - exists (-1). split; auto. rewrite K by ring. replace (2 - 2 * (-1 * al)) with (2 - 2 * (- al)) by ring. apply T; [lra|ring].
  Qed.
  Section Run.
    Variables (b : vec) (mx : nat) (tol : R).
    Hypothesis Lb : length b = n.
    Hypothesis Hb : rdot b v <> 0.
    Notation cond := (power_cond mx tol).
    Notation body := (power_body A).
    Notation Rch := (reaches cond body (power_init b)).
    Notation q := ((mu / lam) ^ 2).
    Lemma q_range : 0 <= q < 1.
    Proof.
      pose proof dom_mu as Hmu. pose proof lam_nz. replace q with ((mu / Rabs lam) ^ 2) by (unfold Rdiv; rewrite !Rpow_mult_distr, !pow_inv, pow2_abs; reflexivity).
      assert (0 <= mu / Rabs lam < 1).
      { split; [apply Rmult_le_pos; [lra|apply Rlt_le, Rinv_0_lt_compat; lra]|]. apply Rmult_lt_reg_r with (Rabs lam); [lra|]. unfold Rdiv. rewrite Rmult_assoc, Rinv_l by lra. lra. }
      nra.
    Qed.
    Lemma unit_of u w : normalize u = Some w -> rdot u v <> 0 -> length u = n ->
      length w = n /\ nrm2 w = 1 /\ rdot w v <> 0 /\ tan2 v w = tan2 v u.
    Proof. pose proof dom_mu as Hmu. pose proof dom_v as Lv. intros E Hu Lu. apply normalize_some in E as [N1 [E [P Lw]]]. split; [congruence|]. split; auto.
      assert (Hc : / nrm u <> 0) by (apply Rinv_neq_0_compat; lra). rewrite E. split; [|now apply tan2_scale].
      rewrite rdot_scale_l. now apply Rmult_integral_contrapositive_currified.
    Qed.
    Lemma power_angle k s : Rch k s -> length (pw_v s) = n /\ rdot (pw_v s) v <> 0 /\ tan2 v (pw_v s) <= q ^ k * tan2 v b.
    Proof.
      induction 1 as [|k s s' H (L & D & T) C E]; [cbn; split; auto; split; auto; lra|]. unfold power_body in E.
      destruct (normalize (pw_v s)) as [u|] eqn:En; [|discriminate]. injection E as <-. cbn [pw_v].
      destruct (unit_of En D L) as (Lu & Nu & Du & Tu). split; [now apply dom_L|]. split.
      - rewrite dot_A by auto. apply Rmult_integral_contrapositive_currified; auto. apply lam_nz.
      - eapply Rle_trans; [now apply tan2_A|]. rewrite Tu. change (q ^ S k) with (q * q ^ k). rewrite (Rmult_assoc q). apply Rmult_le_compat_l; auto. apply q_range.
    Qed.
    Lemma power_value k s : Rch (S k) s -> Rabs (pw_new s - lam) <= (Rabs lam + mu) * (q ^ k * tan2 v b).
    Proof. pose proof dom_mu as Hmu. pose proof dom_v as Lv. intros H. destruct (reaches_S_inv H) as [s1 [H1 [_ E]]]. destruct (power_angle H1) as (L & D & T). unfold power_body in E.
      destruct (normalize (pw_v s1)) as [u|] eqn:En; [|discriminate]. injection E as <-. cbn [pw_new].
      destruct (unit_of En D L) as (Lu & Nu & Du & Tu). eapply Rle_trans; [now apply rayleigh|]. rewrite Tu.
      apply Rmult_le_compat_l; auto. pose proof (Rabs_pos lam). lra.
    Qed.
    Lemma power_conv fuel sol : power_iterations A b mx tol fuel = Done sol -> (0 < ps_it sol)%nat ->
      Rabs (ps_s sol - lam) <= (Rabs lam + mu) * ((mu / lam) ^ (2 * (ps_it sol - 1)) * tan2 v b) /\
      exists sg, (sg = 1 \/ sg = -1) /\ nrm2 (rsub (ps_v sol) (rscale sg v)) <= 2 * ((mu / lam) ^ (2 * ps_it sol) * tan2 v b).
    Proof.
      unfold power_iterations. destruct (while_ _ _ _ _) as [s| |] eqn:W; try discriminate.
      destruct (normalize (pw_v s)) as [w|] eqn:En; [|discriminate]. intros H. injection H as <-. cbn [ps_v ps_s ps_it].
      apply while_done in W as [k [_ [W _]]]. pose proof (power_len dom_L Lb W) as [_ Ek]. destruct (power_angle W) as (L & D & T).
      rewrite Ek. intros Hk. split.
      - destruct k as [|k]; [lia|]. cbn [Nat.sub]. rewrite Nat.sub_0_r, pow_mult. now apply power_value.
      - destruct (unit_of En D L) as (Lu & Nu & Du & Tu). destruct (near_v Lu Nu Du) as (sg & Hs & Q). exists sg. split; auto.
        rewrite pow_mult. rewrite Tu in Q. lra.
    Qed.
    Lemma power_body_ok k s : Rch k s -> body s <> None.
    Proof. pose proof dom_mu as Hmu. pose proof dom_v as Lv. intros H E. destruct (power_angle H) as (L & D & _). unfold power_body in E. destruct (normalize (pw_v s)) eqn:En; [discriminate|].
      apply normalize_none in En. apply nrm_eq0 in En. apply D. rewrite En. apply rdot_zero_l.
    Qed.
    (** with a positive tolerance the loop ends by itself *)
    Lemma power_settles k s : 0 < tol -> (2 + tol) * ((Rabs lam + mu) * (q ^ k * tan2 v b)) <= tol * Rabs lam -> Rch (S (S k)) s -> cond s = false.
    Proof.
      intros Ht HX H. pose proof dom_mu as Hmu. pose proof q_range as Q. pose proof (tan2_pos Lb Hb) as T. set (C := (Rabs lam + mu) * tan2 v b).
      assert (HC : 0 <= C) by (apply Rmult_le_pos; auto; pose proof (Rabs_pos lam); lra).
      pose proof (power_value H) as V2. destruct (reaches_S_inv H) as [s1 [H1 [_ E]]].
      pose proof (power_value H1) as V1. unfold power_body in E. destruct (normalize (pw_v s1)) as [u|] eqn:En; [|discriminate]. injection E as <-. cbn [pw_new] in V2.
      assert (X : q ^ k * C * (2 + tol) <= tol * Rabs lam) by (unfold C; lra).
      assert (V1' : Rabs (pw_new s1 - lam) <= q ^ k * C) by (unfold C; lra).
      assert (V2' : Rabs (rdot u (A u) - lam) <= q ^ k * C).
      { eapply Rle_trans; [exact V2|]. change (q ^ S k) with (q * q ^ k). unfold C. assert (q ^ k * ((Rabs lam + mu) * tan2 v b) * q <= q ^ k * ((Rabs lam + mu) * tan2 v b)).
        { rewrite <- (Rmult_1_r (q ^ k * ((Rabs lam + mu) * tan2 v b))) at 2. apply Rmult_le_compat_l; [|lra]. apply Rmult_le_pos; [apply pow_le; lra|exact HC]. }
        lra. }
      set (o := pw_new s1) in *. set (w := rdot u (A u)) in *.
      assert (O : Rabs lam - q ^ k * C <= Rabs o) by (pose proof (Rabs_triang_inv lam (lam - o)) as Z; replace (lam - (lam - o)) with o in Z by ring; rewrite (Rabs_minus_sym lam o) in Z; lra).
      assert (Dif : Rabs (w - o) <= tol * Rabs o).
      { replace (w - o) with ((w - lam) + - (o - lam)) by ring. eapply Rle_trans; [apply Rabs_triang|]. rewrite Rabs_Ropp.
        apply Rle_trans with (tol * (Rabs lam - q ^ k * C)); [lra|]. apply Rmult_le_compat_l; lra. }
      unfold power_cond. cbn [pw_new pw_old pw_it]. apply andb_false_iff. right. destruct (Reqb_spec o 0) as [Z|Z].
      - rewrite Z, Rabs_R0, Rmult_0_r in Dif. rewrite Z. destruct (Reqb_spec (w - 0) 0) as [Y|Y]; [reflexivity|]. exfalso. pose proof (Rabs_pos_lt _ Y). lra.
      - apply Rltb_false. unfold Rdiv. rewrite Rabs_mult, Rabs_inv. assert (PO : 0 < Rabs o) by now apply Rabs_pos_lt.
        apply Rmult_le_reg_r with (Rabs o); auto. rewrite Rmult_assoc, Rinv_l by lra. lra.
    Qed.
    Lemma power_ends_by k fuel : 0 < tol -> (2 + tol) * ((Rabs lam + mu) * (q ^ k * tan2 v b)) <= tol * Rabs lam -> (S (S k) <= fuel)%nat ->
      exists sol, power_iterations A b mx tol fuel = Done sol /\ (ps_it sol <= S (S k))%nat.
    Proof.
      intros Ht HX Hf. pose proof q_range as Q. pose proof (tan2_pos Lb Hb) as T. pose proof dom_mu as Hmu.
      assert (M : forall j, (k <= j)%nat -> (2 + tol) * ((Rabs lam + mu) * (q ^ j * tan2 v b)) <= tol * Rabs lam).
      { intros j Hj. eapply Rle_trans; [|exact HX]. apply Rmult_le_compat_l; [lra|]. apply Rmult_le_compat_l; [pose proof (Rabs_pos lam); lra|].
        apply Rmult_le_compat_r; auto. replace j with (k + (j - k))%nat by lia. rewrite pow_add. rewrite <- (Rmult_1_r (q ^ k)) at 2.
        apply Rmult_le_compat_l; [apply pow_le; lra|]. rewrite <- (pow1 (j - k)). apply pow_incr. lra. }
      assert (B : forall j s, Rch j s -> cond s = true -> (j < S (S k))%nat).
      { intros j s H C. destruct (Nat.lt_ge_cases j (S (S k))) as [L|L]; auto. exfalso. destruct j as [|[|j]]; [lia|lia|].
        rewrite (@power_settles j s Ht (M j ltac:(lia)) H) in C. discriminate. }
      unfold power_iterations. destruct (@while_total _ cond body (power_init b) fuel) as [s W].
      - intros j s H C. destruct (body s) eqn:E; [discriminate|]. exfalso. eapply power_body_ok; eauto.
      - intros j s H C. pose proof (B j s H C). lia.
      - rewrite W. apply while_done in W as [j [_ [W _]]]. pose proof (power_body_ok W) as B'. unfold power_body in B'. destruct (normalize (pw_v s)); [|congruence].
        eexists. split; [reflexivity|]. cbn [ps_it]. destruct (power_len dom_L Lb W) as [_ ->]. destruct j as [|j]; [lia|].
        destruct (reaches_S_inv W) as [s1 [W1 [C1 _]]]. pose proof (B j s1 W1 C1). lia.
    Qed.
    Lemma power_runs fuel : (mx <= fuel)%nat -> exists sol, power_iterations A b mx tol fuel = Done sol.
    Proof. pose proof dom_mu as Hmu. pose proof dom_v as Lv. intros Hf. unfold power_iterations. destruct (@while_total _ cond body (power_init b) fuel) as [s W].
      - intros k s H C. destruct (body s) eqn:E; [discriminate|]. exfalso. eapply power_body_ok; eauto.
      - intros k s H C. apply (power_len dom_L Lb) in H as [_ E]. unfold power_cond in C. apply andb_true_iff in C as [C _]. apply Nat.ltb_lt in C. lia.
      - rewrite W. apply while_done in W as [k [_ [W _]]]. pose proof (power_body_ok W) as B. unfold power_body in B. destruct (normalize (pw_v s)); [eauto|congruence].
    Qed.
  End Run.
End Dom.
