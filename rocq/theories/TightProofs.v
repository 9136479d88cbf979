(** Further facts about the loops of rfp, the lasso solver of SPGL1 and l1ls. *)
From Coq Require Import List Arith Bool Lia Reals Lra Psatz.
From Verif Require Import Vec RVec RMat Loop LoopLemmas SolverSpec SolverLemmas OptSpec OptModel SelModel CGModel CGProofs PursuitModel OneBitModel OneBitProofs SpglModel SpglSpec SpglProofs SpglProofs2.
Import ListNotations.
Local Open Scope R_scope.

(** ** rfp *)
Definition rfp_chain (D : dictionary) (y : vec) (delta tau : R) (len : nat) (a b : vec) : Prop :=
  exists X : nat -> vec, X 0%nat = a /\ X len = b /\
    forall k, (k < len)%nat -> forall p i, exists t, rfp_body D y delta tau (RFPState (X k) p i) = Some t /\ rf_x t = X (S k).

Lemma chain_app D y delta tau j k a b c : rfp_chain D y delta tau j a b -> rfp_chain D y delta tau k b c ->
  rfp_chain D y delta tau (j + k) a c.
Proof.
  intros [X [X0 [X1 XS]]] [Y [Y0 [Y1 YS]]]. exists (fun i => if (i <? j)%nat then X i else Y (i - j)%nat). split; [|split].
  - destruct (Nat.ltb_spec 0 j); auto. assert (j = 0)%nat by lia. subst j. cbn. congruence.
  - destruct (Nat.ltb_spec (j + k) j); [lia|]. now replace (j + k - j)%nat with k by lia.
  - intros i Hi p q. destruct (Nat.ltb_spec i j) as [H|H].
    + destruct (XS i H p q) as [t [E1 E2]]. exists t. split; auto. rewrite E2.
      destruct (Nat.ltb_spec (S i) j); auto. assert (S i = j) by lia. subst j. rewrite Nat.sub_diag. congruence.
    + destruct (YS (i - j)%nat ltac:(lia) p q) as [t [E1 E2]]. exists t. split; auto. rewrite E2.
      destruct (Nat.ltb_spec (S i) j); [lia|]. f_equal. lia.
Qed.
Lemma body_next D y delta tau x p i t : rfp_body D y delta tau (RFPState x p i) = Some t ->
  rf_it t = S i /\ forall p' i', exists t', rfp_body D y delta tau (RFPState x p' i') = Some t' /\ rf_x t' = rf_x t.
Proof.
  unfold rfp_body. cbn [rf_x rf_it]. cbv zeta. destruct (Reqb _ _) eqn:E; [discriminate|]. intros [= <-]. cbn. split; auto.
  intros p' i'. eexists. split; reflexivity.
Qed.
Lemma inner_chain D y delta tau inner : forall fuel x p i s, (i <= inner)%nat ->
  while_ (fun s => (rf_it s <? inner)%nat) (rfp_body D y delta tau) fuel (RFPState x p i) = Done s ->
  rfp_chain D y delta tau (inner - i) x (rf_x s).
Proof.
  induction fuel as [|fuel IH]; intros x p i s Hi; cbn [while_ rf_it]; destruct (Nat.ltb_spec i inner) as [H|H]; try discriminate.
  - intros [= <-]. exists (fun _ => x). replace (inner - i)%nat with 0%nat by lia. repeat split; auto. lia.
  - destruct (rfp_body D y delta tau (RFPState x p i)) as [t|] eqn:E; [|discriminate]. intros W.
    destruct (body_next _ _ _ _ _ _ _ _ E) as [Et Hb]. destruct t as [tx tp ti]. cbn in Et. subst ti.
    replace (inner - i)%nat with (1 + (inner - S i))%nat by lia. eapply chain_app; [|exact (IH tx tp (S i) s ltac:(lia) W)].
    exists (fun k => match k with O => x | _ => tx end). repeat split; auto. intros k Hk p' i'. assert (k = 0)%nat by lia. subst k. apply Hb.
  - intros [= <-]. exists (fun _ => x). replace (inner - i)%nat with 0%nat by lia. repeat split; auto. lia.
Qed.
Lemma rfp_iterates D y x0 lambda delta inner outer s : rfp D y x0 lambda delta inner outer = Done s ->
  (0 < outer)%nat /\ rfp_chain D y delta (delta / lambda) (inner * outer) x0 (rf_x s).
Proof.
  unfold rfp. generalize (delta / lambda) as tau. intros tau.
  assert (G : forall k lam x last, rfp_outer D y delta tau lam inner k x last = Done s ->
    (k = 0%nat /\ last = Done s) \/ (0 < k)%nat /\ rfp_chain D y delta tau (inner * k) x (rf_x s)).
  { induction k as [|k IH]; intros lam x last; cbn [rfp_outer]; [auto|].
    destruct (rfp_inner D y delta tau inner x inner) as [t| |] eqn:Ei; try discriminate. intros E. right. split; [lia|].
    assert (C : rfp_chain D y delta tau inner x (rf_x t)).
    { rewrite <- (Nat.sub_0_r inner) at 1. eapply inner_chain; [|exact Ei]. lia. }
    destruct (IH _ _ _ E) as [[-> [= ->]]|[Hk C']].
    - now rewrite Nat.mul_1_r.
    - replace (inner * S k)%nat with (inner + inner * k)%nat by lia. eapply chain_app; eauto. }
  intros E. destruct (G _ _ _ _ E) as [[_ H]|H]; [discriminate|exact H].
Qed.

(** ** The steps of the lasso solver *)
Section Lasso.
  Variables (n m : nat) (A T : vec -> vec) (b : vec) (tau : R) (opt : spgl1_options) (x0 : vec).
  Hypothesis AD : adjoint_ops n m A T.
  Hypothesis Lb : length b = m.
  Hypothesis Lx0 : length x0 = n.
  Hypothesis Ht : 0 <= tau.
  Hypothesis Ha : 0 < go_alpha_min opt.
  Hypothesis Haa : go_alpha_min opt <= go_alpha_max opt.

  Lemma curvature x x' : length x = n -> length x' = n ->
    rdot (rsub x' x) (rsub (ropp (T (rsub b (A x')))) (ropp (T (rsub b (A x))))) = nrm2 (A (rsub x' x)).
  Proof.
    intros Lx Lx'. destruct AD as [[LA [LAadd LAs]] [[LT _] Hadj]].
    assert (LAx := LA x Lx). assert (LAx' := LA x' Lx').
    assert (LTx : length (T (rsub b (A x))) = n) by (apply LT; rewrite rsub_len; lia).
    assert (LTx' : length (T (rsub b (A x'))) = n) by (apply LT; rewrite rsub_len; lia).
    assert (Lr : length (rsub b (A x)) = m) by (rewrite rsub_len; lia).
    assert (Lr' : length (rsub b (A x')) = m) by (rewrite rsub_len; lia).
    assert (Ld : length (rsub x' x) = n) by (rewrite rsub_len; lia).
    assert (EA : A (rsub x' x) = rsub (A x') (A x)).
    { apply (@lin_sub n m A); auto. split; auto. }
    rewrite rdot_sub_r by (rewrite !ropp_len; lia). rewrite !rdot_opp_r, <- !Hadj by auto.
    rewrite EA. unfold nrm2. rewrite !(rdot_sub_r _ b) by lia. rewrite (rdot_sub_r _ (A x') (A x)) by lia. ring.
  Qed.
  Lemma lasso_bb k s s' : reaches (lasso_cond b opt) (lasso_body A T b tau opt) (lasso_init A T b tau opt x0) k s ->
    lasso_body A T b tau opt s = Some s' ->
    let d := rsub (la_x s') (la_x s) in
    (nrm2 (A d) = 0 -> la_alpha_next s' = go_alpha_max opt) /\
    (nrm2 (A d) <> 0 -> la_alpha_next s' = Rmin (go_alpha_max opt) (Rmax (go_alpha_min opt) (nrm2 d / nrm2 (A d)))).
  Proof.
    intros HR B d. destruct (@lasso_reach n m A T b tau opt x0 AD Lb Lx0 Ht Ha Haa k s HR) as [I _].
    destruct (@lasso_step n m A T b tau opt x0 AD Lb Lx0 Ht Ha Haa s s' I B) as [I' _].
    destruct I as [Lx [_ [Er [Eg _]]]]. destruct I' as [Lx' [_ [Er' [Eg' _]]]].
    assert (E : la_alpha_next s' = bb_step (go_alpha_min opt) (go_alpha_max opt) (rsub (la_x s') (la_x s)) (rsub (la_g s') (la_g s))).
    { unfold lasso_body in B. cbv zeta in B. destruct (curvy_line_search _ _ _ _ _ _ _ _ _); try discriminate.
      destruct (lasso_metrics _ _ _ _ _). injection B as <-. reflexivity. }
    rewrite E. unfold bb_step. cbv zeta. rewrite Eg, Eg', Er, Er', curvature by auto. fold d.
    pose proof (rdot_pos (A d)) as P. fold (nrm2 (A d)) in P. unfold rclip.
    destruct (Rleb_spec (nrm2 (A d)) 0); split; intros; auto; try lra.
  Qed.
  Lemma lasso_first : let s := lasso_init A T b tau opt x0 in
    let d := rsub (spgl1_project_to_l1_ball (rsub (la_x s) (la_g s)) tau) (la_x s) in
    la_x s = spgl1_project_to_l1_ball x0 tau /\ la_g s = ropp (T (rsub b (A (la_x s)))) /\
    (nrminf d = 0 -> la_alpha_next s = go_alpha_max opt) /\
    (nrminf d <> 0 -> la_alpha_next s = Rmin (go_alpha_max opt) (Rmax (go_alpha_min opt) (1 / nrminf d))).
  Proof.
    unfold lasso_init. cbv zeta. destruct (lasso_metrics _ _ _ _ _). cbn [la_x la_g la_alpha_next].
    split; auto. split; auto. unfold first_step. destruct (Reqb_spec (nrminf (rsub (spgl1_project_to_l1_ball
      (rsub (spgl1_project_to_l1_ball x0 tau) (ropp (T (rsub b (A (spgl1_project_to_l1_ball x0 tau)))))) tau)
      (spgl1_project_to_l1_ball x0 tau))) 0); split; intros; auto; try lra.
  Qed.
End Lasso.
