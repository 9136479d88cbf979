(** Runs of block sparse Bayesian learning. *)
From Coq Require Import List Arith Bool Reals Lia Lra Psatz.
From Verif Require Import Scalar Vec RVec Loop XReal SolverSpec LoopLemmas
  BsblModel BsblSpec BsblProofs BsblProofs2 BsblProofs3 BsblProofs4 BsblProofs5
  BsblProofs6.
Import ListNotations.
Local Open Scope R_scope.

Lemma mean_ext m n Phi P P' lam y x :
  (forall k j, (k < n)%nat -> (j < n)%nat -> P k j = P' k j) ->
  posterior_mean m n Phi P lam y x -> posterior_mean m n Phi P' lam y x.
Proof.
  intros HE HM k Hk. specialize (HM k Hk).
  rewrite (rsum_ext (n := n) (fun j => P' k j * _) (fun j => P k j *
    rsum m (fun r => Phi r j * rsum n (fun l => Phi r l * x l)))).
  2:{ intros j Hj. rewrite HE; auto. }
  rewrite HM. apply rsum_ext. intros j Hj. rewrite HE; auto.
Qed.

Section Runs.
  Variables (m nb b : nat) (Phi : fmat) (y : fvec).
  Variable solve : fmat -> fmat -> fmat.
  Variable inv : fmat -> fmat.
  Variable svd : fmat -> fmat * fvec * fmat.

  Notation n := (nb * b)%nat.
  Notation em := (em_body m nb b Phi y solve inv).
  Notation bo := (bo_body m nb b Phi y solve inv svd).
  Notation np := (bo_np_body m nb b Phi y solve inv svd).
  Notation init := (bsbl_init m y).

  (** ** Residuals, for any of the three algorithms *)
  Definition consistent (k : nat) (s : bsbl_state) : Prop :=
    (forall r, bs_r s r = y r - rsum n (fun l => Phi r l * flatten b (bs_mu s) l)) /\
    bs_rn s = fsq m (bs_r s) /\ bs_it s = k.

  Lemma init_consistent o : consistent 0 (init o).
  Proof.
    repeat split. intros r. cbn.
    rewrite (rsum_0' (n := n)); [ring|]. intros. unfold flatten. ring.
  Qed.

  Lemma step_consistent o s s' mu : step_result m nb b Phi y o s s' mu ->
    consistent (S (bs_it s)) s'.
  Proof.
    intros [H1 [H2 [H3 [H4 _]]]]. repeat split; auto.
    intros r. rewrite H2, H1. reflexivity.
  Qed.

  Lemma run_consistent o body k s :
    body = em o \/ body = bo o \/ body = np o ->
    reaches (bsbl_cond o) body (init o) k s -> consistent k s.
  Proof.
    intros HB H. induction H as [|k s s' H IH HC Hs].
    - apply init_consistent.
    - destruct IH as [_ [_ <-]]. destruct HB as [->|[->| ->]].
      + apply (step_consistent o s s' _ (proj1 (em_result _ _ _ _ _ _ _ _ _ _ Hs))).
      + apply (step_consistent o s s' _ (proj1 (bo_result _ _ _ _ _ _ _ _ _ _ _ Hs))).
      + apply (step_consistent o s s' _ (np_result _ _ _ _ _ _ _ _ _ _ _ Hs)).
  Qed.

  (** ** Pruned blocks *)
  Lemma step_pruned o body s s' i : body = em o \/ body = bo o ->
    body s = Some s' -> is_active o s i = false ->
    (forall c, bs_mu s' i c = 0) /\ bs_gam s' i = 0.
  Proof.
    intros HB Hs HA.
    assert (HR : step_result m nb b Phi y o s s' (the_mu m nb b Phi y solve o s) /\
      (forall i, is_active o s i = false -> bs_gam s' i = 0)).
    { destruct HB as [->| ->].
      - exact (em_result _ _ _ _ _ _ _ _ _ _ Hs).
      - exact (bo_result _ _ _ _ _ _ _ _ _ _ _ Hs). }
    destruct HR as [[-> _] HG]. split; auto.
    intros c. unfold the_mu, compute_mu_x_pruned. rewrite HA. reflexivity.
  Qed.

  Lemma run_pruned o body k s : 0 <= bo_prune o ->
    body = em o \/ body = bo o -> forall j s' i,
    reaches (bsbl_cond o) body (init o) k s -> is_active o s i = false ->
    reaches (bsbl_cond o) body (init o) (S (k + j)) s' ->
    (forall c, bs_mu s' i c = 0) /\ bs_gam s' i = 0 /\ is_active o s' i = false.
  Proof.
    intros HP HB.
    assert (G : forall s1 s2 i, is_active o s1 i = false -> body s1 = Some s2 ->
      (forall c, bs_mu s2 i c = 0) /\ bs_gam s2 i = 0 /\ is_active o s2 i = false).
    { intros s1 s2 i HA Hs.
      destruct (step_pruned o body s1 s2 i HB Hs HA) as [H1 H2].
      repeat split; auto. unfold is_active. rewrite H2.
      destruct (Rltb_spec (bo_prune o) 0); auto. lra. }
    induction j as [|j IH]; intros s' i Hr HA Hr'.
    - rewrite Nat.add_0_r in Hr'. apply reaches_S_inv in Hr'.
      destruct Hr' as [s1 [H1 [_ H2]]].
      rewrite (reaches_fun H1 Hr) in H2. eauto.
    - apply reaches_S_inv in Hr'. destruct Hr' as [s1 [H1 [_ H2]]].
      replace (k + S j)%nat with (S (k + j)) in H1 by lia.
      destruct (IH s1 i Hr HA H1) as [_ [_ HA']]. eauto.
  Qed.

  (** ** Runs that satisfy the assumptions *)
  Hypothesis HS : solver_ok m solve.
  Hypothesis HI : inv_ok b inv.
  Hypothesis Hb : (0 < b)%nat.
  Variable o : bsbl_options.
  Hypothesis HP : 0 <= bo_prune o.
  Hypothesis HL : 0 < bo_lambda o.
  Hypothesis Hrule : (bo_learn_lambda o <= 1)%nat.
  Hypothesis Hy : bo_learn_lambda o = 1%nat -> exists r, (r < m)%nat /\ y r <> 0.

  Lemma run_ok body k s : body = em o \/ body = bo o ->
    reaches (bsbl_cond o) body (init o) k s -> bsbl_ok nb s.
  Proof.
    intros HB. revert k s. apply reaches_inv.
    - apply init_ok; auto.
    - intros s s' Hok _ Hs. destruct HB as [->| ->].
      + destruct (em_step m nb b Phi y solve inv HS HI Hb o s HP Hrule Hy Hok)
          as [s1 [E Hok']]. rewrite E in Hs. injection Hs as <-. auto.
      + eapply bo_step; eauto.
  Qed.

  Lemma ok_prior s : bsbl_ok nb s -> exists r, Rabs r < 1 /\
    (forall k j, (k < n)%nat -> (j < n)%nat ->
       prior b (is_active o s) (used_S0 s) k j = state_prior b o s r k j) /\
    (forall S0, bs_S0 s = Some S0 -> forall i p q, (i < nb)%nat ->
       S0 i p q = bs_gam s i * r ^ (p - q + (q - p))).
  Proof.
    intros [_ [_ H0]]. unfold used_S0, state_prior, prior, block_diag.
    destruct (bs_S0 s) as [S0|].
    - destruct H0 as [r [Hr H0]]. exists r. split; auto. split.
      + intros k j Hk Hj. destruct (blk_range nb b k Hk) as [Hi _].
        destruct (Nat.eqb _ _); auto. destruct (is_active o s (k / b)); auto.
        rewrite H0; auto.
      + intros S1 E. injection E as <-. intros. apply H0; auto.
    - exists 0. split; [rewrite Rabs_R0; lra|]. split; [|discriminate].
      intros k j Hk Hj. destruct (blk_range nb b k Hk) as [Hi _].
      destruct (Nat.eqb _ _); auto. destruct (is_active o s (k / b)); auto.
      rewrite H0 by auto. ring.
  Qed.

  Lemma run_posterior body k s s' : body = em o \/ body = bo o ->
    reaches (bsbl_cond o) body (init o) k s -> body s = Some s' ->
    exists r, Rabs r < 1 /\
      psd n (state_prior b o s r) /\
      posterior_mean m n Phi (state_prior b o s r) (bs_lam s) y
        (flatten b (bs_mu s')) /\
      (forall x, posterior_mean m n Phi (state_prior b o s r) (bs_lam s) y x ->
         forall k, (k < n)%nat -> x k = flatten b (bs_mu s') k).
  Proof.
    intros HB Hr Hs. pose proof (run_ok body k s HB Hr) as Hok.
    destruct (ok_prior s Hok) as [r [Hr1 [HE _]]]. exists r. split; auto.
    assert (HD : psd n (state_prior b o s r)).
    { apply (psd_ext n (prior b (is_active o s) (used_S0 s))); auto.
      apply prior_psd. intros. apply ok_psd with (nb := nb); auto. }
    assert (HM : posterior_mean m n Phi (state_prior b o s r) (bs_lam s) y
        (flatten b (bs_mu s'))).
    { apply (mean_ext m n Phi (prior b (is_active o s) (used_S0 s))); auto.
      replace (bs_mu s') with (the_mu m nb b Phi y solve o s).
      - apply mu_mean; auto; [intros; apply ok_psd with (nb := nb); auto|apply Hok].
      - destruct HB as [->| ->].
        + apply em_result in Hs. destruct Hs as [[<- _] _]. reflexivity.
        + apply bo_result in Hs. destruct Hs as [[<- _] _]. reflexivity. }
    split; auto. split; auto.
    intros x Hx. eapply (mean_unique m n Phi (state_prior b o s r) (bs_lam s)); eauto.
    apply Hok.
  Qed.

  Lemma em_total : exists s,
    bsbl_em m nb b Phi y solve inv o (bo_max_iters o) = Done s /\
    (bs_it s <= bo_max_iters o)%nat /\
    (bs_dmu s <= bo_eps o \/ bs_it s = bo_max_iters o) /\
    0 < bs_lam s /\ (forall i, (i < nb)%nat -> 0 <= bs_gam s i).
  Proof.
    unfold bsbl_em.
    destruct (@while_total _ (bsbl_cond o) (em o) (init o) (bo_max_iters o))
      as [s Hd].
    - intros k s Hr _ HN.
      pose proof (run_ok (em o) k s (or_introl eq_refl) Hr) as Hok.
      destruct (em_step m nb b Phi y solve inv HS HI Hb o s HP Hrule Hy Hok)
          as [s1 [E _]]. congruence.
    - intros k s Hr HC.
      pose proof (run_consistent o (em o) k s (or_introl eq_refl) Hr)
        as [_ [_ <-]].
      apply andb_true_iff in HC. apply Nat.ltb_lt. apply HC.
    - exists s. split; auto.
      destruct (@while_done _ _ _ _ _ _ Hd)
        as [j [Hj [Hr HC]]].
      pose proof (run_consistent o (em o) j s (or_introl eq_refl) Hr)
        as [_ [_ HIt]].
      pose proof (run_ok (em o) j s (or_introl eq_refl) Hr) as Hok.
      split; [lia|]. split; [|split; apply Hok].
      apply andb_false_iff in HC. destruct HC as [HC|HC].
      + left. destruct (Rltb_spec (bo_eps o) (bs_dmu s)); [discriminate|lra].
      + right. apply Nat.ltb_ge in HC. lia.
  Qed.

  Lemma bo_total :
    (forall i, (i < nb)%nat ->
       exists p c, (p < m)%nat /\ (c < b)%nat /\ Phi p (i * b + c)%nat <> 0) ->
    exists s,
    bsbl_bo m nb b Phi y solve inv svd o (bo_max_iters o) = Done s /\
    (bs_it s <= bo_max_iters o)%nat /\
    (bs_dmu s <= bo_eps o \/ bs_it s = bo_max_iters o) /\
    0 < bs_lam s /\ (forall i, (i < nb)%nat -> 0 <= bs_gam s i).
  Proof.
    intros HN0. unfold bsbl_bo.
    destruct (@while_total _ (bsbl_cond o) (bo o) (init o) (bo_max_iters o))
      as [s Hd].
    - intros k s Hr _ HN.
      pose proof (run_ok (bo o) k s (or_intror eq_refl) Hr) as Hok.
      destruct (bo_some m nb b Phi y solve inv svd HS Hb o s HP Hrule Hy HN0 Hok)
          as [s1 E]. congruence.
    - intros k s Hr HC.
      pose proof (run_consistent o (bo o) k s (or_intror (or_introl eq_refl)) Hr)
        as [_ [_ <-]].
      apply andb_true_iff in HC. apply Nat.ltb_lt. apply HC.
    - exists s. split; auto.
      destruct (@while_done _ _ _ _ _ _ Hd)
        as [j [Hj [Hr HC]]].
      pose proof (run_consistent o (bo o) j s (or_intror (or_introl eq_refl)) Hr)
        as [_ [_ HIt]].
      pose proof (run_ok (bo o) j s (or_intror eq_refl) Hr) as Hok.
      split; [lia|]. split; [|split; apply Hok].
      apply andb_false_iff in HC. destruct HC as [HC|HC].
      + left. destruct (Rltb_spec (bo_eps o) (bs_dmu s)); [discriminate|lra].
      + right. apply Nat.ltb_ge in HC. lia.
  Qed.
End Runs.

(** ** What goes wrong *)
Lemma high_snr_stops m nb b Phi y solve inv o s s' i :
  (2 <= bo_learn_lambda o)%nat -> (i < nb)%nat ->
  em_body m nb b Phi y solve inv o s = Some s' ->
  is_active o s i = false -> em_body m nb b Phi y solve inv o s' = None.
Proof.
  intros Hr Hi Hs HA.
  apply em_result in Hs. destruct Hs as [_ HG]. specialize (HG i HA).
  unfold em_body. destruct (pruned_parts _ _ _ _ _ _ _ o s') as [p|]; auto.
  destruct p as [[[[[act mu] H] Sx] Cx] BB].
  destruct (bo_learn_lambda o) as [|[|k]]; [lia|lia|].
  cbn [update_lambda]. destruct (option_map snd BB) as [Bi|]; auto.
  unfold update_lambda_high_snr.
  destruct (forallb _ _) eqn:E; auto. exfalso.
  rewrite forallb_forall in E. specialize (E i ltac:(apply in_seq; lia)).
  rewrite HG in E. destruct (Reqb 0 0) eqn:E0; [discriminate|].
  destruct (Reqb_spec 0 0); [discriminate|lra].
Qed.

Lemma bo_zero_block m nb b Phi y solve inv svd o s i :
  (i < nb)%nat -> is_active o s i = true ->
  (forall r c, (r < m)%nat -> (c < b)%nat -> Phi r (i * b + c)%nat = 0) ->
  bo_body m nb b Phi y solve inv svd o s = None.
Proof.
  intros Hi HA HZ. unfold bo_body.
  destruct (pruned_parts _ _ _ _ _ _ _ o s) as [p|] eqn:E; auto.
  apply parts_is in E. subst p.
  destruct (update_lambda _ _ _ _ _ _ _ _ _) as [lam|]; auto.
  destruct (the_BB _ _ _ _ _ _ _ o s) as [[B Bi]|].
  - unfold update_gammas_bo_pruned. destruct (forallb _ _) eqn:EF; auto. exfalso.
    rewrite forallb_forall in EF. specialize (EF i ltac:(apply in_seq; lia)).
    rewrite HA in EF. revert EF. unfold bo_mapper.
    destruct (Rltb_spec 0 (ftrace b (fmul b (h_phi m b Phi (the_H nb b Phi solve o s)
      i) B))) as [H|H]; [|discriminate].
    exfalso. revert H. unfold ftrace. rewrite (rsum_0' (n := b)); [lra|].
    intros c Hc. unfold fmul at 1. apply rsum_0'. intros d Hd.
    unfold h_phi. unfold fmul at 1. rewrite (rsum_0' (n := m)); [ring|].
    intros r Hr. rewrite HZ by auto. ring.
  - replace (some_block nb (is_active o s)) with true; auto.
    symmetry. apply some_block_true. eauto.
Qed.
