(** Trajectories of a loop. *)
From Coq Require Import List Arith Bool Lia.
From Verif Require Import Loop Vec RVec SolverSpec.
Set Implicit Arguments.
Section Traj.
  Variable S : Type.
  Variable cond : S -> bool.
  Variable body : S -> option S.
  Variable s0 : S.
  Notation R_ := (reaches cond body s0).
  Lemma reaches_iter k s : R_ k s -> iter cond body k s0 = Some s.
  Proof. induction 1 as [|k s s' H IH C B]; simpl; auto. now rewrite IH, C. Qed.
  Lemma iter_reaches k : forall s, iter cond body k s0 = Some s -> R_ k s.
  Proof.
    induction k as [|k IH]; simpl; intros s H; [injection H as <-; constructor|].
    destruct (iter cond body k s0) as [s1|] eqn:E; [|discriminate]. destruct (cond s1) eqn:C; [|discriminate].
    econstructor; eauto.
  Qed.
  Lemma reaches_fun k s s' : R_ k s -> R_ k s' -> s = s'.
  Proof. intros H H'. apply reaches_iter in H, H'. congruence. Qed.
  Lemma reaches_S_inv k s' : R_ (Datatypes.S k) s' -> exists s, R_ k s /\ cond s = true /\ body s = Some s'.
  Proof. intros H. inversion H as [|k1 s1 s2 H1 C B]; subst. eauto. Qed.
  Lemma reaches_inv (P : S -> Prop) : P s0 ->
    (forall s s', P s -> cond s = true -> body s = Some s' -> P s') -> forall k s, R_ k s -> P s.
  Proof. intros H0 HS k s H. induction H; eauto. Qed.
  Lemma reaches_le k s : R_ k s -> forall j, j <= k -> exists s', R_ j s'.
  Proof.
    induction 1 as [|k s s' H IH C B]; intros j Hj; [replace j with 0 by lia; eexists; constructor|].
    destruct (Nat.eq_dec j (Datatypes.S k)) as [->|]; [exists s'; econstructor; eauto|apply IH; lia].
  Qed.
  Definition traj (k : nat) : S := match iter cond body k s0 with Some s => s | None => s0 end.
  Lemma reaches_traj k s : R_ k s -> traj k = s.
  Proof. intros H. unfold traj. now rewrite (reaches_iter H). Qed.
  Lemma traj_0 : traj 0 = s0. Proof. reflexivity. Qed.
  Lemma traj_step k s : R_ k s -> forall j, j < k -> cond (traj j) = true /\ body (traj j) = Some (traj (Datatypes.S j)).
  Proof.
    induction 1 as [|k s s' H IH C B]; intros j Hj; [lia|].
    destruct (Nat.eq_dec j k) as [->|]; [|apply IH; lia].
    rewrite (reaches_traj H). split; auto. rewrite B. f_equal. symmetry. apply reaches_traj. econstructor; eauto.
  Qed.
  Lemma traj_reaches k s : R_ k s -> forall j, j <= k -> R_ j (traj j).
  Proof. intros H j Hj. destruct (reaches_le H Hj) as [s' Hs']. now rewrite (reaches_traj Hs'). Qed.
  Lemma while_reaches fuel : forall k s s', R_ k s -> while_ cond body fuel s = Done s' ->
    exists j, k <= j <= k + fuel /\ R_ j s' /\ cond s' = false.
  Proof.
    induction fuel as [|f IH]; intros k s s' H; simpl.
    - destruct (cond s) eqn:C; [discriminate|]. intros [= <-]. exists k. split; [lia|auto].
    - destruct (cond s) eqn:C; [|intros [= <-]; exists k; split; [lia|auto]].
      destruct (body s) as [s1|] eqn:B; [|discriminate]. intros E.
      destruct (IH (Datatypes.S k) s1 s' (@reach_S _ _ _ _ _ _ _ H C B) E) as [j [Hj ?]]. exists j. split; [lia|auto].
  Qed.
  Lemma while_done fuel s' : while_ cond body fuel s0 = Done s' ->
    exists j, j <= fuel /\ R_ j s' /\ cond s' = false.
  Proof. intros H. destruct (while_reaches fuel (reach_0 cond body s0) H) as [j [Hj ?]]. exists j. split; [lia|auto]. Qed.
  Lemma while_fail fuel : forall k s, R_ k s -> while_ cond body fuel s = Fail ->
    exists j s', R_ j s' /\ cond s' = true /\ body s' = None.
  Proof.
    induction fuel as [|f IH]; intros k s H; simpl; destruct (cond s) eqn:C; try discriminate.
    destruct (body s) as [s1|] eqn:B; [|intros _; exists k, s; auto]. intros E. exact (IH _ _ (@reach_S _ _ _ _ _ _ _ H C B) E).
  Qed.
  Lemma while_fuel fuel : forall k s, R_ k s -> while_ cond body fuel s = Fuel ->
    exists s', R_ (k + fuel) s' /\ cond s' = true.
  Proof.
    induction fuel as [|f IH]; intros k s H; simpl; destruct (cond s) eqn:C; try discriminate.
    - intros _. rewrite Nat.add_0_r. eauto.
    - destruct (body s) as [s1|] eqn:B; [|discriminate]. intros E.
      destruct (IH (Datatypes.S k) s1 (@reach_S _ _ _ _ _ _ _ H C B) E) as [s' ?]. exists s'. now rewrite Nat.add_succ_r.
  Qed.
  (** a loop that cannot fail and cannot reach more than [fuel] iterations ends *)
  Lemma while_total fuel :
    (forall k s, R_ k s -> cond s = true -> body s <> None) ->
    (forall k s, R_ k s -> cond s = true -> k < fuel) ->
    exists s, while_ cond body fuel s0 = Done s.
  Proof.
    intros HF HT. destruct (while_ cond body fuel s0) as [s| |] eqn:E; eauto; exfalso.
    - destruct (while_fail fuel (reach_0 cond body s0) E) as [j [s [H1 [H2 H3]]]]. eapply HF; eauto.
    - destruct (while_fuel fuel (reach_0 cond body s0) E) as [s [H1 H2]]. simpl in H1. specialize (HT _ _ H1 H2). lia.
  Qed.
End Traj.
