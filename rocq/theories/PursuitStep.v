(** The normalised step size of IHT and HTP. *)
From Coq Require Import List Arith Bool Lia Reals Lra.
From Verif Require Import Scalar Vec RVec RMat Loop OptModel SortedL1Model CGModel SlsModel SelModel SelSpec DictModel SolverSpec CGProofs PursuitModel PursuitSpec PursuitProofs PursuitProofs2.
Import ListNotations.
Set Implicit Arguments.
Local Open Scope R_scope.

Section Step.
  Variables (m : nat) (D : dictionary).
  Hypothesis V : valid_dict m D.
  (** the direction of the step: the correlations on the current support, mapped to the signal space *)
  Definition step_direction (r : vec) (I : list nat) : vec := combine_on m D I (gather (d_trans D r) I).
  Lemma step_exact r J mu : length r = m -> (forall i, In i J -> (i < d_n D)%nat) ->
    get_step_size D m None (d_trans D r) J = Some mu ->
    0 < mu /\ forall t, nrm2 (rsub r (rscale mu (step_direction r J))) <= nrm2 (rsub r (rscale t (step_direction r J))).
  Proof.
    intros Lr HJ H. unfold get_step_size in H. apply fdiv_some in H as [H1 H2].
    set (h := gather (d_trans D r) J) in *. change (synth D m J h) with (step_direction r J) in *.
    set (w := step_direction r J) in *.
    assert (Lw : length w = m) by (apply (synth_len V); auto).
    assert (E : rdot w r = rdot h h) by (unfold w, step_direction; rewrite (synth_adj V); auto).
    assert (Q : forall t, nrm2 (rsub r (rscale t w)) = nrm2 r - 2 * t * rdot h h + t * t * rdot w w).
    { intros t. unfold nrm2. vdot. rewrite (rdot_sym r w), E. ring. }
    pose proof (rdot_pos w) as Pw. pose proof (rdot_pos h) as Ph.
    assert (Hh : 0 < rdot h h).
    { destruct (Rle_lt_or_eq_dec 0 _ Ph) as [|Z]; auto. exfalso. apply H1.
      assert (Z2 : forall c, rdot h c = 0).
      { intros c. rewrite (rdot_eq0 h (eq_sym Z)). apply rdot_zero_l. }
      unfold w, step_direction. fold h. rewrite (synth_adj V); auto. }
    assert (Hw : 0 < rdot w w) by lra.
    split; [rewrite H2; apply Rmult_lt_0_compat; [|apply Rinv_0_lt_compat]; auto|].
    intros t. rewrite !Q. subst mu.
    assert (0 <= rdot w w * ((t - rdot h h / rdot w w) * (t - rdot h h / rdot w w))).
    { apply Rmult_le_pos; auto. apply Rle_0_sqr. }
    replace (rdot w w * ((t - rdot h h / rdot w w) * (t - rdot h h / rdot w w)))
      with (t * t * rdot w w - 2 * t * rdot h h + rdot h h / rdot w w * rdot h h) in H by (field; auto).
    replace (rdot h h / rdot w w * (rdot h h / rdot w w) * rdot w w) with (rdot h h / rdot w w * rdot h h) by (field; auto).
    lra.
  Qed.
  Lemma step_some y K s s' lstsq : length y = m ->
    (iht_body D y K None s = Some s' \/ htp_body lstsq D y K None s = Some s') ->
    length (p_r s) = m -> (forall i, In i (p_I s) -> (i < d_n D)%nat) ->
    exists mu, 0 < mu /\
      (iht_body D y K None s = Some s' -> iht_body D y K (Some mu) s = Some s') /\
      (htp_body lstsq D y K None s = Some s' -> htp_body lstsq D y K (Some mu) s = Some s') /\
      forall t, nrm2 (rsub (p_r s) (rscale mu (step_direction (p_r s) (p_I s)))) <= nrm2 (rsub (p_r s) (rscale t (step_direction (p_r s) (p_I s)))).
  Proof.
    intros Ly HB Lr HI.
    destruct (get_step_size D (length y) None (d_trans D (p_r s)) (p_I s)) as [mu|] eqn:E.
    - exists mu. pose proof E as E'. rewrite Ly in E'. destruct (@step_exact _ _ _ Lr HI E') as [H1 H2].
      split; auto. unfold iht_body, htp_body in *. rewrite E in *. cbn [get_step_size]. auto.
    - unfold iht_body, htp_body in HB. rewrite E in HB. destruct HB; discriminate.
  Qed.
  Lemma step_init y K s : length y = m -> (K <= d_n D)%nat -> iht_init D y K None = Some s ->
    exists mu, 0 < mu /\ iht_init D y K (Some mu) = Some s /\
      forall t, nrm2 (rsub y (rscale mu (step_direction y (seq 0 K)))) <= nrm2 (rsub y (rscale t (step_direction y (seq 0 K)))).
  Proof.
    intros Ly HK H. unfold iht_init in *.
    destruct (get_step_size D (length y) None (d_trans D y) (seq 0 K)) as [mu|] eqn:E; [|discriminate].
    exists mu. rewrite Ly in E. assert (HJ : forall i, In i (seq 0 K) -> (i < d_n D)%nat) by (intros i Hi; apply in_seq in Hi; lia).
    destruct (@step_exact _ _ _ Ly HJ E) as [H1 H2]. auto.
  Qed.
End Step.
