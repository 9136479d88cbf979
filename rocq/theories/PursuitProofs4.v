From Coq Require Import List Arith Bool Lia Reals Lra Permutation.
From Verif Require Import Scalar Vec RVec RMat Loop LoopLemmas OptSpec OptModel OptProofs OptProofs2 SortedL1Model SortedL1Proofs CGModel SlsModel SelModel SelSpec SelProofs DictModel DictSpec DictProofs SolverSpec CGProofs PursuitModel PursuitSpec PursuitProofs PursuitProofs2.
Import ListNotations.
Set Implicit Arguments.
Local Open Scope R_scope.

(** *** selections *)
Lemma li_lt h K i : In i (largest_indices h K) -> (i < length h)%nat.
Proof.
  intros H. unfold largest_indices in H. assert (H' : In i (rev (argsort (map Rabs h)))).
  { rewrite <- (firstn_skipn K (rev (argsort (map Rabs h)))). apply in_or_app. now left. }
  apply (Permutation_in _ (ranked_perm _)), in_seq in H'. rewrite map_length in H'. lia.
Qed.
Lemma li_len h K : length (largest_indices h K) = Nat.min K (length h).
Proof. unfold largest_indices. rewrite firstn_length, (Permutation_length (ranked_perm _)), seq_length, map_length. reflexivity. Qed.
Lemma li_nodup h K : NoDup (largest_indices h K).
Proof.
  unfold largest_indices. assert (H : NoDup (rev (argsort (map Rabs h)))) by (apply (Permutation_NoDup (Permutation_sym (ranked_perm _))), seq_NoDup).
  rewrite <- (firstn_skipn K (rev (argsort (map Rabs h)))) in H. revert H. generalize (skipn K (rev (argsort (map Rabs h)))).
  induction (firstn K (rev (argsort (map Rabs h)))) as [|a l IH]; intros t H; [constructor|].
  simpl in H. inversion H as [|? ? N H']; subst. constructor; [|eapply IH; eauto]. intros C. apply N, in_or_app. now left.
Qed.
Lemma zero_at_len h J : length (zero_at h J) = length h. Proof. apply tab_length. Qed.
Lemma pick_len J A : length (pick J A) = length A. Proof. apply map_length. Qed.
Lemma pick_in J A i : (forall a, In a A -> (a < length J)%nat) -> In i (pick J A) -> In i J.
Proof. intros H Hi. apply in_map_iff in Hi as (a & <- & Ha). apply nth_In; auto. Qed.
Lemma pick_nodup J A : NoDup J -> NoDup A -> (forall a, In a A -> (a < length J)%nat) -> NoDup (pick J A).
Proof.
  intros NJ NA H. induction A as [|a A IH]; [constructor|]. inversion NA as [|? ? N NA']; subst. cbn [pick map]. constructor.
  - intros C. apply in_map_iff in C as (b & E & Hb). apply N. 
    rewrite (NoDup_nth J 0%nat) in NJ. apply NJ in E; [now subst| |]; apply H; [now right|now left].
  - apply IH; auto. intros; apply H; now right.
Qed.
Lemma ninsert_perm a l : Permutation (ninsert a l) (a :: l).
Proof. induction l as [|b l IH]; simpl; auto. destruct (a <=? b)%nat; auto. rewrite IH. constructor. Qed.
Lemma nsort_perm l : Permutation (nsort l) l.
Proof. induction l as [|a l IH]; simpl; auto. rewrite ninsert_perm. now constructor. Qed.

Section PS.
  Variables (m : nat) (D : dictionary) (y : vec) (K : nat).
  Hypothesis V : valid_dict m D.
  Hypothesis Ly : length y = m.
  Hypothesis HK : (K <= d_n D)%nat.
  Let n := d_n D.
  Lemma make_ok J x it Jp : length J = K -> in_range D J -> length x = K -> consistent m D y K (ps_make D y J x it Jp).
  Proof. intros H1 H2 H3. unfold consistent, ps_make. cbn [p_I p_x p_r p_rn]. unfold synth. rewrite Ly. repeat split; auto. Qed.
  Lemma consistent_len s : consistent m D y K s -> length (p_r s) = m.
  Proof. intros (C1 & C2 & C3 & C4 & C5). rewrite C4, rsub_len, (synth_len V) by auto. lia. Qed.
  Section L.
    Variable lstsq : list vec -> vec -> vec.
    Hypothesis HLS : least_squares_solver lstsq.
    Lemma ls_len J : in_range D J -> length (lstsq (map (d_atom D) J) y) = length J.
    Proof. intros H. destruct (HLS (map (d_atom D) J) y Ly (atoms_len V J H)) as [H1 _]. now rewrite H1, map_length. Qed.
    Lemma ls_min J z : in_range D J -> length z = length J ->
      nrm2 (rsub y (combine_on m D J (lstsq (map (d_atom D) J) y))) <= nrm2 (rsub y (combine_on m D J z)).
    Proof. intros H L. destruct (HLS (map (d_atom D) J) y Ly (atoms_len V J H)) as [_ H1]. apply H1. now rewrite map_length. Qed.
    Lemma h_in r k : length r = m -> in_range D (largest_indices (d_trans D r) k).
    Proof. intros Lr i Hi. apply li_lt in Hi. now rewrite (trans_len V) in Hi. Qed.
    Lemma hz_in r J k : length r = m -> in_range D (largest_indices (zero_at (d_trans D r) J) k).
    Proof. intros Lr i Hi. apply li_lt in Hi. now rewrite zero_at_len, (trans_len V) in Hi. Qed.
    (** pruning a least squares solution over the index list J3 *)
    Lemma prune_ok J3 : in_range D J3 -> (K <= length J3)%nat ->
      let x := lstsq (map (d_atom D) J3) y in
      let Ia := largest_indices x K in
      length (pick J3 Ia) = K /\ in_range D (pick J3 Ia) /\ length (gather x Ia) = K.
    Proof.
      intros R3 L3 x Ia. assert (Lx : length x = length J3) by (now apply ls_len).
      assert (LI : length Ia = K) by (unfold Ia; rewrite li_len, Lx; lia).
      rewrite pick_len, gather_len. repeat split; auto. intros i Hi. apply R3.
      eapply pick_in; [|exact Hi]. intros a Ha. apply li_lt in Ha. lia.
    Qed.
    Lemma cosamp_init_ok : consistent m D y K (cosamp_init lstsq D y K).
    Proof.
      unfold cosamp_init. set (J3 := largest_indices _ (3 * K)).
      assert (R3 : in_range D J3) by (now apply h_in).
      destruct (prune_ok R3) as (P1 & P2 & P3); [unfold J3; rewrite li_len, (trans_len V) by auto; lia|].
      apply make_ok; auto.
      - now rewrite (Permutation_length (nsort_perm _)).
      - intros i Hi. apply P2. now apply (Permutation_in _ (nsort_perm _)).
    Qed.
    Lemma cosamp_body_ok s s' : consistent m D y K s -> cosamp_body lstsq D y K s = Some s' ->
      consistent m D y K s' /\ p_it s' = S (p_it s) /\ p_Iprev s' = p_I s.
    Proof.
      intros C B. unfold cosamp_body in B. injection B as <-. split; [|auto].
      pose proof (consistent_len C) as Lr. destruct C as (C1 & C2 & C3 & C4 & C5).
      assert (R3 : in_range D (p_I s ++ largest_indices (zero_at (d_trans D (p_r s)) (p_I s)) (2 * K))).
      { intros i Hi. apply in_app_or in Hi as [Hi|Hi]; auto. now apply hz_in in Hi. }
      destruct (prune_ok R3) as (P1 & P2 & P3); [rewrite app_length; lia|]. apply make_ok; auto.
    Qed.
    Lemma sp_init_ok : consistent m D y K (sp_init lstsq D y K) /\
      forall z, length z = K -> nrm2 (p_r (sp_init lstsq D y K)) <= nrm2 (rsub y (combine_on m D (p_I (sp_init lstsq D y K)) z)).
    Proof.
      unfold sp_init. set (J := largest_indices _ K). assert (RJ : in_range D J) by (now apply h_in).
      assert (LJ : length J = K) by (unfold J; rewrite li_len, (trans_len V) by auto; lia). split.
      - apply make_ok; auto. rewrite ls_len; auto.
      - intros z Lz. unfold ps_make. cbn [p_r p_I]. unfold synth. rewrite Ly. apply ls_min; auto. congruence.
    Qed.
    Lemma sp_body_ok s s' : consistent m D y K s -> sp_body lstsq D y K s = Some s' ->
      consistent m D y K s' /\ p_it s' = S (p_it s) /\ p_Iprev s' = p_I s /\
      forall z, length z = K -> nrm2 (p_r s') <= nrm2 (rsub y (combine_on m D (p_I s') z)).
    Proof.
      intros C B. unfold sp_body in B. injection B as <-.
      pose proof (consistent_len C) as Lr. destruct C as (C1 & C2 & C3 & C4 & C5).
      assert (R3 : in_range D (p_I s ++ largest_indices (zero_at (d_trans D (p_r s)) (p_I s)) K)).
      { intros i Hi. apply in_app_or in Hi as [Hi|Hi]; auto. now apply hz_in in Hi. }
      destruct (prune_ok R3) as (P1 & P2 & P3); [rewrite app_length; lia|]. split; [|split; [auto|split; [auto|]]].
      - apply make_ok; auto. rewrite ls_len; auto.
      - intros z Lz. unfold ps_make. cbn [p_r p_I]. unfold synth. rewrite Ly. apply ls_min; auto. congruence.
    Qed.
    Lemma iht_init_ok step s : iht_init D y K step = Some s -> consistent m D y K s /\ NoDup (p_I s) /\ p_it s = 1%nat.
    Proof.
      unfold iht_init. destruct (get_step_size _ _ _ _ _) as [mu|]; [|discriminate]. cbn [hard_threshold]. intros [= <-].
      split; [|split; [apply li_nodup|reflexivity]]. apply make_ok.
      - rewrite li_len, rscale_len, (trans_len V) by auto. lia.
      - intros i Hi. apply li_lt in Hi. now rewrite rscale_len, (trans_len V) in Hi.
      - rewrite gather_len, li_len, rscale_len, (trans_len V) by auto. lia.
    Qed.
    Lemma x_len s c : consistent m D y K s -> length (radd (scatter n (p_I s) (p_x s)) (rscale c (d_trans D (p_r s)))) = n.
    Proof. intros C. rewrite radd_len, scatter_len, rscale_len, (trans_len V) by (now apply consistent_len). unfold n. lia. Qed.
    Lemma iht_body_ok step s s' : consistent m D y K s -> iht_body D y K step s = Some s' ->
      consistent m D y K s' /\ NoDup (p_I s') /\ p_it s' = S (p_it s) /\ p_Iprev s' = p_I s.
    Proof.
      intros C. unfold iht_body. destruct (get_step_size _ _ _ _ _) as [mu|]; [|discriminate]. cbn [hard_threshold]. intros [= <-].
      pose proof (x_len mu C) as Lx. fold n. set (u := radd _ _) in *.
      split; [|split; [apply li_nodup|auto]]. apply make_ok.
      - rewrite li_len, Lx. unfold n. lia.
      - intros i Hi. apply li_lt in Hi. now rewrite Lx in Hi.
      - rewrite gather_len, li_len, Lx. unfold n. lia.
    Qed.
    Lemma htp_body_ok step s s' : consistent m D y K s -> htp_body lstsq D y K step s = Some s' ->
      consistent m D y K s' /\ NoDup (p_I s') /\ p_it s' = S (p_it s) /\ p_Iprev s' = p_I s /\
      forall z, length z = K -> nrm2 (p_r s') <= nrm2 (rsub y (combine_on m D (p_I s') z)).
    Proof.
      intros C. unfold htp_body. destruct (get_step_size _ _ _ _ _) as [mu|]; [|discriminate]. cbn [hard_threshold_sorted]. intros [= <-].
      pose proof (x_len mu C) as Lx. fold n. set (u := radd _ _) in *.
      assert (R1 : in_range D (nsort (largest_indices u K))).
      { intros i Hi. apply (Permutation_in _ (nsort_perm _)), li_lt in Hi. now rewrite Lx in Hi. }
      assert (L1 : length (nsort (largest_indices u K)) = K).
      { rewrite (Permutation_length (nsort_perm _)), li_len, Lx. unfold n. lia. }
      split; [|split; [apply (Permutation_NoDup (Permutation_sym (nsort_perm _))), li_nodup|split; [auto|split; [auto|]]]].
      - apply make_ok; auto. rewrite ls_len; auto.
      - intros z Lz. unfold ps_make. cbn [p_r p_I]. unfold synth. rewrite Ly. apply ls_min; auto. congruence.
    Qed.
  End L.
End PS.

(** *** whole runs *)
Section Runs.
  Variables (m : nat) (D : dictionary) (K : nat) (y : vec).
  Hypothesis V : valid_dict m D.
  Hypothesis Ly : length y = m.
  Variables (cond : ps -> bool) (body : ps -> option ps) (s0 : ps) (max_iters : nat).
  Hypothesis I0 : consistent m D y K s0.
  Hypothesis It0 : p_it s0 = 1%nat.
  Hypothesis Hc : forall s, cond s = true -> (p_it s < max_iters)%nat.
  Hypothesis Hb : forall s s', consistent m D y K s -> body s = Some s' -> consistent m D y K s' /\ p_it s' = S (p_it s).
  Lemma run_reach k s : reaches cond body s0 k s -> consistent m D y K s /\ p_it s = S k /\ (S k <= Nat.max 1 max_iters)%nat.
  Proof.
    induction 1 as [|k s s' H (IH1 & IH2 & IH3) C B]; [repeat split; auto; try apply I0; lia|].
    destruct (Hb IH1 B) as [B1 B2]. apply Hc in C. repeat split; try apply B1; lia.
  Qed.
  Lemma run_done fuel s : while_ cond body fuel s0 = Done s ->
    consistent m D y K s /\ (1 <= p_it s <= Nat.max 1 max_iters)%nat /\ cond s = false.
  Proof. intros H. apply while_done in H as (k & _ & H & C). destruct (run_reach H) as (R1 & R2 & R3). repeat split; try apply R1; try lia; auto. Qed.
  Lemma run_total fuel : (forall s, consistent m D y K s -> body s <> None) -> (max_iters <= fuel)%nat -> exists s, while_ cond body fuel s0 = Done s.
  Proof.
    intros HN HF. apply while_total.
    - intros k s H C. apply HN. now apply (run_reach H).
    - intros k s H C. apply Hc in C. destruct (run_reach H) as (_ & R2 & _). lia.
  Qed.
End Runs.
