From Coq Require Import List Arith Bool Lia Reals Lra Permutation.
From Verif Require Import Scalar Vec RVec RMat Loop LoopLemmas OptSpec OptModel OptProofs OptProofs2 SortedL1Model SortedL1Proofs CGModel SlsModel SlsProofs SelModel SelSpec SelProofs DictModel DictSpec DictProofs SolverSpec SolverLemmas CGProofs PursuitModel PursuitSpec PursuitProofs PursuitProofs2 PursuitProofs3 PursuitProofs4 PursuitProofs5 PursuitLemmas.
Import ListNotations.
Set Implicit Arguments.
Local Open Scope R_scope.

(** *** OMP recovery *)
Section Rec.
  Variables (m : nat) (D : dictionary) (mu : R) (K : nat) (T : list nat) (xs : vec).
  Hypothesis U : unit_dict m D.
  Hypothesis Hmu : coherence_at_most D mu.
  Hypothesis Mu0 : 0 <= mu.
  Hypothesis Cond : (2 * INR K - 1) * mu < 1.
  Hypothesis Lx : length xs = d_n D.
  Hypothesis HT : support T xs.
  Hypothesis LT : length T = K.
  Hypothesis K1 : (1 <= K)%nat.
  Let V := proj1 U.
  Let NT := proj1 HT.
  Lemma BT_ : forall i, In i T -> (i < d_n D)%nat. Proof. intros i Hi. rewrite <- Lx. now apply HT. Qed.
  Lemma Sx_ c : c <> 0 -> forall i, (i < d_n D)%nat -> (In i T <-> (rscale c xs)@i <> 0).
  Proof.
    intros Hc i Hi. rewrite rscale_nth. pose proof HT as (_ & _ & H). rewrite H by (now rewrite Lx). split; intros N E; apply N.
    - apply Rmult_integral in E as [E|E]; [contradiction|auto].
    - rewrite E. ring.
  Qed.
  Lemma Sx1 i : (i < d_n D)%nat -> (In i T <-> xs@i <> 0).
  Proof. intros Hi. apply HT. now rewrite Lx. Qed.
  Lemma T_ne : exists t, In t T.
  Proof. clear - LT K1. destruct T as [|t T']; [simpl in LT; lia|]. exists t. now left. Qed.
  Lemma omp_matrix_recovers : (2 <= K)%nat -> exists s, omp_matrix D (combine_atoms m D xs) K = Some s /\ Permutation (om_I s) T /\
    scatter (d_n D) (om_I s) (om_x s) = xs /\ om_r s = rzero m.
  Proof. intros K2. apply (@rec_matrix m D V (proj2 U) mu Hmu Mu0 K T NT BT_ LT K1 Cond xs Lx Sx1 K2). Qed.
  Lemma scatter_scale n c J x : length x = length J -> scatter n J (rscale c x) = rscale c (scatter n J x).
  Proof.
    intros L. apply vec_eq; [now rewrite rscale_len, !scatter_len|]. rewrite scatter_len. intros i Hi. rewrite rscale_nth.
    unfold scatter. rewrite !nth_tab by auto.
    revert x L. induction J as [|j J IH]; intros [|a x] L; try discriminate; cbn [rscale map scatter_get]; [ring|].
    destruct (j =? i)%nat; auto. apply IH. simpl in L. lia.
  Qed.
  Lemma omp_operator_recovers fuel : (K <= fuel)%nat -> exists s, omp_operator D (combine_atoms m D xs) K 0 fuel = Done s /\ Permutation (om_I s) T /\
    scatter (d_n D) (om_I s) (om_x s) = xs /\ om_r s = rzero m.
  Proof.
    intros HF. assert (Hn : (0 < d_n D)%nat) by (destruct T_ne as [t Ht]; apply BT_ in Ht; lia).
    set (y := combine_atoms m D xs). assert (Ly : length y = m) by apply (combine_len V).
    assert (Ny : nrm y <> 0).
    { intros E. assert (Z : y = rzero m). { rewrite <- Ly. apply rdot_eq0. pose proof (nrm_sq y) as Q. rewrite E in Q. lra. }
      assert (X0 : exists j, xs@j <> 0). { destruct T_ne as [t Ht]. exists t. apply Sx1; [apply BT_|]; auto. }
      destruct (@select m D V (proj2 U) mu Hmu Mu0 K T NT BT_ LT K1 Cond xs Lx) as (_ & _ & S3); auto.
      - intros j Hj. destruct (Nat.lt_ge_cases j (d_n D)) as [L|L]; [|apply nth_overflow; lia].
        destruct (Req_dec (xs@j) 0) as [|N]; auto. apply Sx1 in N; auto. contradiction.
      - apply S3. fold y. rewrite Z. apply rdot_zero_r. }
    unfold omp_operator. destruct (normalize y) as [yn|] eqn:En; [|apply normalize_none in En; contradiction].
    destruct (scale_back _ Ly En) as (S1 & S2 & S3 & S4).
    set (xn := rscale (/ nrm y) xs). assert (Lxn : length xn = d_n D) by (unfold xn; now rewrite rscale_len).
    assert (Eyn : yn = combine_atoms m D xn).
    { unfold xn. rewrite (combine_scale V). fold y. now apply normalize_some in En. }
    assert (Sxn := @Sx_ (/ nrm y) ltac:(apply Rinv_neq_0_compat; auto)). fold xn in Sxn.
    destruct (@rec_loop m D V (proj2 U) mu Hmu Mu0 K T NT BT_ LT K1 Cond xn Lxn Sxn 0 fuel HF) as (s & E & H & HI & C & Rn).
    rewrite <- Eyn in E, H. rewrite E. eexists. split; [reflexivity|]. cbn [om_I om_x om_r].
    assert (HL : length (om_I s) = K).
    { unfold omp_op_cond in C. apply andb_false_iff in C as [C|C].
      - destruct (Rltb_spec (0 ^ 2) (om_rn s)) as [|Hle]; [discriminate|]. destruct Rn as [R1|R1].
        + (* first state: the reported energy is that of yn *)
          pose proof E as Hd. apply while_done in Hd as (k & _ & Hr & _). destruct (omp_loop_inv y U Hn Ly S2 Hr) as (_ & _ & _ & [[_ I4]|I4]).
          * rewrite I4, S4 in Hle. simpl in Hle. lra.
          * assert (Z : om_r s = rzero m).
            { rewrite <- (ok_rlen V Hn S2 H). apply rdot_eq0. pose proof (rdot_pos (om_r s)). unfold nrm2 in I4. simpl in Hle. lra. }
            rewrite Eyn in H. apply (@rec_early m D V (proj2 U) mu Hmu Mu0 K T NT BT_ LT K1 Cond xn Lxn Sxn s H HI Z).
        + assert (Z : om_r s = rzero m).
          { rewrite <- (ok_rlen V Hn S2 H). apply rdot_eq0. pose proof (rdot_pos (om_r s)). unfold nrm2 in R1. simpl in Hle. lra. }
          rewrite Eyn in H. apply (@rec_early m D V (proj2 U) mu Hmu Mu0 K T NT BT_ LT K1 Cond xn Lxn Sxn s H HI Z).
      - apply Nat.ltb_ge in C. pose proof (NoDup_incl_length (ok_nodup H) HI). rewrite (ok_it H) in C. lia. }
    pose proof H as H'. rewrite Eyn in H'.
    destruct (@rec_final m D V (proj2 U) mu Hmu Mu0 K T NT BT_ LT K1 Cond xn Lxn Sxn s H' HI HL) as (P1 & P2 & P3).
    split; auto. split.
    - rewrite scatter_scale by apply (ok_xlen H). rewrite P2. unfold xn. apply vec_eq; rewrite !rscale_len; auto. intros i Hi.
      rewrite !rscale_nth. field. auto.
    - rewrite P3. apply vec_eq; rewrite ?rscale_len, !rzero_len; auto. intros i Hi. rewrite rscale_nth, !rzero_nth. ring.
  Qed.
End Rec.

(** *** whole runs with an arbitrary invariant *)
Section Runs2.
  Variables (P : ps -> Prop) (cond : ps -> bool) (body : ps -> option ps) (s0 : ps) (max_iters : nat).
  Hypothesis I0 : P s0.
  Hypothesis It0 : p_it s0 = 1%nat.
  Hypothesis Hc : forall s, cond s = true -> (p_it s < max_iters)%nat.
  Hypothesis Hb : forall s s', P s -> body s = Some s' -> P s' /\ p_it s' = S (p_it s).
  Lemma runp_reach k s : reaches cond body s0 k s -> P s /\ p_it s = S k /\ (S k <= Nat.max 1 max_iters)%nat.
  Proof.
    induction 1 as [|k s s' H (IH1 & IH2 & IH3) C B]; [repeat split; auto; lia|].
    destruct (Hb IH1 B) as [B1 B2]. apply Hc in C. repeat split; auto; lia.
  Qed.
  Lemma runp_done fuel s : while_ cond body fuel s0 = Done s -> P s /\ (1 <= p_it s <= Nat.max 1 max_iters)%nat /\ cond s = false.
  Proof. intros H. apply while_done in H as (k & _ & H & C). destruct (runp_reach H) as (R1 & R2 & R3). repeat split; auto; lia. Qed.
  Lemma runp_total fuel : (forall s, P s -> body s <> None) -> (max_iters <= fuel)%nat -> exists s, while_ cond body fuel s0 = Done s.
  Proof.
    intros HN HF. apply while_total.
    - intros k s H C. apply HN. now apply (runp_reach H).
    - intros k s H C. apply Hc in C. destruct (runp_reach H) as (_ & R2 & _). lia.
  Qed.
End Runs2.
Lemma ps_cond_it M mx s : ps_cond M mx s = true -> (p_it s < mx)%nat.
Proof. unfold ps_cond. intros H. apply andb_true_iff in H as [_ H]. now apply Nat.ltb_lt in H. Qed.
Lemma ps_cond_false M mx s : ps_cond M mx s = false -> p_rn s <= M \/ (mx <= p_it s)%nat.
Proof.
  unfold ps_cond. intros H. apply andb_false_iff in H as [H|H]; [left|right; now apply Nat.ltb_ge in H].
  destruct (Rltb_spec M (p_rn s)); [discriminate|lra].
Qed.
Lemma neqb_list_eq u v : neqb_list u v = true <-> u = v.
Proof.
  revert v. induction u as [|a u IH]; intros [|b v]; simpl; try easy. rewrite andb_true_iff, Nat.eqb_eq, IH. split; [intros [-> ->]; auto|intros [= -> ->]; auto].
Qed.
Lemma pss_cond_it M mx mi s : ps_cond_support M mx mi s = true -> (p_it s < mx)%nat.
Proof. unfold ps_cond_support. intros H. apply andb_true_iff in H as [H _]. now apply ps_cond_it in H. Qed.
Lemma pss_cond_false M mx mi s : ps_cond_support M mx mi s = false -> p_rn s <= M \/ (mx <= p_it s)%nat \/ (mi <= p_it s)%nat /\ p_I s = p_Iprev s.
Proof.
  unfold ps_cond_support. intros H. apply andb_false_iff in H as [H|H]; [apply ps_cond_false in H; tauto|].
  apply orb_false_iff in H as [H1 H2]. apply Nat.ltb_ge in H1. apply negb_false_iff, neqb_list_eq in H2. tauto.
Qed.
Section PSRuns.
  Variables (m : nat) (D : dictionary) (y : vec) (K : nat).
  Hypothesis V : valid_dict m D.
  Hypothesis Ly : length y = m.
  Hypothesis HK : (K <= d_n D)%nat.
  Variables (max_iters : nat) (rtol : R) (fuel : nat).
  Section Lst.
  Variable lstsq : list vec -> vec -> vec.
  Hypothesis HLS : least_squares_solver lstsq.
  Lemma cosamp_matrix_run s : cosamp_matrix lstsq D y K max_iters rtol fuel = Done s ->
    consistent m D y K s /\ (1 <= p_it s <= Nat.max 1 max_iters)%nat /\ (p_rn s <= rtol ^ 2 * nrm2 y \/ (max_iters <= p_it s)%nat).
  Proof.
    intros H. eapply (@runp_done (consistent m D y K)) in H; [|now apply cosamp_init_ok|reflexivity|intros; eapply ps_cond_it; eauto|].
    - destruct H as (H1 & H2 & H3). split; auto. split; auto. apply ps_cond_false in H3. unfold nrm2. rewrite Rmult_comm. exact H3.
    - intros s1 s2 I1 B. destruct (cosamp_body_ok V Ly HK HLS I1 B) as (B1 & B2 & _). auto.
  Qed.
  Lemma cosamp_matrix_total : (max_iters <= fuel)%nat -> exists s, cosamp_matrix lstsq D y K max_iters rtol fuel = Done s.
  Proof.
    intros HF. eapply (@runp_total (consistent m D y K)); [now apply cosamp_init_ok|reflexivity|intros; eapply ps_cond_it; eauto| |discriminate|exact HF].
    intros s1 s2 I1 B. destruct (cosamp_body_ok V Ly HK HLS I1 B) as (B1 & B2 & _). auto.
  Qed.
  Lemma sp_matrix_run s : sp_matrix lstsq D y K max_iters rtol fuel = Done s ->
    consistent m D y K s /\ (forall z, length z = K -> nrm2 (p_r s) <= nrm2 (rsub y (combine_on m D (p_I s) z))) /\
    (1 <= p_it s <= Nat.max 1 max_iters)%nat /\ (p_rn s <= rtol ^ 2 * nrm2 y \/ (max_iters <= p_it s)%nat).
  Proof.
    intros H. eapply (@runp_done (fun s => consistent m D y K s /\ (forall z, length z = K -> nrm2 (p_r s) <= nrm2 (rsub y (combine_on m D (p_I s) z))))) in H;
      [|now apply sp_init_ok|reflexivity|intros; eapply ps_cond_it; eauto|].
    - destruct H as ((H0 & H1) & H2 & H3). split; auto. split; auto. split; auto. apply ps_cond_false in H3. unfold nrm2. rewrite Rmult_comm. exact H3.
    - intros s1 s2 [I1 _] B. destruct (sp_body_ok V Ly HK HLS I1 B) as (B1 & B2 & _ & B3). auto.
  Qed.
  Lemma sp_matrix_total : (max_iters <= fuel)%nat -> exists s, sp_matrix lstsq D y K max_iters rtol fuel = Done s.
  Proof.
    intros HF. eapply (@runp_total (consistent m D y K)); [now apply sp_init_ok|reflexivity|intros; eapply ps_cond_it; eauto| |discriminate|exact HF].
    intros s1 s2 I1 B. destruct (sp_body_ok V Ly HK HLS I1 B) as (B1 & B2 & _). auto.
  Qed.
  Lemma htp_run step s : htp lstsq D y K step max_iters rtol fuel = Done s ->
    consistent m D y K s /\ NoDup (p_I s) /\
    ((1 < p_it s)%nat -> forall z, length z = K -> nrm2 (p_r s) <= nrm2 (rsub y (combine_on m D (p_I s) z))) /\
    (1 <= p_it s <= Nat.max 1 max_iters)%nat /\
    (p_rn s <= rtol ^ 2 * nrm2 y \/ (max_iters <= p_it s)%nat \/ (min_iters K <= p_it s)%nat /\ p_I s = p_Iprev s).
  Proof.
    unfold htp. destruct (iht_init D y K step) as [s0|] eqn:E0; [|discriminate]. intros H.
    destruct (iht_init_ok y V Ly HK _ E0) as (J1 & J2 & J3).
    eapply (@runp_done (fun s => (consistent m D y K s /\ NoDup (p_I s)) /\ ((1 < p_it s)%nat -> forall z, length z = K -> nrm2 (p_r s) <= nrm2 (rsub y (combine_on m D (p_I s) z))))) in H;
      [|split; [auto|lia]|exact J3|intros; eapply pss_cond_it; eauto|].
    - destruct H as (((H0 & H0') & H1) & H2 & H3). repeat (split; auto); try apply H0; try apply H2. apply pss_cond_false in H3. unfold nrm2. rewrite Rmult_comm. exact H3.
    - intros s1 s2 [[I1 _] _] B. destruct (htp_body_ok V Ly HK HLS _ I1 B) as (B1 & B2 & B3 & _ & B4). auto.
  Qed.
  Lemma htp_total mu : (max_iters <= fuel)%nat -> exists s, htp lstsq D y K (Some mu) max_iters rtol fuel = Done s.
  Proof.
    intros HF. unfold htp. destruct (iht_init D y K (Some mu)) as [s0|] eqn:E0; [|discriminate].
    destruct (iht_init_ok y V Ly HK _ E0) as (J1 & J2 & J3).
    eapply (@runp_total (consistent m D y K)); [exact J1|exact J3|intros; eapply pss_cond_it; eauto| |discriminate|exact HF].
    intros s1 s2 I1 B. destruct (htp_body_ok V Ly HK HLS _ I1 B) as (B1 & B2 & B3 & _). auto.
  Qed.
  End Lst.
  Lemma iht_run step s : iht D y K step max_iters rtol fuel = Done s ->
    consistent m D y K s /\ NoDup (p_I s) /\ (1 <= p_it s <= Nat.max 1 max_iters)%nat /\
    (p_rn s <= rtol ^ 2 * nrm2 y \/ (max_iters <= p_it s)%nat).
  Proof.
    unfold iht. destruct (iht_init D y K step) as [s0|] eqn:E0; [|discriminate]. intros H.
    destruct (iht_init_ok y V Ly HK _ E0) as (J1 & J2 & J3).
    eapply (@runp_done (fun s => consistent m D y K s /\ NoDup (p_I s))) in H; [|auto|exact J3|intros; eapply ps_cond_it; eauto|].
    - destruct H as ((H0 & H1) & H2 & H3). repeat (split; auto); try apply H2; try apply H0. apply ps_cond_false in H3. unfold nrm2. rewrite Rmult_comm. exact H3.
    - intros s1 s2 [I1 _] B. destruct (iht_body_ok V Ly HK _ I1 B) as (B1 & B2 & B3 & _). auto.
  Qed.
  Lemma iht_total mu : (max_iters <= fuel)%nat -> exists s, iht D y K (Some mu) max_iters rtol fuel = Done s.
  Proof.
    intros HF. unfold iht. destruct (iht_init D y K (Some mu)) as [s0|] eqn:E0; [|discriminate].
    destruct (iht_init_ok y V Ly HK _ E0) as (J1 & J2 & J3).
    eapply (@runp_total (consistent m D y K)); [exact J1|exact J3|intros; eapply ps_cond_it; eauto| |discriminate|exact HF].
    intros s1 s2 I1 B. destruct (iht_body_ok V Ly HK _ I1 B) as (B1 & B2 & B3 & _). auto.
  Qed.
  (** the rescaled variants *)
  Lemma scale_consistent yn s : normalize y = Some yn -> consistent m D yn K s -> consistent m D y K (ps_scale (nrm y) s).
  Proof.
    intros En (C1 & C2 & C3 & C4 & C5). destruct (scale_back y Ly En) as (S1 & S2 & S3 & S4).
    pose proof (synth_len V _ (p_x s) C2) as Ls.
    unfold consistent, ps_scale. cbn [p_I p_x p_r p_rn]. repeat split; auto.
    - now rewrite rscale_len.
    - rewrite combine_on_scale by (intros; apply V; auto). rewrite <- S1 at 2. rewrite C4. apply vec_eq.
      + rewrite rsub_len, !rscale_len, rsub_len. lia.
      + rewrite rscale_len, rsub_len. intros i Hi. rewrite rscale_nth, !rsub_nth, !rscale_nth by (rewrite ?rscale_len; lia). ring.
    - rewrite C5. unfold nrm2. rewrite rdot_scale_l, rdot_scale_r. ring.
  Qed.
End PSRuns.
Section OpRuns.
  Variables (m : nat) (D : dictionary) (y : vec) (K : nat).
  Hypothesis V : valid_dict m D.
  Hypothesis Ly : length y = m.
  Hypothesis HK : (K <= d_n D)%nat.
  Variables (max_iters : nat) (rtol : R) (fuel : nat).
  Variable lstsq : list vec -> vec -> vec.
  Hypothesis HLS : least_squares_solver lstsq.
  Notation fin s := (p_rn (s) <= rtol ^ 2 * nrm2 y \/ (max_iters <= p_it s)%nat \/ (min_iters K <= p_it s)%nat /\ p_I s = p_Iprev s).
  Lemma fin_scale s : 0 < nrm y -> (p_rn s <= rtol ^ 2 \/ (max_iters <= p_it s)%nat \/ (min_iters K <= p_it s)%nat /\ p_I s = p_Iprev s) ->
    fin (ps_scale (nrm y) s).
  Proof.
    intros Hy [H|H]; [left|right; exact H]. cbn [ps_scale p_rn]. rewrite nrm_sq. unfold nrm2. apply Rmult_le_compat_r; [apply rdot_pos|exact H].
  Qed.
  Lemma cosamp_operator_run s : cosamp_operator lstsq D y K max_iters rtol fuel = Done s ->
    consistent m D y K s /\ (1 <= p_it s <= Nat.max 1 max_iters)%nat /\ fin s.
  Proof.
    unfold cosamp_operator, rescaled. destruct (normalize y) as [yn|] eqn:En; [|discriminate]. destruct (scale_back y Ly En) as (S1 & S2 & S3 & S4).
    destruct (while_ _ _ _ _) as [s1| |] eqn:E; try discriminate. intros [= <-].
    eapply (@runp_done (consistent m D yn K)) in E; [|now apply cosamp_init_ok|reflexivity|intros; eapply pss_cond_it; eauto|].
    - destruct E as (H1 & H2 & H3). split; [eapply scale_consistent; eauto|]. split; [exact H2|]. apply fin_scale; auto. now apply pss_cond_false in H3.
    - intros s2 s3 I1 B. destruct (cosamp_body_ok V S2 HK HLS I1 B) as (B1 & B2 & _). auto.
  Qed.
  Lemma sp_operator_run s : sp_operator lstsq D y K max_iters rtol fuel = Done s ->
    consistent m D y K s /\ (1 <= p_it s <= Nat.max 1 max_iters)%nat /\ fin s.
  Proof.
    unfold sp_operator, rescaled. destruct (normalize y) as [yn|] eqn:En; [|discriminate]. destruct (scale_back y Ly En) as (S1 & S2 & S3 & S4).
    destruct (while_ _ _ _ _) as [s1| |] eqn:E; try discriminate. intros [= <-].
    eapply (@runp_done (consistent m D yn K)) in E; [|now apply sp_init_ok|reflexivity|intros; eapply pss_cond_it; eauto|].
    - destruct E as (H1 & H2 & H3). split; [eapply scale_consistent; eauto|]. split; [exact H2|]. apply fin_scale; auto. now apply pss_cond_false in H3.
    - intros s2 s3 I1 B. destruct (sp_body_ok V S2 HK HLS I1 B) as (B1 & B2 & _). auto.
  Qed.
  Lemma op_total (init : vec -> ps) body : (forall yn, length yn = m -> consistent m D yn K (init yn) /\ p_it (init yn) = 1%nat) ->
    (forall yn s s', length yn = m -> consistent m D yn K s -> body yn s = Some s' -> consistent m D yn K s' /\ p_it s' = S (p_it s)) ->
    (forall yn s, body yn s <> None) -> y <> rzero m -> (max_iters <= fuel)%nat ->
    exists s, rescaled (fun yn => while_ (ps_cond_support (rtol ^ 2) max_iters (min_iters K)) (body yn) fuel (init yn)) y = Done s.
  Proof.
    intros Hi Hb Hbn Hy HF. unfold rescaled. destruct (normalize y) as [yn|] eqn:En.
    - destruct (scale_back y Ly En) as (S1 & S2 & S3 & S4). destruct (Hi yn S2) as [I0 It0].
      destruct (@runp_total (consistent m D yn K) (ps_cond_support (rtol ^ 2) max_iters (min_iters K)) (body yn) (init yn) max_iters I0 It0) with (fuel := fuel) as [s Hs]; eauto.
      + intros s Hs. now apply pss_cond_it in Hs.
      + rewrite Hs. eauto.
    - exfalso. apply Hy. apply normalize_none in En. pose proof (nrm_sq y) as Q. rewrite En in Q. rewrite <- Ly. apply rdot_eq0. lra.
  Qed.
  Lemma cosamp_operator_total : y <> rzero m -> (max_iters <= fuel)%nat -> exists s, cosamp_operator lstsq D y K max_iters rtol fuel = Done s.
  Proof.
    intros Hy HF. apply (@op_total (fun yn => cosamp_init lstsq D yn K) (fun yn => cosamp_body lstsq D yn K)); auto; try discriminate.
    - intros yn Lyn. split; [now apply cosamp_init_ok|reflexivity].
    - intros yn s s' Lyn I1 B. destruct (cosamp_body_ok V Lyn HK HLS I1 B) as (B1 & B2 & _). auto.
  Qed.
  Lemma sp_operator_total : y <> rzero m -> (max_iters <= fuel)%nat -> exists s, sp_operator lstsq D y K max_iters rtol fuel = Done s.
  Proof.
    intros Hy HF. apply (@op_total (fun yn => sp_init lstsq D yn K) (fun yn => sp_body lstsq D yn K)); auto; try discriminate.
    - intros yn Lyn. split; [now apply sp_init_ok|reflexivity].
    - intros yn s s' Lyn I1 B. destruct (sp_body_ok V Lyn HK HLS I1 B) as (B1 & B2 & _). auto.
  Qed.
End OpRuns.
