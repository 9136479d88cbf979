From Coq Require Import List Arith Bool Lia Reals Lra Permutation.
From Verif Require Import Scalar Vec RVec RMat Loop LoopLemmas OptSpec OptModel OptProofs OptProofs2 SortedL1Model SortedL1Proofs CGModel SlsModel SlsProofs SelModel SelSpec SelProofs DictModel DictSpec DictProofs SolverSpec SolverLemmas CGProofs PursuitModel PursuitSpec PursuitProofs PursuitProofs2 PursuitProofs3 PursuitProofs4 PursuitProofs5 LsqrMinNorm.
Import ListNotations.
Set Implicit Arguments.
Local Open Scope R_scope.

(** *** OMP *)
Lemma chol_shape L : chol_wf L -> forall i, (i < length L)%nat ->
  (forall j, (i < j < length L)%nat -> (nth i (chol_mat L) [])@j = 0) /\ 0 < (nth i (chol_mat L) [])@i.
Proof.
  induction L as [|[w s] L IH]; [simpl; lia|]. intros (Lw & Hs & W) i Hi. cbn [chol_mat length] in *.
  destruct (Nat.eq_dec i (length L)) as [->|].
  - rewrite app_nth2 by (rewrite map_length, chol_len; lia). rewrite map_length, chol_len, Nat.sub_diag. cbn [nth]. split; [lia|].
    rewrite app_nth2 by lia. rewrite Lw, Nat.sub_diag. exact Hs.
  - rewrite app_nth1 by (rewrite map_length, chol_len; lia).
    rewrite (nth_indep _ [] ([] ++ [0])) by (rewrite map_length, chol_len; lia). rewrite (map_nth (fun r => r ++ [0])).
    destruct (IH W i) as [I1 I2]; [lia|].
    assert (Lr : length (nth i (chol_mat L) []) = length L) by (apply chol_rows; auto; apply nth_In; rewrite chol_len; lia). unfold vec in *.
    split.
    + intros j Hj. destruct (Nat.eq_dec j (length L)) as [->|]; [rewrite app_nth2 by (rewrite Lr; lia); rewrite Lr, Nat.sub_diag; reflexivity|].
      rewrite app_nth1 by (rewrite Lr; lia). apply I1. lia.
    + rewrite app_nth1 by (rewrite Lr; lia). exact I2.
Qed.
Lemma ok_correct m D y s : omp_ok m D y s -> omp_correct m D y s /\ omp_factor D s.
Proof.
  intros H. split.
  - destruct H. unfold omp_correct. repeat split; auto.
  - destruct (ok_gram H) as (L1 & W & G). unfold omp_factor. rewrite chol_len. split; [exact L1|].
    split; [intros r Hr; rewrite <- L1; now apply chol_rows|]. split; [intros i j Hij; apply (chol_shape _ W); lia|].
    split; [intros i Hi; apply (chol_shape _ W); lia|exact G].
Qed.
Lemma combine_on_scale m D c J x : (forall i, In i J -> length (d_atom D i) = m) -> combine_on m D J (rscale c x) = rscale c (combine_on m D J x).
Proof. intros H. apply lc_scale. intros v Hv. apply in_map_iff in Hv as (i & <- & Hi). auto. Qed.
Section O.
  Variables (m : nat) (D : dictionary) (y : vec).
  Hypothesis U : unit_dict m D.
  Hypothesis Hn : (0 < d_n D)%nat.
  Hypothesis Ly : length y = m.
  Let V := proj1 U.
  Lemma omp_steps_all k s : omp_steps D y k = Some s ->
    omp_correct m D y s /\ omp_factor D s /\ om_rn s = nrm2 (om_r s) /\ length (om_I s) = S k /\
    forall z, length z = length (om_I s) -> nrm2 (om_r s) <= nrm2 (rsub y (combine_on m D (om_I s) z)).
  Proof.
    intros E. destruct (omp_steps_ok V (proj2 U) Hn _ Ly _ E) as (H1 & H2 & H3). destruct (ok_correct H1) as [C1 C2].
    split; auto. split; auto. split; auto. split; [rewrite <- (ok_it H1); auto|]. intros z Lz. now apply (omp_min V Hn Ly).
  Qed.
  Lemma omp_matrix_all K s : omp_matrix D y K = Some s ->
    omp_correct m D y s /\ omp_factor D s /\ om_rn s = nrm2 (om_r s) /\ length (om_I s) = K /\
    forall z, length z = length (om_I s) -> nrm2 (om_r s) <= nrm2 (rsub y (combine_on m D (om_I s) z)).
  Proof.
    unfold omp_matrix. destruct (Nat.leb_spec K 1); [discriminate|]. intros E.
    destruct (omp_steps_all _ E) as (H1 & H2 & H3 & H4 & H5). repeat split; try apply H1; try apply H2; auto. lia.
  Qed.
  Lemma omp_steps_energy k s s' : omp_steps D y k = Some s -> omp_steps D y (S k) = Some s' ->
    exists i, ~ In i (om_I s) /\ om_I s' = om_I s ++ [i] /\
      (forall j, (j < d_n D)%nat -> Rabs (rdot (d_atom D j) (om_r s)) <= Rabs (rdot (d_atom D i) (om_r s))) /\
      nrm2 (om_r s') <= nrm2 (om_r s) - rdot (d_atom D i) (om_r s) * rdot (d_atom D i) (om_r s).
  Proof.
    intros E E'. cbn [omp_steps] in E'. rewrite E in E'. destruct (omp_steps_ok V (proj2 U) Hn _ Ly _ E) as (H1 & H2 & H3).
    destruct (omp_step_ok V (proj2 U) Hn Ly H1 E') as (G1 & G2 & G3 & G4). eexists. split; [|split; [exact G3|split; [|exact G4]]].
    - intros C. pose proof (ok_nodup G1) as N. rewrite G3 in N.
      apply (Permutation_NoDup (Permutation_sym (Permutation_cons_append _ _))) in N. now inversion N.
    - intros j Hj. apply (best_max _ V Ly Hn); auto. now apply (ok_rlen V Hn Ly H1).
  Qed.
  Lemma omp_steps_stuck k s : omp_steps D y k = Some s -> omp_steps D y (S k) = None ->
    forall i, (i < d_n D)%nat -> rdot (d_atom D i) (om_r s) = 0.
  Proof.
    intros E E'. cbn [omp_steps] in E'. rewrite E in E'. destruct (omp_steps_ok V (proj2 U) Hn _ Ly _ E) as (H1 & _).
    now apply (omp_stuck V (proj2 U) Hn Ly H1).
  Qed.
End O.
Section OOp.
  Variables (m : nat) (D : dictionary) (y : vec) (K : nat) (rtol : R).
  Hypothesis U : unit_dict m D.
  Hypothesis Hn : (0 < d_n D)%nat.
  Hypothesis Ly : length y = m.
  Let V := proj1 U.
  Lemma omp_loop_inv yn k s : length yn = m -> reaches (omp_op_cond K rtol) (omp_step D yn) (omp_op_init D yn) k s ->
    omp_ok m D yn s /\ om_it s = S k /\ (S k <= Nat.max 1 K)%nat /\ (om_it s = 1%nat /\ om_rn s = nrm2 yn \/ om_rn s = nrm2 (om_r s)).
  Proof.
    intros Lyn. induction 1 as [|k s s' H (I1 & I2 & I3 & I4) C B].
    - destruct (omp_first_ok V (proj2 U) Hn _ Lyn) as (F1 & _). split; [destruct F1; constructor; auto|]. split; [reflexivity|]. split; [lia|now left].
    - destruct (omp_step_ok V (proj2 U) Hn Lyn I1 B) as (G1 & G2 & G3 & _). split; auto.
      assert (om_it s' = S (S k)) by (rewrite (ok_it G1), G3, app_length, <- (ok_it I1), I2; simpl; lia).
      split; auto. split; [|now right]. unfold omp_op_cond in C. apply andb_true_iff in C as [_ C]. apply Nat.ltb_lt in C. lia.
  Qed.
  Lemma scale_back yn : normalize y = Some yn -> rscale (nrm y) yn = y /\ length yn = m /\ 0 < nrm y /\ nrm2 yn = 1.
  Proof.
    intros E. apply normalize_some in E as (N1 & N2 & N3 & N4). split; [|split; [congruence|split; [|exact N1]]].
    - rewrite N2. apply vec_eq; rewrite !rscale_len; auto. intros i Hi. rewrite !rscale_nth. field. exact N3.
    - pose proof (nrm_pos y). lra.
  Qed.
  Lemma omp_operator_all fuel s : omp_operator D y K rtol fuel = Done s ->
    omp_correct m D y s /\ omp_factor D s /\ (1 <= om_it s <= Nat.max 1 K)%nat /\
    ((2 <= om_it s)%nat -> om_rn s = nrm2 (om_r s)) /\
    (forall z, length z = length (om_I s) -> nrm2 (om_r s) <= nrm2 (rsub y (combine_on m D (om_I s) z))) /\
    (om_it s = Nat.max 1 K \/ om_rn s <= rtol ^ 2 * nrm2 y).
  Proof.
    unfold omp_operator. destruct (normalize y) as [yn|] eqn:En; [|discriminate].
    destruct (scale_back En) as (S1 & S2 & S3 & S4).
    destruct (while_ _ _ _ _) as [s1| |] eqn:Ew; try discriminate. intros [= <-].
    apply while_done in Ew as (k & _ & H & C). destruct (omp_loop_inv S2 H) as (I1 & I2 & I3 & I4).
    destruct (ok_correct I1) as ((C1 & C2 & C3 & C4 & C5 & C6) & C7).
    pose proof (synth_len V _ (om_x s1) C2) as Ls.
    assert (Er : rscale (nrm y) (om_r s1) = rsub y (combine_on m D (om_I s1) (rscale (nrm y) (om_x s1)))).
    { rewrite combine_on_scale by (intros; apply V; auto). rewrite <- S1 at 2. rewrite C4. apply vec_eq.
      - rewrite rsub_len, !rscale_len, rsub_len. lia.
      - rewrite rscale_len, rsub_len. intros i Hi. rewrite rscale_nth, !rsub_nth, !rscale_nth by (rewrite ?rscale_len; lia). ring. }
    cbn [om_x om_I om_r om_L om_rn om_it].
    split; [|split; [exact C7|split; [lia|split; [|split]]]].
    - unfold omp_correct. cbn [om_x om_I om_r om_L om_rn om_it]. repeat split; auto.
      + now rewrite rscale_len.
      + intros i Hi. rewrite rdot_scale_r, C5 by auto. ring.
    - intros H2. destruct I4 as [[I4 _]|I4]; [lia|]. unfold nrm2 in *. rewrite I4, rdot_scale_l, rdot_scale_r. ring.
    - intros z Lz.
      pose proof (omp_min V Hn S2 (rscale (/ nrm y) z) I1) as Q. rewrite rscale_len in Q. specialize (Q Lz).
      rewrite combine_on_scale in * by (intros; apply V; auto).
      pose proof (synth_len V _ z C2) as Lz2.
      assert (E : rsub y (combine_on m D (om_I s1) z) = rscale (nrm y) (rsub yn (rscale (/ nrm y) (combine_on m D (om_I s1) z)))).
      { rewrite <- S1 at 1. apply vec_eq; [rewrite rsub_len, !rscale_len, rsub_len, rscale_len; lia|].
        rewrite rsub_len, !rscale_len. intros i Hi. rewrite rsub_nth, !rscale_nth, rsub_nth, !rscale_nth by (rewrite ?rscale_len; lia). field. lra. }
      rewrite E. unfold nrm2 in *. rewrite !rdot_scale_l, !rdot_scale_r.
      apply Rmult_le_compat_l; [lra|]. apply Rmult_le_compat_l; [lra|exact Q].
    - unfold omp_op_cond in C. apply andb_false_iff in C as [C|C].
      + right. destruct (Rltb_spec (rtol ^ 2) (om_rn s1)); [discriminate|]. rewrite nrm_sq. unfold nrm2.
        apply Rmult_le_compat_r; [apply rdot_pos|lra].
      + left. apply Nat.ltb_ge in C. lia.
  Qed.
  Lemma omp_operator_fails fuel : (K <= fuel)%nat -> omp_operator D y K rtol fuel = Fail ->
    y = rzero m \/ exists T x, NoDup T /\ (forall i, In i T -> (i < d_n D)%nat) /\ (length T < K)%nat /\ length x = length T /\
      forall i, (i < d_n D)%nat -> rdot (d_atom D i) (rsub y (combine_on m D T x)) = 0.
  Proof.
    intros HF. unfold omp_operator. destruct (normalize y) as [yn|] eqn:En.
    2:{ intros _. left. apply normalize_none in En. pose proof (nrm_sq y) as Q. rewrite En in Q.
        rewrite <- Ly. apply rdot_eq0. lra. }
    destruct (scale_back En) as (S1 & S2 & S3 & S4).
    destruct (while_ _ _ _ _) as [s1| |] eqn:Ew; try discriminate. intros _. right.
    apply (while_fail _ (reach_0 _ _ _)) in Ew as (j & s & H & C & B). destruct (omp_loop_inv S2 H) as (I1 & I2 & I3 & I4).
    pose proof (omp_stuck V (proj2 U) Hn S2 I1 B) as St. destruct (ok_correct I1) as ((C1 & C2 & C3 & C4 & C5 & C6) & C7).
    exists (om_I s), (rscale (nrm y) (om_x s)). split; auto. split; auto.
    split; [unfold omp_op_cond in C; apply andb_true_iff in C as [_ C]; apply Nat.ltb_lt in C; lia|]. split; [now rewrite rscale_len|].
    intros i Hi. pose proof (synth_len V _ (om_x s) C2) as Ls.
    assert (Er : rsub y (combine_on m D (om_I s) (rscale (nrm y) (om_x s))) = rscale (nrm y) (om_r s)).
    { rewrite combine_on_scale by (intros; apply V; auto). rewrite <- S1 at 1. rewrite C4. apply vec_eq.
      - rewrite rsub_len, !rscale_len, rsub_len. lia.
      - rewrite rsub_len, !rscale_len. intros j0 Hj. rewrite rscale_nth, !rsub_nth, !rscale_nth by (rewrite ?rscale_len; lia). ring. }
    rewrite Er, rdot_scale_r, St by auto. ring.
  Qed.
  Lemma omp_operator_fuel fuel : (K <= fuel)%nat -> omp_operator D y K rtol fuel <> Fuel.
  Proof.
    intros HF. unfold omp_operator. destruct (normalize y) as [yn|] eqn:En; [|discriminate].
    destruct (scale_back En) as (S1 & S2 & S3 & S4).
    destruct (while_ _ _ _ _) as [s1| |] eqn:Ew; try discriminate. intros _.
    apply (while_fuel _ (reach_0 _ _ _)) in Ew as (s & H & C). destruct (omp_loop_inv S2 H) as (I1 & I2 & I3 & I4).
    unfold omp_op_cond in C. apply andb_true_iff in C as [_ C]. apply Nat.ltb_lt in C. simpl in *. lia.
  Qed.
End OOp.
