From Coq Require Import List Arith Bool Lia Reals Lra Permutation.
From Verif Require Import Scalar Vec RVec RMat Loop LoopLemmas OptSpec OptModel OptProofs OptProofs2 SortedL1Model SortedL1Proofs CGModel SlsModel SelModel SelSpec SelProofs DictModel DictSpec DictProofs SolverSpec CGProofs PursuitModel PursuitSpec PursuitProofs PursuitProofs2.
Import ListNotations.
Set Implicit Arguments.
Local Open Scope R_scope.

Lemma supp_missing (T J : list nat) : NoDup T -> (length J < length T)%nat -> exists t, In t T /\ ~ In t J.
Proof.
  intros ND H. destruct (existsb (fun t => negb (mem t J)) T) eqn:E.
  - apply existsb_exists in E as (t & Ht & E). exists t. split; auto. apply negb_true_iff, mem_nIn in E. exact E.
  - exfalso. assert (incl T J).
    { intros t Ht. destruct (mem t J) eqn:M; [now apply mem_In|]. exfalso.
      assert (existsb (fun t => negb (mem t J)) T = true); [|congruence]. apply existsb_exists. exists t. rewrite M. auto. }
    pose proof (NoDup_incl_length ND H0). lia.
Qed.
Lemma omp_stuck m D y s : valid_dict m D -> (forall i, (i < d_n D)%nat -> nrm2 (d_atom D i) = 1) -> (0 < d_n D)%nat -> length y = m ->
  omp_ok m D y s -> omp_step D y s = None -> forall i, (i < d_n D)%nat -> rdot (d_atom D i) (om_r s) = 0.
Proof.
  intros V U Hn Ly H B i Hi.
  assert (E : rdot (d_atom D (abs_max_idx (d_trans D (om_r s)))) (om_r s) = 0).
  { destruct (Req_dec (rdot (d_atom D (abs_max_idx (d_trans D (om_r s)))) (om_r s)) 0) as [|N]; auto.
    exfalso. apply (omp_step_total V U Hn Ly H N B). }
  assert (NE : d_trans D (om_r s) <> []).
  { intros C. apply (f_equal (@length R)) in C. rewrite (trans_len V) in C by (now apply (ok_rlen V Hn Ly H)). simpl in C. lia. }
  destruct (abs_max_spec NE) as [H1 H2]. specialize (H2 i). pose proof (ok_rlen V Hn Ly H) as Lr.
  rewrite !(trans_nth V) in H2 by (auto; now apply (idx_lt V Hn)).
  rewrite E, Rabs_R0 in H2. pose proof (Rabs_pos (rdot (d_atom D i) (om_r s))).
  destruct (Req_dec (rdot (d_atom D i) (om_r s)) 0) as [|N]; auto. apply Rabs_pos_lt in N. lra.
Qed.

Section Recovery.
  Variables (m : nat) (D : dictionary).
  Hypothesis V : valid_dict m D.
  Hypothesis U : forall i, (i < d_n D)%nat -> nrm2 (d_atom D i) = 1.
  Variable mu : R.
  Hypothesis Hmu : forall i j, (i < d_n D)%nat -> (j < d_n D)%nat -> i <> j -> Rabs (rdot (d_atom D i) (d_atom D j)) <= mu.
  Hypothesis Mu0 : 0 <= mu.
  Variables (K : nat) (T : list nat).
  Hypothesis NT : NoDup T.
  Hypothesis BT : forall i, In i T -> (i < d_n D)%nat.
  Hypothesis LT : length T = K.
  Hypothesis K1 : (1 <= K)%nat.
  Hypothesis Cond : (2 * INR K - 1) * mu < 1.
  Let n := d_n D.

  Lemma corr_combine c i : (i < n)%nat -> length c = n ->
    rdot (d_atom D i) (combine_atoms m D c) = rsum n (fun j => c@j * rdot (d_atom D i) (d_atom D j)).
  Proof.
    intros Hi Lc. rewrite rdot_sym, (combine_adj V) by (now apply (atom_len V)).
    rewrite (@rdot_sum n) by (auto; apply (trans_len V), (atom_len V); auto).
    apply rsum_ext. intros j Hj. rewrite (trans_nth V) by (auto; apply (atom_len V); auto). now rewrite (rdot_sym (d_atom D j)).
  Qed.
  Lemma off_diag c i M : (i < n)%nat -> length c = n -> (forall j, ~ In j T -> c@j = 0) -> (forall j, Rabs (c@j) <= M) ->
    Rabs (rdot (d_atom D i) (combine_atoms m D c) - c@i) <= (INR K - (if mem i T then 1 else 0)) * (mu * M).
  Proof.
    intros Hi Lc Sc HM. rewrite corr_combine by auto.
    assert (M0 : 0 <= M) by (pose proof (HM 0%nat); pose proof (Rabs_pos (c@0%nat)); lra).
    assert (P0 : 0 <= mu * M) by (now apply Rmult_le_pos).
    assert (E : c@i = rsum n (fun j => if (j =? i)%nat then c@j else 0)).
    { rewrite (@rsum_single n i); auto; [now rewrite Nat.eqb_refl|]. intros j _ Hj. destruct (Nat.eqb_spec j i); congruence. }
    rewrite E at 1. rewrite <- rsum_sub. eapply Rle_trans; [apply rsum_abs|].
    replace (INR K) with (rsum n (fun j => if mem j T then 1 else 0)) by (rewrite count_indicator by auto; now rewrite LT).
    assert (E2 : (if mem i T then 1 else 0) = rsum n (fun j => if (j =? i)%nat then (if mem j T then 1 else 0) else 0)).
    { rewrite (@rsum_single n i); auto; [now rewrite Nat.eqb_refl|]. intros j _ Hj. destruct (Nat.eqb_spec j i); congruence. }
    rewrite E2, <- rsum_sub, <- rsum_mul_r. apply rsum_le. intros j Hj.
    destruct (Nat.eqb_spec j i) as [->|Hji].
    - specialize (U Hi). unfold nrm2 in U. rewrite U. replace (c@i * 1 - c@i) with 0 by ring. rewrite Rabs_R0. destruct (mem i T); lra.
    - rewrite !Rminus_0_r, Rabs_mult. destruct (mem j T) eqn:EM.
      + rewrite Rmult_1_l, (Rmult_comm mu). apply Rmult_le_compat; try apply Rabs_pos; auto.
      + apply mem_nIn in EM. rewrite (Sc j EM), Rabs_R0. lra.
  Qed.
  Lemma select c : length c = n -> (forall j, ~ In j T -> c@j = 0) -> (exists j, c@j <> 0) ->
    let i := abs_max_idx (d_trans D (combine_atoms m D c)) in
    (i < n)%nat /\ In i T /\ rdot (d_atom D i) (combine_atoms m D c) <> 0.
  Proof.
    intros Lc Sc [j0 Hj0] i.
    assert (Hj0n : (j0 < n)%nat).
    { destruct (Nat.lt_ge_cases j0 n); auto. exfalso. apply Hj0. apply nth_overflow. lia. }
    assert (NC : c <> []) by (intros ->; simpl in Lc; lia).
    destruct (abs_max_spec NC) as [Ht HM]. set (t := abs_max_idx c) in *. rewrite Lc in Ht.
    set (M := Rabs (c@t)) in *. assert (MP : 0 < M) by (specialize (HM j0); pose proof (Rabs_pos_lt _ Hj0); lra).
    assert (tT : In t T).
    { destruct (mem t T) eqn:E; [now apply mem_In|]. apply mem_nIn in E. apply Sc in E. unfold M in MP. rewrite E, Rabs_R0 in MP. lra. }
    pose proof (@off_diag c t M Ht Lc Sc HM) as B. assert (Et : mem t T = true) by (now apply mem_In). rewrite Et in B.
    set (r := combine_atoms m D c) in *. assert (Lr : length r = m) by (apply (combine_len V)).
    assert (Big : (1 - (INR K - 1) * mu) * M <= Rabs (rdot (d_atom D t) r)).
    { pose proof (Rabs_triang_inv (c@t) (rdot (d_atom D t) r)). rewrite (Rabs_minus_sym (c@t)) in H. fold M in H. 
      replace ((1 - (INR K - 1) * mu) * M) with (M - (INR K - 1) * (mu * M)) by ring. lra. }
    assert (NE : d_trans D r <> []).
    { intros C. apply (f_equal (@length R)) in C. rewrite (trans_len V) in C by auto. fold n in C. simpl in C. lia. }
    destruct (abs_max_spec NE) as [Hi Hmax]. fold i in Hi, Hmax. rewrite (trans_len V) in Hi by auto. fold n in Hi.
    specialize (Hmax t). rewrite !(trans_nth V) in Hmax by auto.
    assert (KR : 1 <= INR K) by (apply (le_INR 1); auto).
    assert (Kmu : INR K * mu < 1 - (INR K - 1) * mu) by lra.
    assert (KP : 0 <= INR K * mu) by (apply Rmult_le_pos; lra).
    assert (Gap : INR K * mu * M < (1 - (INR K - 1) * mu) * M) by (apply Rmult_lt_compat_r; auto).
    assert (GP : 0 <= INR K * mu * M) by (apply Rmult_le_pos; lra).
    split; auto. split.
    - destruct (mem i T) eqn:E; [now apply mem_In|]. exfalso. 
      pose proof (@off_diag c i M Hi Lc Sc HM) as B2. rewrite E in B2. apply mem_nIn in E. rewrite (Sc i E), !Rminus_0_r in B2. fold r in B2.
      rewrite <- Rmult_assoc in B2. lra.
    - intros C. rewrite C, Rabs_R0 in Hmax. lra.
  Qed.

  Variable xs : vec.
  Hypothesis Lx : length xs = n.
  Hypothesis Sx : forall i, (i < n)%nat -> (In i T <-> xs@i <> 0).
  Let y := combine_atoms m D xs.
  Lemma n_pos : (0 < n)%nat.
  Proof. destruct T as [|t T'] eqn:E; [simpl in LT; lia|]. assert (t < n)%nat by (apply BT; now left). lia. Qed.
  Lemma y_len : length y = m. Proof. apply (combine_len V). Qed.
  Lemma sx0 j : ~ In j T -> xs@j = 0.
  Proof.
    intros H. destruct (Nat.lt_ge_cases j n) as [Hj|Hj]; [|apply nth_overflow; lia].
    destruct (Req_dec (xs@j) 0); auto. exfalso. apply H. now apply Sx.
  Qed.
  Lemma scatter_get_in s : omp_ok m D y s -> forall j, ~ In j T -> incl (om_I s) T -> (scatter n (om_I s) (om_x s))@j = 0.
  Proof.
    intros _ j H HI. destruct (Nat.lt_ge_cases j n) as [Hj|Hj]; [|apply nth_overflow; rewrite scatter_len; lia].
    unfold scatter. rewrite nth_tab by auto. apply scatter_get_notin. intros C. now apply H, HI.
  Qed.
  Lemma resid s : omp_ok m D y s -> om_r s = combine_atoms m D (rsub xs (scatter n (om_I s) (om_x s))).
  Proof.
    intros H. rewrite (combine_sub V) by (rewrite scatter_len; auto). unfold n.
    rewrite (combine_scatter V) by (apply H). apply (ok_r H).
  Qed.
  Lemma c_len s : length (rsub xs (scatter n (om_I s) (om_x s))) = n.
  Proof. rewrite rsub_len, scatter_len. lia. Qed.
  Lemma c_supp s : omp_ok m D y s -> incl (om_I s) T -> forall j, ~ In j T -> (rsub xs (scatter n (om_I s) (om_x s)))@j = 0.
  Proof. intros H HI j Hj. rewrite rsub_nth by (rewrite scatter_len; auto). rewrite (sx0 j Hj), (scatter_get_in H) by auto. ring. Qed.
  Lemma rec_select s : omp_ok m D y s -> incl (om_I s) T -> (length (om_I s) < K)%nat ->
    let i := abs_max_idx (d_trans D (om_r s)) in In i T /\ rdot (d_atom D i) (om_r s) <> 0.
  Proof.
    intros H HI HL i. unfold i. rewrite (resid H). apply select; [apply c_len|now apply c_supp|].
    destruct (@supp_missing T (om_I s) NT ltac:(lia)) as (t & Ht & Nt). exists t.
    rewrite rsub_nth by (rewrite scatter_len; auto). unfold scatter. rewrite nth_tab by (now apply BT).
    rewrite scatter_get_notin by auto. rewrite Rminus_0_r. apply Sx; auto.
  Qed.
  Lemma rec_step s : omp_ok m D y s -> incl (om_I s) T -> (length (om_I s) < K)%nat ->
    exists s', omp_step D y s = Some s' /\ omp_ok m D y s' /\ incl (om_I s') T /\ om_rn s' = nrm2 (om_r s') /\ length (om_I s') = S (length (om_I s)).
  Proof.
    intros H HI HL. destruct (rec_select H HI HL) as [H1 H2].
    pose proof (omp_step_total V U n_pos y_len H H2) as B. destruct (omp_step D y s) as [s'|] eqn:E; [|contradiction].
    destruct (omp_step_ok V U n_pos y_len H E) as (G1 & G2 & G3 & _). exists s'. repeat split; auto; try apply G1.
    - rewrite G3. intros j Hj. apply in_app_or in Hj as [Hj|[<-|[]]]; auto.
    - rewrite G3, app_length. simpl. lia.
  Qed.
  Lemma rec_first : omp_ok m D y (omp_first D y) /\ incl (om_I (omp_first D y)) T /\ length (om_I (omp_first D y)) = 1%nat.
  Proof.
    destruct (omp_first_ok V U n_pos _ y_len) as (H1 & _). split; auto. split; [|reflexivity].
    unfold omp_first. cbn [om_I]. intros j [<-|[]]. apply select; auto; [apply sx0|].
    destruct T as [|t T'] eqn:E; [simpl in LT; lia|]. exists t. apply Sx; [apply BT|]; now left.
  Qed.
  Lemma rec_final s : omp_ok m D y s -> incl (om_I s) T -> length (om_I s) = K ->
    Permutation (om_I s) T /\ scatter n (om_I s) (om_x s) = xs /\ om_r s = rzero m.
  Proof.
    intros H HI HL. assert (P : Permutation (om_I s) T).
    { apply NoDup_Permutation_bis; auto; [apply H|lia]. }
    split; auto. set (c := rsub xs (scatter n (om_I s) (om_x s))).
    assert (C0 : forall j, c@j = 0).
    { intros j. destruct (Req_dec (c@j) 0) as [|N]; auto. exfalso.
      destruct (select c (c_len s) (c_supp H HI)) as (S1 & S2 & S3); [exists j; auto|]. unfold c in S3. rewrite <- (resid H) in S3. apply S3.
      apply (ok_orth H). apply (Permutation_in _ (Permutation_sym P)). rewrite (resid H). exact S2. }
    assert (E : scatter n (om_I s) (om_x s) = xs).
    { apply vec_eq; rewrite scatter_len; auto. intros j Hj. specialize (C0 j). unfold c in C0. rewrite rsub_nth in C0 by (rewrite scatter_len; auto). lra. }
    split; auto. rewrite (resid H), E. replace (rsub xs xs) with (rzero n) by veq. apply (combine_zero V).
  Qed.
  Lemma rec_early s : omp_ok m D y s -> incl (om_I s) T -> om_r s = rzero m -> length (om_I s) = K.
  Proof.
    intros H HI Hr. pose proof (NoDup_incl_length (ok_nodup H) HI).
    destruct (Nat.lt_ge_cases (length (om_I s)) K) as [HL|]; [|lia]. exfalso.
    destruct (rec_select H HI HL) as [_ C]. apply C. rewrite Hr. apply rdot_zero_r.
  Qed.
  Lemma rec_steps k : (k < K)%nat -> exists s, omp_steps D y k = Some s /\ omp_ok m D y s /\ incl (om_I s) T /\ length (om_I s) = S k.
  Proof.
    induction k as [|k IH]; intros Hk.
    - exists (omp_first D y). split; [reflexivity|apply rec_first].
    - destruct IH as (s & E & H & HI & HL); [lia|]. destruct (rec_step H HI) as (s' & E' & H' & HI' & _ & HL'); [lia|].
      exists s'. cbn [omp_steps]. rewrite E. repeat split; auto; try apply H'. lia.
  Qed.
  Lemma rec_matrix : (2 <= K)%nat -> exists s, omp_matrix D y K = Some s /\ Permutation (om_I s) T /\
    scatter n (om_I s) (om_x s) = xs /\ om_r s = rzero m.
  Proof.
    intros K2. destruct (@rec_steps (K - 1)) as (s & E & H & HI & HL); [lia|].
    exists s. split; [|apply rec_final; auto; lia]. unfold omp_matrix. destruct (Nat.leb_spec K 1); [lia|exact E].
  Qed.
  Lemma rec_loop rtol fuel : (K <= fuel)%nat -> exists s, while_ (omp_op_cond K rtol) (omp_step D y) fuel (omp_op_init D y) = Done s /\
    omp_ok m D y s /\ incl (om_I s) T /\ omp_op_cond K rtol s = false /\ (om_it s = 1%nat \/ om_rn s = nrm2 (om_r s)).
  Proof.
    intros HF.
    assert (Inv : forall k s, reaches (omp_op_cond K rtol) (omp_step D y) (omp_op_init D y) k s ->
      omp_ok m D y s /\ incl (om_I s) T /\ (om_it s = 1%nat \/ om_rn s = nrm2 (om_r s)) /\ om_it s = S k).
    { induction 1 as [|k s s' Hr (I1 & I2 & I3 & I4) C B].
      - destruct rec_first as (F1 & F2 & F3). split; [|split; [exact F2|split; [now left|reflexivity]]].
        destruct F1. constructor; auto.
      - assert (HL : (length (om_I s) < K)%nat).
        { unfold omp_op_cond in C. apply andb_true_iff in C as [_ C]. apply Nat.ltb_lt in C. rewrite <- (ok_it I1). exact C. }
        destruct (rec_step I1 I2 HL) as (s1 & E1 & O1 & J1 & R1 & L1). rewrite E1 in B. injection B as <-.
        repeat split; auto; try apply O1. rewrite (ok_it O1), L1, <- (ok_it I1). lia. }
    destruct (@while_total _ (omp_op_cond K rtol) (omp_step D y) (omp_op_init D y) fuel) as [s Hs].
    - intros k s Hr C. destruct (Inv _ _ Hr) as (I1 & I2 & _). unfold omp_op_cond in C. apply andb_true_iff in C as [_ C].
      apply Nat.ltb_lt in C. rewrite (ok_it I1) in C. destruct (rec_step I1 I2 C) as (s1 & E1 & _). congruence.
    - intros k s Hr C. destruct (Inv _ _ Hr) as (I1 & I2 & _ & I4). unfold omp_op_cond in C. apply andb_true_iff in C as [_ C].
      apply Nat.ltb_lt in C. lia.
    - exists s. apply while_done in Hs as Hd. destruct Hd as (k & _ & Hr & C). destruct (Inv _ _ Hr) as (I1 & I2 & I3 & I4). auto.
  Qed.
End Recovery.
