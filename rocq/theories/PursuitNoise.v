(** Orthogonal matching pursuit from noisy measurements. *)
From Coq Require Import List Arith Bool Lia Reals Lra Permutation.
From Verif Require Import Scalar Vec RVec RMat Loop LoopLemmas OptSpec OptModel OptProofs OptProofs2 SortedL1Model SortedL1Proofs CGModel SlsModel SlsProofs SelModel SelSpec SelProofs DictModel DictSpec DictProofs SolverSpec SolverLemmas CGProofs PursuitModel PursuitSpec PursuitProofs PursuitProofs2 PursuitProofs3 PursuitProofs4 PursuitProofs5 PursuitLemmas PursuitLemmas2.
Import ListNotations.
Set Implicit Arguments.
Unset Strict Implicit.
Local Open Scope R_scope.

Section Noise.
  Variables (m : nat) (D : dictionary) (mu : R) (K : nat) (T : list nat) (xs e : vec) (eps : R).
  Hypothesis U : unit_dict m D.
  Hypothesis Hmu : coherence_at_most D mu.
  Hypothesis Mu0 : 0 <= mu.
  Hypothesis Lx : length xs = d_n D.
  Hypothesis Le : length e = m.
  Hypothesis HT : support T xs.
  Hypothesis LT : length T = K.
  Hypothesis K1 : (1 <= K)%nat.
  Hypothesis He : forall i, (i < d_n D)%nat -> Rabs (rdot (d_atom D i) e) <= eps.
  (** every entry of the signal stands out of the noise *)
  Hypothesis Big : forall i, In i T -> 2 * eps < (1 - (2 * INR K - 1) * mu) * Rabs (xs@i).
  Let V := proj1 U.
  Let n := d_n D.
  Let y := radd (combine_atoms m D xs) e.
  Lemma nT : NoDup T. Proof. apply HT. Qed.
  Lemma bT i : In i T -> (i < n)%nat. Proof. intros Hi. unfold n. rewrite <- Lx. now apply HT. Qed.
  Lemma tne : exists t, In t T.
  Proof. clear - LT K1. destruct T as [|t T']; [simpl in LT; lia|]. exists t. now left. Qed.
  Lemma npos : (0 < n)%nat. Proof. destruct tne as [t Ht]. apply bT in Ht. lia. Qed.
  Lemma sx i : (i < n)%nat -> (In i T <-> xs@i <> 0). Proof. intros Hi. apply HT. now rewrite Lx. Qed.
  Lemma eps0 : 0 <= eps. Proof. pose proof (He npos) as H. pose proof (Rabs_pos (rdot (d_atom D 0) e)). lra. Qed.
  Lemma margin : (2 * INR K - 1) * mu < 1.
  Proof.
    destruct tne as [t Ht]. specialize (Big Ht). pose proof eps0. assert (P : 0 < Rabs (xs@t)) by (apply Rabs_pos_lt; apply sx; auto; now apply bT).
    apply Rnot_le_lt. intros C. assert ((1 - (2 * INR K - 1) * mu) * Rabs (xs@t) <= 0 * Rabs (xs@t)) by (apply Rmult_le_compat_r; lra). lra.
  Qed.
  Lemma ylen : length y = m. Proof. unfold y. rewrite radd_len, (combine_len V). lia. Qed.
  Lemma sxz j : ~ In j T -> xs@j = 0.
  Proof.
    intros H. destruct (Nat.lt_ge_cases j n) as [Hj|Hj]; [|apply nth_overflow; unfold n in Hj; lia].
    destruct (Req_dec (xs@j) 0); auto. exfalso. apply H. now apply sx.
  Qed.
  (** correlations of the atoms with a residual whose coefficient error is c *)
  Lemma corr c i M : (i < n)%nat -> length c = n -> (forall j, ~ In j T -> c@j = 0) -> (forall j, Rabs (c@j) <= M) ->
    Rabs (rdot (d_atom D i) (radd (combine_atoms m D c) e) - c@i) <= (INR K - (if mem i T then 1 else 0)) * (mu * M) + eps.
  Proof.
    intros Hi Lc Sc HM. pose proof (@off_diag m D V (proj2 U) mu Hmu Mu0 K T nT bT LT c i M Hi Lc Sc HM) as B.
    rewrite rdot_add_r by (rewrite (combine_len V); auto). specialize (He Hi).
    replace (rdot (d_atom D i) (combine_atoms m D c) + rdot (d_atom D i) e - c@i) with ((rdot (d_atom D i) (combine_atoms m D c) - c@i) + rdot (d_atom D i) e) by ring.
    eapply Rle_trans; [apply Rabs_triang|]. apply Rplus_le_compat; auto.
  Qed.
  Lemma nselect c t0 : length c = n -> (forall j, ~ In j T -> c@j = 0) -> In t0 T -> c@t0 = xs@t0 ->
    let r := radd (combine_atoms m D c) e in
    let i := abs_max_idx (d_trans D r) in
    (i < n)%nat /\ In i T /\ (1 - (INR K - 1) * mu) * Rabs (xs@t0) - eps <= Rabs (rdot (d_atom D i) r) /\ rdot (d_atom D i) r <> 0.
  Proof.
    intros Lc Sc Ht0 Ec r i. pose proof margin as Cond. pose proof npos as N0. pose proof eps0 as E0.
    assert (NC : c <> []) by (intros ->; simpl in Lc; lia).
    destruct (abs_max_spec NC) as [Ht HM]. set (t := abs_max_idx c) in *. rewrite Lc in Ht. set (M := Rabs (c@t)) in *.
    assert (XM : Rabs (xs@t0) <= M) by (rewrite <- Ec; apply HM).
    assert (XP : 0 < Rabs (xs@t0)) by (apply Rabs_pos_lt; apply sx; auto; now apply bT).
    assert (KR : 1 <= INR K) by (apply (le_INR 1); auto). assert (KP : 0 <= (INR K - 1) * mu) by (apply Rmult_le_pos; lra).
    assert (tT : In t T).
    { destruct (mem t T) eqn:E; [now apply mem_In|]. apply mem_nIn in E. apply Sc in E. unfold M in XM. rewrite E, Rabs_R0 in XM. lra. }
    pose proof (@corr c t M Ht Lc Sc HM) as B. assert (Et : mem t T = true) by (now apply mem_In). rewrite Et in B. fold r in B.
    assert (Lr : length r = m) by (unfold r; rewrite radd_len, (combine_len V); lia).
    assert (BigM : (1 - (INR K - 1) * mu) * M - eps <= Rabs (rdot (d_atom D t) r)).
    { pose proof (Rabs_triang_inv (c@t) (rdot (d_atom D t) r)) as H. rewrite (Rabs_minus_sym (c@t)) in H. fold M in H.
      replace ((1 - (INR K - 1) * mu) * M) with (M - (INR K - 1) * (mu * M)) by ring. lra. }
    assert (NE : d_trans D r <> []).
    { intros C. apply (f_equal (@length R)) in C. rewrite (trans_len V) in C by auto. fold n in C. simpl in C. lia. }
    destruct (abs_max_spec NE) as [Hi Hmax]. fold i in Hi, Hmax. rewrite (trans_len V) in Hi by auto. fold n in Hi.
    specialize (Hmax t). rewrite !(trans_nth V) in Hmax by auto.
    assert (G1 : (1 - (2 * INR K - 1) * mu) * Rabs (xs@t0) <= (1 - (2 * INR K - 1) * mu) * M) by (apply Rmult_le_compat_l; lra).
    assert (G2 : (1 - (INR K - 1) * mu) * Rabs (xs@t0) <= (1 - (INR K - 1) * mu) * M) by (apply Rmult_le_compat_l; lra).
    specialize (Big Ht0). assert (KM : 0 <= INR K * (mu * M)) by (apply Rmult_le_pos; [lra|]; apply Rmult_le_pos; lra).
    split; auto. split; [|split].
    - destruct (mem i T) eqn:E; [now apply mem_In|]. exfalso.
      pose proof (@corr c i M Hi Lc Sc HM) as B2. rewrite E in B2. apply mem_nIn in E. rewrite (Sc i E), !Rminus_0_r in B2. fold r in B2.
      replace ((1 - (2 * INR K - 1) * mu) * M) with ((1 - (INR K - 1) * mu) * M - INR K * (mu * M)) in G1 by ring. lra.
    - lra.
    - intros C. rewrite C, Rabs_R0 in Hmax. replace ((1 - (2 * INR K - 1) * mu) * M) with ((1 - (INR K - 1) * mu) * M - INR K * (mu * M)) in G1 by ring. lra.
  Qed.
  Definition err (s : omp_state) : vec := rsub xs (scatter n (om_I s) (om_x s)).
  Lemma err_len s : length (err s) = n. Proof. unfold err, n. rewrite rsub_len, scatter_len. lia. Qed.
  Lemma nresid s : omp_ok m D y s -> om_r s = radd (combine_atoms m D (err s)) e.
  Proof.
    intros H. unfold err. rewrite (combine_sub V) by (unfold n; rewrite scatter_len; auto). unfold n.
    rewrite (combine_scatter V) by (apply H). rewrite (ok_r H). unfold y.
    assert (L1 : length (combine_atoms m D xs) = m) by apply (combine_len V). assert (L2 : length (combine_on m D (om_I s) (om_x s)) = m) by (apply (synth_len V); apply H).
    unfold combine_on in L2. unfold combine_on. veq.
  Qed.
  Lemma err_supp s : incl (om_I s) T -> forall j, ~ In j T -> (err s)@j = 0.
  Proof.
    intros HI j Hj. unfold err. rewrite rsub_nth by (unfold n; rewrite scatter_len; auto). rewrite (sxz Hj).
    destruct (Nat.lt_ge_cases j n) as [Hn|Hn]; [|rewrite (nth_overflow (scatter _ _ _)) by (rewrite scatter_len; lia); simpl; ring].
    unfold scatter. rewrite nth_tab by auto. rewrite scatter_get_notin; [ring|]. intros C. now apply Hj, HI.
  Qed.
  Lemma err_missing s t : In t T -> ~ In t (om_I s) -> (err s)@t = xs@t.
  Proof.
    intros Ht Nt. unfold err. rewrite rsub_nth by (unfold n; rewrite scatter_len; auto). unfold scatter. rewrite nth_tab by (now apply bT).
    rewrite scatter_get_notin by auto. ring.
  Qed.
  Lemma nrec_select s : omp_ok m D y s -> incl (om_I s) T -> (length (om_I s) < K)%nat ->
    exists t, In t T /\ let i := abs_max_idx (d_trans D (om_r s)) in
    (i < n)%nat /\ In i T /\ (1 - (INR K - 1) * mu) * Rabs (xs@t) - eps <= Rabs (rdot (d_atom D i) (om_r s)) /\ rdot (d_atom D i) (om_r s) <> 0.
  Proof.
    intros H HI HL. destruct (@supp_missing T (om_I s) nT ltac:(lia)) as (t & Ht & Nt). exists t. split; auto. rewrite (nresid H).
    apply nselect; auto; [apply err_len|now apply err_supp|now apply err_missing].
  Qed.
  Lemma nrec_step s : omp_ok m D y s -> incl (om_I s) T -> (length (om_I s) < K)%nat ->
    exists s', omp_step D y s = Some s' /\ omp_ok m D y s' /\ incl (om_I s') T /\ om_rn s' = nrm2 (om_r s') /\ length (om_I s') = S (length (om_I s)).
  Proof.
    intros H HI HL. destruct (nrec_select H HI HL) as (t & Ht & Hi & H1 & _ & H2).
    pose proof (omp_step_total V (proj2 U) npos ylen H H2) as B. destruct (omp_step D y s) as [s'|] eqn:E; [|contradiction].
    destruct (omp_step_ok V (proj2 U) npos ylen H E) as (G1 & G2 & G3 & _). exists s'. repeat split; auto; try apply G1.
    - rewrite G3. intros j Hj. apply in_app_or in Hj as [Hj|[<-|[]]]; auto.
    - rewrite G3, app_length. simpl. lia.
  Qed.
  Lemma nrec_first : omp_ok m D y (omp_first D y) /\ incl (om_I (omp_first D y)) T /\ length (om_I (omp_first D y)) = 1%nat.
  Proof.
    destruct (omp_first_ok V (proj2 U) npos _ ylen) as (H1 & _). split; auto. split; [|reflexivity].
    unfold omp_first. cbn [om_I]. intros j [<-|[]]. destruct tne as [t Ht]. destruct (@nselect xs t) as (_ & H & _); auto. exact sxz.
  Qed.
  Lemma nrec_final s : omp_ok m D y s -> incl (om_I s) T -> length (om_I s) = K ->
    Permutation (om_I s) T /\ (forall i, (i < n)%nat -> Rabs ((scatter n (om_I s) (om_x s))@i - xs@i) <= eps / (1 - (INR K - 1) * mu)) /\ nrm2 (om_r s) <= nrm2 e.
  Proof.
    intros H HI HL. assert (P : Permutation (om_I s) T) by (apply NoDup_Permutation_bis; auto; [apply H|lia]).
    pose proof margin as Cond. pose proof eps0 as E0. assert (KR : 1 <= INR K) by (apply (le_INR 1); auto). assert (KP : 0 <= (INR K - 1) * mu) by (apply Rmult_le_pos; lra).
    assert (Km : 0 <= INR K * mu) by (apply Rmult_le_pos; lra). assert (Q : 0 < 1 - (INR K - 1) * mu) by lra.
    split; auto. split.
    - assert (NC : err s <> []). { intros C. pose proof (err_len s) as L. rewrite C in L. pose proof npos. simpl in L. lia. }
      destruct (abs_max_spec NC) as [Ht HM]. set (t := abs_max_idx (err s)) in *. rewrite err_len in Ht. set (M := Rabs ((err s)@t)) in *.
      assert (MB : M <= eps / (1 - (INR K - 1) * mu)).
      { apply Rmult_le_reg_r with (1 - (INR K - 1) * mu); auto. unfold Rdiv. rewrite Rmult_assoc, Rinv_l, Rmult_1_r by lra.
        destruct (mem t T) eqn:E.
        - pose proof (@corr (err s) t M Ht (err_len s) (err_supp HI) HM) as B. rewrite E in B. apply mem_In in E. rewrite <- (nresid H) in B.
          rewrite (ok_orth H) in B by (apply (Permutation_in _ (Permutation_sym P)); auto). rewrite Rminus_0_l, Rabs_Ropp in B. fold M in B. lra.
        - apply mem_nIn in E. assert (Z : M = 0) by (unfold M; rewrite (err_supp HI E); apply Rabs_R0). rewrite Z. lra. }
      intros i Hi. rewrite Rabs_minus_sym. specialize (HM i). unfold err in HM at 1. rewrite rsub_nth in HM by (unfold n; rewrite scatter_len; auto). lra.
    - pose proof (omp_min V npos ylen (gather xs (om_I s)) H) as Q2. rewrite gather_len in Q2. specialize (Q2 eq_refl).
      replace (rsub y (combine_on m D (om_I s) (gather xs (om_I s)))) with e in Q2; auto.
      rewrite <- (combine_scatter V) by (try apply H; apply gather_len). fold n. unfold n. rewrite <- Lx at 1. rewrite scatter_gather by (rewrite Lx; apply H).
      replace (keep xs (om_I s)) with xs.
      + unfold y. assert (L1 : length (combine_atoms m D xs) = m) by apply (combine_len V). veq.
      + symmetry. apply vec_eq; [apply tab_length|]. unfold keep. rewrite tab_length. intros i Hi. rewrite nth_tab by auto. destruct (mem i (om_I s)) eqn:E; auto.
        apply mem_nIn in E. symmetry. apply sxz. intros C. apply E. apply (Permutation_in _ (Permutation_sym P)); auto.
  Qed.
  Lemma nrec_steps k : (k < K)%nat -> exists s, omp_steps D y k = Some s /\ omp_ok m D y s /\ incl (om_I s) T /\ length (om_I s) = S k.
  Proof.
    induction k as [|k IH]; intros Hk.
    - exists (omp_first D y). split; [reflexivity|apply nrec_first].
    - destruct IH as (s & E & H & HI & HL); [lia|]. destruct (nrec_step H HI) as (s' & E' & H' & HI' & _ & HL'); [lia|].
      exists s'. cbn [omp_steps]. rewrite E. repeat split; auto; try apply H'. lia.
  Qed.
  Lemma nrec_matrix : (2 <= K)%nat -> exists s, omp_matrix D y K = Some s /\ Permutation (om_I s) T /\
    (forall i, (i < n)%nat -> Rabs ((scatter n (om_I s) (om_x s))@i - xs@i) <= eps / (1 - (INR K - 1) * mu)) /\ nrm2 (om_r s) <= nrm2 e.
  Proof.
    intros K2. destruct (@nrec_steps (K - 1)) as (s & E & H & HI & HL); [lia|].
    exists s. split; [|apply nrec_final; auto; lia]. unfold omp_matrix. destruct (Nat.leb_spec K 1); [lia|exact E].
  Qed.
  (** the tolerance does not stop the loop before all atoms are found *)
  Variables (rtol : R).
  Hypothesis Hr : forall i, In i T -> rtol + eps < (1 - (INR K - 1) * mu) * Rabs (xs@i).
  Hypothesis R0 : 0 <= rtol.
  Lemma visible s : omp_ok m D y s -> incl (om_I s) T -> (length (om_I s) < K)%nat -> rtol ^ 2 < nrm2 (om_r s).
  Proof.
    intros H HI HL. destruct (nrec_select H HI HL) as (t & Ht & Hi & _ & G & _). specialize (Hr Ht).
    set (i := abs_max_idx _) in *. pose proof (cauchy (d_atom D i) (om_r s)) as C. assert (E : nrm (d_atom D i) = 1) by (unfold nrm; assert (Eu := proj2 U i Hi); unfold nrm2 in Eu; rewrite Eu; apply sqrt_1).
    rewrite E, Rmult_1_l in C. unfold nrm2. rewrite <- nrm_sq. assert (rtol < nrm (om_r s)) by lra. simpl. rewrite Rmult_1_r. apply Rmult_le_0_lt_compat; auto.
  Qed.
  Lemma nrec_loop fuel : rtol ^ 2 < nrm2 y -> (K <= fuel)%nat -> exists s, while_ (omp_op_cond K rtol) (omp_step D y) fuel (omp_op_init D y) = Done s /\
    omp_ok m D y s /\ incl (om_I s) T /\ length (om_I s) = K.
  Proof.
    intros HY HF.
    assert (Inv : forall k s, reaches (omp_op_cond K rtol) (omp_step D y) (omp_op_init D y) k s ->
      omp_ok m D y s /\ incl (om_I s) T /\ (om_rn s = nrm2 y \/ om_rn s = nrm2 (om_r s)) /\ om_it s = S k).
    { induction 1 as [|k s s' Hrc (I1 & I2 & I3 & I4) C B].
      - destruct nrec_first as (F1 & F2 & F3). split; [|split; [exact F2|split; [now left|reflexivity]]].
        destruct F1. constructor; auto.
      - assert (HL : (length (om_I s) < K)%nat).
        { unfold omp_op_cond in C. apply andb_true_iff in C as [_ C]. apply Nat.ltb_lt in C. rewrite <- (ok_it I1). exact C. }
        destruct (nrec_step I1 I2 HL) as (s1 & E1 & O1 & J1 & R1 & L1). rewrite E1 in B. injection B as <-.
        repeat split; auto; try apply O1. rewrite (ok_it O1), L1, <- (ok_it I1). lia. }
    destruct (@while_total _ (omp_op_cond K rtol) (omp_step D y) (omp_op_init D y) fuel) as [s Hs].
    - intros k s Hrc C. destruct (Inv _ _ Hrc) as (I1 & I2 & _). unfold omp_op_cond in C. apply andb_true_iff in C as [_ C].
      apply Nat.ltb_lt in C. rewrite (ok_it I1) in C. destruct (nrec_step I1 I2 C) as (s1 & E1 & _). congruence.
    - intros k s Hrc C. destruct (Inv _ _ Hrc) as (I1 & I2 & _ & I4). unfold omp_op_cond in C. apply andb_true_iff in C as [_ C].
      apply Nat.ltb_lt in C. lia.
    - exists s. apply while_done in Hs as Hd. destruct Hd as (k & _ & Hrc & C). destruct (Inv _ _ Hrc) as (I1 & I2 & I3 & I4). repeat split; auto; try apply I1.
      pose proof (NoDup_incl_length (ok_nodup I1) I2) as Le1. rewrite LT in Le1. destruct (Nat.lt_ge_cases (length (om_I s)) K) as [HL|]; [|lia]. exfalso.
      unfold omp_op_cond in C. apply andb_false_iff in C as [C|C].
      + destruct (Rltb_spec (rtol ^ 2) (om_rn s)) as [|N]; [discriminate|]. pose proof (visible I1 I2 HL). destruct I3 as [I3|I3]; rewrite I3 in N; contradiction.
      + apply Nat.ltb_ge in C. rewrite (ok_it I1) in C. lia.
  Qed.
End Noise.

Section Op.
  Variables (m : nat) (D : dictionary) (mu : R) (K : nat) (T : list nat) (xs e : vec) (eps rtol : R).
  Hypothesis U : unit_dict m D.
  Hypothesis Hmu : coherence_at_most D mu.
  Hypothesis Mu0 : 0 <= mu.
  Hypothesis Lx : length xs = d_n D.
  Hypothesis Le : length e = m.
  Hypothesis HT : support T xs.
  Hypothesis LT : length T = K.
  Hypothesis K1 : (1 <= K)%nat.
  Hypothesis He : forall i, (i < d_n D)%nat -> Rabs (rdot (d_atom D i) e) <= eps.
  Hypothesis Big : forall i, In i T -> 2 * eps < (1 - (2 * INR K - 1) * mu) * Rabs (xs@i).
  Let V := proj1 U.
  Let n := d_n D.
  Let y := radd (combine_atoms m D xs) e.
  Hypothesis Hr : forall i, In i T -> rtol * nrm y + eps < (1 - (INR K - 1) * mu) * Rabs (xs@i).
  Hypothesis R0 : 0 <= rtol.
  Lemma nop fuel : (K <= fuel)%nat -> exists s, omp_operator D y K rtol fuel = Done s /\ Permutation (om_I s) T /\
    (forall i, (i < n)%nat -> Rabs ((scatter n (om_I s) (om_x s))@i - xs@i) <= eps / (1 - (INR K - 1) * mu)) /\ nrm2 (om_r s) <= nrm2 e.
  Proof.
    intros HF. assert (Ly : length y = m) by (unfold y; rewrite radd_len, (combine_len V); lia). 
    destruct (@T_ne K T LT K1) as [t Ht].
    (* some atom sees the signal *)
    assert (BY : rtol * nrm y < nrm y).
    { destruct (@nselect m D mu K T xs e eps U Hmu Mu0 Lx Le HT LT K1 He Big xs t) as (Hi & _ & G & _); auto; [eapply sxz; eauto|]. fold y in G, Hi.
      set (i := abs_max_idx _) in *. pose proof (cauchy (d_atom D i) y) as C. assert (E : nrm (d_atom D i) = 1) by (unfold nrm; assert (Eu := proj2 U i Hi); unfold nrm2 in Eu; rewrite Eu; apply sqrt_1).
      rewrite E, Rmult_1_l in C. specialize (Hr Ht). lra. }
    assert (Ny : 0 < nrm y) by (pose proof (nrm_pos y); assert (0 <= rtol * nrm y) by (now apply Rmult_le_pos); lra).
    unfold omp_operator. destruct (normalize y) as [yn|] eqn:En; [|apply normalize_none in En; lra].
    destruct (scale_back y Ly En) as (S1 & S2 & S3 & S4).
    set (b := / nrm y). assert (B0 : 0 < b) by (now apply Rinv_0_lt_compat).
    set (xn := rscale b xs). set (en := rscale b e).
    assert (Lxn : length xn = d_n D) by (unfold xn; now rewrite rscale_len). assert (Len : length en = m) by (unfold en; now rewrite rscale_len).
    assert (Eyn : yn = radd (combine_atoms m D xn) en).
    { unfold xn, en. rewrite (combine_scale V). apply normalize_some in En as (_ & En & _). rewrite En. fold b. unfold y. pose proof (combine_len V xs). veq. }
    assert (HTn : support T xn).
    { pose proof HT as (H1 & H2 & H3). split; [exact H1|]. unfold xn. rewrite rscale_len. split; [exact H2|]. intros i Hi. rewrite rscale_nth, (H3 i Hi). split; intros N C; apply N.
      - apply Rmult_integral in C as [C|C]; auto. lra.
      - rewrite C. ring. }
    assert (Ax : forall i, Rabs (xn@i) = b * Rabs (xs@i)) by (intros i; unfold xn; rewrite rscale_nth, Rabs_mult, (Rabs_pos_eq b) by lra; reflexivity).
    assert (Hen : forall i, (i < d_n D)%nat -> Rabs (rdot (d_atom D i) en) <= b * eps).
    { intros i Hi. unfold en. rewrite rdot_scale_r, Rabs_mult, (Rabs_pos_eq b) by lra. apply Rmult_le_compat_l; [lra|auto]. }
    assert (Bign : forall i, In i T -> 2 * (b * eps) < (1 - (2 * INR K - 1) * mu) * Rabs (xn@i)).
    { intros i Hi. rewrite Ax. specialize (Big Hi). apply Rmult_lt_compat_l with (r := b) in Big; auto. lra. }
    assert (Hrn : forall i, In i T -> rtol + b * eps < (1 - (INR K - 1) * mu) * Rabs (xn@i)).
    { intros i Hi. rewrite Ax. specialize (Hr Hi). apply Rmult_lt_compat_l with (r := b) in Hr; auto.
      replace (b * (rtol * nrm y + eps)) with (rtol + b * eps) in Hr by (unfold b; field; lra). lra. }
    assert (R1 : rtol ^ 2 < nrm2 yn).
    { rewrite S4. assert (rtol < 1) by (apply Rmult_lt_reg_r with (nrm y); lra). simpl. rewrite Rmult_1_r. rewrite <- (Rmult_1_r 1). apply Rmult_le_0_lt_compat; auto. }
    rewrite Eyn in R1.
    destruct (@nrec_loop m D mu K T xn en (b * eps) U Hmu Mu0 Lxn Len HTn LT K1 Hen Bign rtol Hrn R0 fuel R1 HF) as (s & E & H & HI & HL).
    rewrite <- Eyn in E. rewrite E. eexists. split; [reflexivity|]. cbn [om_I om_x om_r].
    destruct (@nrec_final m D mu K T xn en (b * eps) U Hmu Mu0 Lxn Len HTn LT K1 Hen Bign s H HI HL) as (P1 & P2 & P3).
    split; auto. split.
    - intros i Hi. rewrite (@scatter_scale D K T xs Lx LT K1) by apply (ok_xlen H). rewrite rscale_nth. specialize (P2 i Hi). fold n in P2. unfold xn in P2. rewrite rscale_nth in P2.
      apply Rmult_le_compat_l with (r := nrm y) in P2; [|lra]. rewrite <- (Rabs_pos_eq (nrm y)) in P2 at 1 by lra. rewrite <- Rabs_mult in P2.
      replace (nrm y * ((scatter n (om_I s) (om_x s))@i - b * xs@i)) with (nrm y * (scatter n (om_I s) (om_x s))@i - xs@i) in P2 by (unfold b; field; lra).
      eapply Rle_trans; [exact P2|]. right. unfold b. field. split; [|lra].
      assert (G3 : (2 * INR K - 1) * mu < 1) by (eapply margin; eauto). assert (0 <= INR K * mu) by (apply Rmult_le_pos; auto; apply pos_INR). lra.
    - unfold nrm2 in *. unfold en in P3. rewrite rdot_scale_l, rdot_scale_r in *.
      apply Rmult_le_compat_l with (r := nrm y * nrm y) in P3; [|apply Rmult_le_pos; lra].
      replace (nrm y * nrm y * (b * (b * rdot e e))) with (rdot e e) in P3 by (unfold b; field; lra). lra.
  Qed.
End Op.
