From Coq Require Import List Arith Bool Lia Reals Lra Permutation.
From Verif Require Import Scalar Vec RVec RMat Loop LoopLemmas OptSpec OptModel OptProofs OptProofs2 SortedL1Model SortedL1Proofs CGModel SlsModel SlsProofs SelModel SelSpec SelProofs DictModel DictSpec DictProofs SolverSpec SolverLemmas CGProofs PursuitModel PursuitSpec PursuitProofs PursuitProofs2 PursuitProofs3 PursuitProofs4 PursuitProofs5 PursuitLemmas PursuitLemmas2.
Import ListNotations.
Set Implicit Arguments.
Local Open Scope R_scope.

Section Conv.
  Variables (m : nat) (D : dictionary) (K : nat) (delta : R) (xs e : vec).
  Hypothesis V : valid_dict m D.
  Hypothesis HK : (K <= d_n D)%nat.
  Hypothesis Lx : length xs = d_n D.
  Hypothesis Le : length e = m.
  Hypothesis Sx : sparse K xs.
  Hypothesis HR : rip m D (3 * K) delta.
  Notation y := (radd (combine_atoms m D xs) e).
  Notation n := (d_n D).
  Lemma Ly_ : length y = m. Proof. rewrite radd_len, (combine_len V). lia. Qed.
  Lemma sparse_zero_ : sparse K (rzero n).
  Proof. exists []. split; [simpl; lia|]. intros i _. apply rzero_nth. Qed.
  Lemma good_sparse s : good m D y K s -> sparse K (xof D s).
  Proof. intros [(C1 & _) _]. rewrite <- C1. apply scatter_sparse. Qed.
  Lemma sub_zero_nrm : nrm (rsub (rzero n) xs) = nrm xs.
  Proof.
    unfold nrm. f_equal. replace (rsub (rzero n) xs) with (rscale (-1) xs).
    - rewrite rdot_scale_l, rdot_scale_r. ring.
    - apply vec_eq; [rewrite rscale_len, rsub_len, rzero_len; lia|]. rewrite rscale_len. intros i Hi. rewrite rscale_nth, rsub_nth, rzero_nth by (rewrite rzero_len; auto). ring.
  Qed.
  Lemma iht_init_bound s : iht_init D y K (Some 1) = Some s ->
    good m D y K s /\ nrm (rsub (xof D s) xs) <= 2 * delta * nrm xs + 2 * sqrt (1 + delta) * nrm e.
  Proof.
    intros B. destruct (iht_init_x V Ly_ HK B) as (G & EI & EX). split; auto. rewrite EX, EI.
    pose proof (iht_contract V HK e Lx Le Sx (@HR) (rzero_len n) sparse_zero_) as Q. rewrite sub_zero_nrm in Q. exact Q.
  Qed.
  Lemma iht_body_bound s s' : good m D y K s -> iht_body D y K (Some 1) s = Some s' ->
    good m D y K s' /\ nrm (rsub (xof D s') xs) <= 2 * delta * nrm (rsub (xof D s) xs) + 2 * sqrt (1 + delta) * nrm e.
  Proof.
    intros G B. destruct (iht_body_x V Ly_ HK G B) as (G' & EI & EX). split; auto. rewrite EX, EI.
    apply (iht_contract V HK e Lx Le Sx (@HR) (xof_len D s) (good_sparse G)).
  Qed.
  Lemma iht_all M mx s0 k s : 0 <= delta < 1 / 2 -> iht_init D y K (Some 1) = Some s0 ->
    reaches (ps_cond M mx) (iht_body D y K (Some 1)) s0 k s ->
    good m D y K s /\ p_it s = S k /\
    nrm (rsub (xof D s) xs) <= (2 * delta) ^ (S k) * nrm xs + 2 * sqrt (1 + delta) / (1 - 2 * delta) * nrm e.
  Proof.
    intros Hd E0. set (c := 2 * sqrt (1 + delta) * nrm e).
    assert (Hc : 0 <= c). { unfold c. apply Rmult_le_pos; [|apply nrm_pos]. pose proof (sqrt_pos (1 + delta)). lra. }
    assert (Eq : 2 * sqrt (1 + delta) / (1 - 2 * delta) * nrm e = c / (1 - 2 * delta)) by (unfold c; field; lra). rewrite Eq.
    assert (F : c / (1 - 2 * delta) = 2 * delta * (c / (1 - 2 * delta)) + c) by (field; lra).
    assert (F0 : 0 <= c / (1 - 2 * delta)) by (apply Rmult_le_pos; [auto|left; apply Rinv_0_lt_compat; lra]).
    induction 1 as [|k s s' H (I1 & I2 & I3) C B].
    - destruct (iht_init_bound E0) as (G & Q). destruct (iht_init_ok y V Ly_ HK _ E0) as (_ & _ & J3). split; auto. split; auto.
      fold c in Q. rewrite pow_1. assert (0 <= 2 * delta * (c / (1 - 2 * delta))) by (apply Rmult_le_pos; lra). lra.
    - destruct (iht_body_bound I1 B) as (G & Q). destruct (iht_body_ok V Ly_ HK _ (proj1 I1) B) as (_ & _ & J3 & _).
      split; auto. split; [lia|]. fold c in Q. eapply Rle_trans; [exact Q|].
      assert (2 * delta * nrm (rsub (xof D s) xs) <= 2 * delta * ((2 * delta) ^ S k * nrm xs + c / (1 - 2 * delta))) by (apply Rmult_le_compat_l; lra).
      replace ((2 * delta) ^ S (S k)) with (2 * delta * (2 * delta) ^ S k) by reflexivity. lra.
  Qed.
  Lemma iht_recovers mx rtol fuel s : 0 <= delta < 1 / 2 -> iht D y K (Some 1) mx rtol fuel = Done s ->
    nrm (rsub (solution_x n s) xs) <= (2 * delta) ^ (p_it s) * nrm xs + 2 * sqrt (1 + delta) / (1 - 2 * delta) * nrm e.
  Proof.
    intros Hd. unfold iht. destruct (iht_init D y K (Some 1)) as [s0|] eqn:E0; [|discriminate]. intros H.
    apply while_done in H as (k & _ & H & _). destruct (iht_all Hd E0 H) as (_ & E & Q). rewrite E. exact Q.
  Qed.
End Conv.
Section ConvH.
  Variables (m : nat) (D : dictionary) (K : nat) (delta : R) (xs : vec).
  Hypothesis V : valid_dict m D.
  Hypothesis HK : (K <= d_n D)%nat.
  Hypothesis Lx : length xs = d_n D.
  Hypothesis Sx : sparse K xs.
  Hypothesis HR : rip m D (3 * K) delta.
  Variable lstsq : list vec -> vec -> vec.
  Hypothesis HLS : least_squares_solver lstsq.
  Notation y := (combine_atoms m D xs).
  Notation n := (d_n D).
  Hypothesis Hd : 0 <= delta < 1.
  Let q := 2 * (delta * delta) / (1 - delta * delta).
  Lemma y_plus : radd y (rzero m) = y.
  Proof. apply vec_eq; rewrite radd_len, (combine_len V), rzero_len; [lia|]. intros i Hi. rewrite radd_nth, rzero_nth by (rewrite (combine_len V), rzero_len; auto). ring. Qed.
  Lemma htp_body_bound s s' : good m D y K s -> htp_body lstsq D y K (Some 1) s = Some s' ->
    good m D y K s' /\ nrm2 (rsub (xof D s') xs) <= q * nrm2 (rsub (xof D s) xs).
  Proof.
    intros G B. pose proof (combine_len V xs) as Ly. destruct (htp_body_I V Ly HK HLS G B) as (G' & P & Min). split; auto.
    assert (D1 : delta * delta < 1) by nra.
    pose proof (@htp_contract m D K delta V HK xs (rzero m) Lx (rzero_len m) Sx (@HR) (xof D s) (xof D s') (p_I s') eq_refl Hd (xof_len D s)) as Q.
    rewrite y_plus in Q. specialize (Q ltac:(destruct G as [(C1 & _) _]; rewrite <- C1; apply scatter_sparse) (xof_len D s') P (@supp_scatter _ _ _)).
    rewrite (good_r V G') in Min. specialize (Q Min). unfold q.
    apply Rmult_le_reg_l with (1 - delta * delta); [lra|].
    replace ((1 - delta * delta) * (2 * (delta * delta) / (1 - delta * delta) * nrm2 (rsub (xof D s) xs))) with (2 * (delta * delta) * nrm2 (rsub (xof D s) xs)) by (field; lra).
    exact Q.
  Qed.
  Lemma htp_all M mx mi s0 k s : iht_init D y K (Some 1) = Some s0 ->
    reaches (ps_cond_support M mx mi) (htp_body lstsq D y K (Some 1)) s0 k s ->
    good m D y K s /\ p_it s = S k /\ nrm2 (rsub (xof D s) xs) <= q ^ k * (4 * (delta * delta) * nrm2 xs).
  Proof.
    intros E0. pose proof (combine_len V xs) as Ly. assert (D1 : delta * delta < 1) by nra.
    assert (Q0 : 0 <= q). { unfold q. apply Rmult_le_pos; [nra|left; apply Rinv_0_lt_compat; lra]. }
    induction 1 as [|k s s' H (I1 & I2 & I3) C B].
    - pose proof E0 as E1. rewrite <- y_plus in E1. destruct (@iht_init_bound m D K delta xs (rzero m) V HK Lx (rzero_len m) Sx (@HR) s0 E1) as (G & Q).
      rewrite y_plus in G. destruct (iht_init_ok y V Ly HK _ E0) as (_ & _ & J3). split; auto. split; auto. cbn [pow]. rewrite Rmult_1_l.
      assert (Nz : nrm (rzero m) = 0) by (unfold nrm; rewrite rdot_zero_l; apply sqrt_0). rewrite Nz, Rmult_0_r, Rplus_0_r in Q.
      unfold nrm2. rewrite <- !nrm_sq. pose proof (nrm_pos (rsub (xof D s0) xs)).
      replace (4 * (delta * delta) * (nrm xs * nrm xs)) with (2 * delta * nrm xs * (2 * delta * nrm xs)) by ring. apply Rmult_le_compat; auto.
    - destruct (htp_body_bound I1 B) as (G & Q). destruct (htp_body_ok V Ly HK HLS _ (proj1 I1) B) as (_ & _ & J3 & _).
      split; auto. split; [lia|]. eapply Rle_trans; [exact Q|]. cbn [pow]. rewrite Rmult_assoc. now apply Rmult_le_compat_l.
  Qed.
  Lemma htp_recovers mx rtol fuel s : htp lstsq D y K (Some 1) mx rtol fuel = Done s ->
    nrm2 (rsub (solution_x n s) xs) <= (2 * (delta * delta) / (1 - delta * delta)) ^ (p_it s - 1) * (4 * (delta * delta) * nrm2 xs).
  Proof.
    unfold htp. destruct (iht_init D y K (Some 1)) as [s0|] eqn:E0; [|discriminate]. intros H.
    apply while_done in H as (k & _ & H & _). destruct (htp_all E0 H) as (_ & E & Q). rewrite E. replace (S k - 1)%nat with k by lia. exact Q.
  Qed.
End ConvH.
(** monotone residual for small fixed steps *)
Section Mono.
  Variables (m : nat) (D : dictionary) (y : vec) (K : nat) (mu B : R).
  Hypothesis V : valid_dict m D.
  Hypothesis Ly : length y = m.
  Hypothesis HK : (K <= d_n D)%nat.
  Hypothesis HB : forall z, length z = d_n D -> nrm2 (combine_atoms m D z) <= B * nrm2 z.
  Hypothesis Hmu : 0 < mu.
  Lemma iht_reach_good M mx s0 k s : iht_init D y K (Some mu) = Some s0 -> reaches (ps_cond M mx) (iht_body D y K (Some mu)) s0 k s -> good m D y K s.
  Proof.
    intros E0. induction 1 as [|k s s' H IH C Bd]; [destruct (iht_init_ok y V Ly HK _ E0) as (H1 & H2 & _); now split|].
    destruct (iht_body_ok V Ly HK _ (proj1 IH) Bd) as (H1 & H2 & _); now split.
  Qed.
  Lemma iht_monotone M mx s0 k s s' : mu * B <= 1 -> iht_init D y K (Some mu) = Some s0 ->
    reaches (ps_cond M mx) (iht_body D y K (Some mu)) s0 k s -> iht_body D y K (Some mu) s = Some s' ->
    nrm2 (p_r s') <= nrm2 (p_r s) - (/ mu - B) * nrm2 (rsub (solution_x (d_n D) s') (solution_x (d_n D) s)) /\ nrm2 (p_r s') <= nrm2 (p_r s).
  Proof.
    intros HmB E0 H Bd. pose proof (iht_descent V Ly HK HB Hmu (iht_reach_good E0 H) Bd) as Q. split; [exact Q|].
    assert (B <= / mu). { apply Rmult_le_reg_l with mu; auto. rewrite Rinv_r by lra. lra. }
    pose proof (rdot_pos (rsub (xof D s') (xof D s))). unfold nrm2 in *. nra.
  Qed.
  Lemma htp_reach_good lstsq M mx mi s0 k s : least_squares_solver lstsq -> iht_init D y K (Some mu) = Some s0 -> reaches (ps_cond_support M mx mi) (htp_body lstsq D y K (Some mu)) s0 k s -> good m D y K s.
  Proof.
    intros HLS E0. induction 1 as [|k s s' H IH C Bd]; [destruct (iht_init_ok y V Ly HK _ E0) as (H1 & H2 & _); now split|].
    destruct (htp_body_ok V Ly HK HLS _ (proj1 IH) Bd) as (H1 & H2 & _); now split.
  Qed.
  Lemma htp_monotone lstsq M mx mi s0 k s s' : least_squares_solver lstsq -> mu * B <= 1 -> iht_init D y K (Some mu) = Some s0 ->
    reaches (ps_cond_support M mx mi) (htp_body lstsq D y K (Some mu)) s0 k s -> htp_body lstsq D y K (Some mu) s = Some s' ->
    nrm2 (p_r s') <= nrm2 (p_r s).
  Proof. intros HLS HmB E0 H Bd. apply (htp_descent V Ly HK HLS HB Hmu HmB (htp_reach_good HLS E0 H) Bd). Qed.
End Mono.
(** re-selection: a support index is chosen again only when every atom left out has zero correlation *)
Lemma zero_at_nth h J i : (i < length h)%nat -> (zero_at h J)@i = if mem i J then 0 else h@i.
Proof. intros Hi. unfold zero_at. rewrite nth_tab by auto. reflexivity. Qed.
Lemma mem_in i J : mem i J = true <-> In i J.
Proof. unfold mem. rewrite existsb_exists. split; [intros (x & H & E); apply Nat.eqb_eq in E; now subst|intros H; exists i; rewrite Nat.eqb_refl; auto]. Qed.
Lemma reselect h J k : (k <= length h)%nat -> 
  (forall i, In i J -> ~ In i (largest_indices (zero_at h J) k)) \/
  (forall j, (j < length h)%nat -> ~ In j J -> ~ In j (largest_indices (zero_at h J) k) -> h@j = 0).
Proof.
  intros Hk. destruct (existsb (fun i => mem i (largest_indices (zero_at h J) k)) J) eqn:E.
  - right. apply existsb_exists in E as (i & Hi & E). apply mem_in in E.
    destruct (@largest_top (zero_at h J) k) as (_ & _ & TB & TT); [now rewrite zero_at_len|].
    pose proof (TB _ E) as Bi. rewrite map_length, zero_at_len in Bi.
    intros j Hj N1 N2. specialize (TT i j E ltac:(rewrite map_length, zero_at_len; auto) N2).
    rewrite !map_nth0 in TT by apply Rabs_R0. rewrite !zero_at_nth in TT by auto.
    rewrite (proj2 (mem_in i J) Hi), Rabs_R0 in TT. destruct (mem j J) eqn:M; [apply mem_in in M; contradiction|].
    destruct (Req_dec (h@j) 0) as [|N]; auto. apply Rabs_pos_lt in N. lra.
  - left. intros i Hi C. apply mem_in in C. assert (T : existsb (fun i => mem i (largest_indices (zero_at h J) k)) J = true) by (apply existsb_exists; eauto). congruence.
Qed.
Section NoDupStep.
  Variables (m : nat) (D : dictionary) (y : vec) (K : nat).
  Hypothesis V : valid_dict m D.
  Hypothesis Ly : length y = m.
  Variable lstsq : list vec -> vec -> vec.
  Hypothesis HLS : least_squares_solver lstsq.
  Lemma app_nodup (u v : list nat) : NoDup u -> NoDup v -> (forall i, In i u -> ~ In i v) -> NoDup (u ++ v).
  Proof.
    intros Hu Hv H. induction u as [|a u IH]; auto. inversion Hu; subst. simpl. constructor.
    - intros C. apply in_app_or in C as [C|C]; [contradiction|]. apply (H a); [now left|exact C].
    - apply IH; auto. intros i Hi. apply H. now right.
  Qed.
  Lemma cosamp_nodup s s' : (2 * K <= d_n D)%nat -> consistent m D y K s -> NoDup (p_I s) -> cosamp_body lstsq D y K s = Some s' ->
    NoDup (p_I s') \/ exists T, (length T <= 2 * K)%nat /\ forall j, (j < d_n D)%nat -> ~ In j (p_I s) -> ~ In j T -> rdot (d_atom D j) (p_r s) = 0.
  Proof.
    intros HK C ND B. assert (HK0 : (K <= d_n D)%nat) by lia. pose proof (consistent_len V Ly HK0 C) as Lr. pose proof (trans_len V _ Lr) as Lt.
    unfold cosamp_body in B. injection B as <-. unfold ps_make. cbn [p_I].
    destruct (@reselect (d_trans D (p_r s)) (p_I s) (2 * K)) as [R1|R1]; [lia| |].
    - left. apply pick_nodup; [apply app_nodup; auto; apply li_nodup|apply li_nodup|].
      intros a Ha. apply li_lt in Ha. rewrite (ls_len y V Ly HLS) in Ha; auto. intros i Hi.
      apply in_app_or in Hi as [Hi|Hi]; [now apply C|]. apply li_lt in Hi. now rewrite zero_at_len, Lt in Hi.
    - right. exists (largest_indices (zero_at (d_trans D (p_r s)) (p_I s)) (2 * K)). split; [rewrite li_len; lia|].
      intros j Hj N1 N2. rewrite <- (trans_nth V) by auto. apply R1; auto. now rewrite Lt.
  Qed.
  Lemma sp_nodup s s' : (K <= d_n D)%nat -> consistent m D y K s -> NoDup (p_I s) -> sp_body lstsq D y K s = Some s' ->
    NoDup (p_I s') \/ exists T, (length T <= K)%nat /\ forall j, (j < d_n D)%nat -> ~ In j (p_I s) -> ~ In j T -> rdot (d_atom D j) (p_r s) = 0.
  Proof.
    intros HK C ND B. assert (HK0 : (K <= d_n D)%nat) by lia. pose proof (consistent_len V Ly HK0 C) as Lr. pose proof (trans_len V _ Lr) as Lt.
    unfold sp_body in B. injection B as <-. unfold ps_make. cbn [p_I].
    destruct (@reselect (d_trans D (p_r s)) (p_I s) K) as [R1|R1]; [lia| |].
    - left. apply pick_nodup; [apply app_nodup; auto; apply li_nodup|apply li_nodup|].
      intros a Ha. apply li_lt in Ha. rewrite (ls_len y V Ly HLS) in Ha; auto. intros i Hi.
      apply in_app_or in Hi as [Hi|Hi]; [now apply C|]. apply li_lt in Hi. now rewrite zero_at_len, Lt in Hi.
    - right. exists (largest_indices (zero_at (d_trans D (p_r s)) (p_I s)) (K)). split; [rewrite li_len; lia|].
      intros j Hj N1 N2. rewrite <- (trans_nth V) by auto. apply R1; auto. now rewrite Lt.
  Qed.
End NoDupStep.
