From Coq Require Import List Arith Bool Lia Reals Lra Permutation.
From Verif Require Import Scalar Vec RVec RMat Loop LoopLemmas OptSpec OptModel OptProofs OptProofs2 SortedL1Model SortedL1Proofs CGModel SlsModel SlsProofs SelModel SelSpec SelProofs DictModel DictSpec DictProofs SolverSpec SolverLemmas CGProofs PursuitModel PursuitSpec PursuitSpec2 PursuitProofs PursuitProofs2 PursuitProofs3 PursuitProofs4 PursuitProofs5 PursuitLemmas PursuitLemmas2 PursuitLemmas3 PursuitProofs6.
Import ListNotations.
Set Implicit Arguments.
Local Open Scope R_scope.

Section Run.
  Variables (m : nat) (D : dictionary) (K : nat) (delta : R) (xs e : vec).
  Hypothesis V : valid_dict m D.
  Hypothesis Lx : length xs = d_n D.
  Hypothesis Le : length e = m.
  Hypothesis Sx : sparse K xs.
  Hypothesis Hd : 0 <= delta < 1.
  Variable lstsq : list vec -> vec -> vec.
  Hypothesis HLS : least_squares_solver lstsq.
  Notation n := (d_n D).
  Notation F := (combine_atoms m D).
  Notation y := (radd (combine_atoms m D xs) e).
  Notation ep := (sqrt (1 + delta) * nrm e).
  Lemma yl7 : length y = m. Proof. rewrite radd_len, (combine_len V). lia. Qed.
  Lemma ep0 : 0 <= ep. Proof. apply Rmult_le_pos; [apply sqrt_pos|apply nrm_pos]. Qed.
  (** the dense vector of a least squares solution *)
  Lemma ls_dense J : in_range D J -> NoDup J -> let u := scatter n J (lstsq (map (d_atom D) J) y) in
    length u = n /\ supp_in J u /\ forall w, length w = n -> supp_in J w -> nrm2 (rsub y (F u)) <= nrm2 (rsub y (F w)).
  Proof.
    intros RJ NJ u. split; [apply scatter_len|]. split; [apply supp_scatter|]. intros w Lw Sw.
    assert (E : scatter n J (gather w J) = w).
    { rewrite <- Lw. rewrite scatter_gather by (rewrite Lw; auto). apply vec_eq; [apply keep_len|]. rewrite keep_len. intros i Hi.
      rewrite keep_nth by auto. destruct (mem i J) eqn:Em; auto. apply mem_nIn in Em. symmetry. now apply Sw. }
    rewrite <- E at 1. unfold u. rewrite !(combine_scatter V); auto; [|now rewrite gather_len|rewrite (ls_len _ V yl7 HLS); auto].
    apply (ls_min _ V yl7 HLS); auto. now rewrite gather_len.
  Qed.
  Lemma missed_nil U : (forall i, xs@i <> 0 -> In i U) -> nrm (rsub xs (keep xs U)) = 0.
  Proof.
    intros H. assert (E : rsub xs (keep xs U) = rzero n).
    { apply vec_eq; [rewrite rsub_len, keep_len, rzero_len; lia|]. rewrite rsub_len, keep_len. intros i Hi.
      rewrite rsub_nth by (now rewrite keep_len). rewrite keep_nth by lia. rewrite rzero_nth. destruct (mem i U) eqn:M; [ring|].
      apply mem_nIn in M. destruct (Req_dec (xs@i) 0) as [->|N]; [ring|]. exfalso. apply M. now apply H. }
    rewrite E. unfold nrm. rewrite rdot_zero_l. apply sqrt_0.
  Qed.
  (** small error: the support contains that of xs *)
  Lemma covers (s : ps) a : (forall i, xs@i <> 0 -> a <= Rabs (xs@i)) -> nrm (rsub (xof D s) xs) < a -> forall i, xs@i <> 0 -> In i (p_I s).
  Proof.
    intros Ha Hn i Hi. destruct (in_dec Nat.eq_dec i (p_I s)) as [|N]; auto. exfalso.
    assert (Bi : (i < n)%nat). { destruct (Nat.lt_ge_cases i n); auto. exfalso. apply Hi. apply nth_overflow. lia. }
    assert (Z : (xof D s)@i = 0) by (now apply supp_scatter).
    assert (Q : Rabs (xs@i) <= nrm (rsub (xof D s) xs)).
    { rewrite <- sqrt_Rsqr_abs. unfold nrm. apply sqrt_le_1_alt. unfold Rsqr.
      rewrite (@rdot_sum n) by (rewrite rsub_len, xof_len; lia).
      apply Rle_trans with (rsum n (fun j => if (j =? i)%nat then xs@i * xs@i else 0)).
      - apply Req_le. rewrite (@rsum_single n i); auto; [now rewrite Nat.eqb_refl|]. intros j _ Hj. destruct (Nat.eqb_spec j i); congruence.
      - apply rsum_le. intros j Hj. destruct (Nat.eqb_spec j i) as [->|]; [|apply Rle_0_sqr].
        rewrite rsub_nth by (rewrite xof_len; lia). rewrite Z. apply Req_le. ring. }
    specialize (Ha i Hi). lra.
  Qed.

  (** *** one iteration *)
  Section One.
    Variables (q S0 : nat).
    Hypothesis HR : rip m D S0 delta.
    Hypothesis HK : (K <= q <= n)%nat.
    Hypothesis HS : (2 * K + q <= S0)%nat.
    Variable s : ps.
    Hypothesis G : good m D y K s.
    Hypothesis HC : correlates D q s.
    Let I3 := p_I s ++ largest_indices (zero_at (d_trans D (p_r s)) (p_I s)) q.
    Let x3 := lstsq (map (d_atom D) I3) y.
    Let u := scatter n I3 x3.
    Let I' := pick I3 (largest_indices x3 K).
    Lemma one_step : NoDup I3 /\ in_range D I3 /\ length x3 = length I3 /\ (K <= length I3)%nat /\
      top_selection (map Rabs u) K I' /\ gather u I' = gather x3 (largest_indices x3 K) /\
      (1 - delta) * nrm (rsub u xs) <= nrm (rsub xs (keep xs I3)) + ep /\
      nrm (rsub xs (keep xs I3)) <= sqrt 2 * (delta * nrm (rsub (xof D s) xs) + ep).
    Proof.
      pose proof yl7 as Ly. assert (HKn : (K <= n)%nat) by lia. destruct G as [C ND]. pose proof (consistent_len V Ly HKn C) as Lr. pose proof (trans_len V _ Lr) as Lt.
      assert (N3 : NoDup I3) by (apply (@fresh m D y K q s); auto; lia).
      assert (R3 : in_range D I3).
      { intros i Hi. apply in_app_or in Hi as [Hi|Hi]; [now apply C|]. apply li_lt in Hi. now rewrite zero_at_len, Lt in Hi. }
      assert (L3 : length I3 = (K + q)%nat).
      { unfold I3. rewrite app_length, li_len, zero_at_len, Lt. destruct C as (C1 & _). lia. }
      assert (Lx3 : length x3 = length I3) by (unfold x3; apply (ls_len _ V Ly HLS); auto).
      destruct (ls_dense R3 N3) as (D1 & D2 & D3). fold x3 in D1, D2, D3. fold u in D1, D2, D3.
      destruct (@pick_top n I3 x3 K N3 R3 Lx3 ltac:(lia)) as (P1 & P2). fold u I' in P1, P2.
      repeat (split; [first [assumption|lia]|]). split.
      - pose proof (@ls_step m D K delta xs e S0 V Lx Le Sx HR (proj1 Hd) I3 u ltac:(lia) D1 D2 D3). exact H.
      - pose proof (@identify m D K delta xs e S0 V Lx Le Sx HR (proj1 Hd) (xof D s) (p_I s) q) as Q. cbn zeta in Q.
        rewrite <- (good_r V (conj C ND)) in Q. apply Q; [apply xof_len|apply supp_scatter|lia|]. destruct C as (C1 & _). lia.
    Qed.
  End One.
  Lemma cosamp_step s s' : rip m D (4 * K) delta -> (2 * K <= n)%nat -> good m D y K s -> correlates D (2 * K) s ->
    cosamp_body lstsq D y K s = Some s' ->
    good m D y K s' /\ nrm (rsub (xof D s') xs) <= cosamp_rate delta * nrm (rsub (xof D s) xs) + cosamp_gain delta * nrm e /\
    (e = rzero m -> (forall i, xs@i <> 0 -> In i (p_I s)) -> nrm (rsub (xof D s') xs) = 0).
  Proof.
    intros HR HK G HC B. pose proof yl7 as Ly. assert (HKn : (K <= n)%nat) by lia. destruct (cosamp_body_ok V Ly HKn HLS (proj1 G) B) as (C' & _).
    destruct (@one_step (2 * K) (4 * K) HR ltac:(lia) ltac:(lia) s G HC) as (N3 & R3 & L3 & K3 & Top & Ga & LS & Id).
    unfold cosamp_body in B. injection B as <-.
    set (I3 := p_I s ++ _) in *. set (x3 := lstsq (map (d_atom D) I3) y) in *. set (I' := pick I3 (largest_indices x3 K)) in *. set (u := scatter n I3 x3) in *.
    assert (Lu : length u = n) by apply scatter_len.
    assert (G' : good m D y K (ps_make D y I' (gather x3 (largest_indices x3 K)) (S (p_it s)) (p_I s))) by (split; [exact C'|apply Top]).
    assert (E : xof D (ps_make D y I' (gather x3 (largest_indices x3 K)) (S (p_it s)) (p_I s)) = keep u I').
    { unfold xof. cbn [ps_make p_I p_x]. rewrite <- Ga, <- Lu. apply scatter_gather. intros i Hi. destruct Top as (_ & _ & T3 & _). rewrite map_length in T3. auto. }
    split; auto. rewrite E. destruct (@prune_step m D K xs e Lx Le Sx u I' Lu Top) as [P1 _].
    pose proof (nrm_pos (rsub u xs)) as Nu. split.
    - eapply Rle_trans; [exact P1|]. unfold cosamp_rate, cosamp_gain.
      apply Rmult_le_reg_l with (1 - delta); [lra|]. apply Rle_trans with (2 * ((1 - delta) * nrm (rsub u xs))); [lra|].
      apply Rle_trans with (2 * (sqrt 2 * (delta * nrm (rsub (xof D s) xs) + ep) + ep)); [lra|].
      apply Req_le. field. lra.
    - intros He Hc. assert (M : nrm (rsub xs (keep xs I3)) = 0) by (apply missed_nil; intros i Hi; apply in_or_app; left; now apply Hc).
      assert (Ze : nrm e = 0) by (rewrite He; unfold nrm; rewrite rdot_zero_l; apply sqrt_0).
      rewrite M, Ze, Rmult_0_r, Rplus_0_r in LS. assert (nrm (rsub u xs) = 0) by nra.
      pose proof (nrm_pos (rsub (keep u I') xs)). lra.
  Qed.
  Lemma sp_step s s' : rip m D (3 * K) delta -> (K <= n)%nat -> good m D y K s -> correlates D K s ->
    sp_body lstsq D y K s = Some s' ->
    good m D y K s' /\ nrm (rsub (xof D s') xs) <= sp_rate delta * nrm (rsub (xof D s) xs) + sp_gain delta * nrm e /\
    (e = rzero m -> (forall i, xs@i <> 0 -> In i (p_I s)) -> nrm (rsub (xof D s') xs) = 0).
  Proof.
    intros HR HK G HC B. pose proof yl7 as Ly. assert (HKn : (K <= n)%nat) by lia. destruct (sp_body_ok V Ly HKn HLS (proj1 G) B) as (C' & _).
    destruct (@one_step K (3 * K) HR ltac:(lia) ltac:(lia) s G HC) as (N3 & R3 & L3 & K3 & Top & Ga & LS & Id).
    unfold sp_body in B. injection B as <-.
    set (I3 := p_I s ++ _) in *. set (x3 := lstsq (map (d_atom D) I3) y) in *. set (I' := pick I3 (largest_indices x3 K)) in *. set (u := scatter n I3 x3) in *.
    assert (Lu : length u = n) by apply scatter_len.
    set (s' := ps_make D y I' _ _ _) in *.
    assert (G' : good m D y K s') by (split; [exact C'|apply Top]).
    assert (NI : NoDup I') by apply Top. assert (RI : in_range D I') by (intros i Hi; destruct Top as (_ & _ & T3 & _); rewrite map_length, Lu in T3; auto).
    assert (LI : length I' = K) by apply Top.
    destruct (ls_dense RI NI) as (D1 & D2 & D3). set (z := scatter n I' (lstsq (map (d_atom D) I') y)) in *.
    change (xof D s') with z. split; auto.
    pose proof (@ls_step m D K delta xs e (3 * K) V Lx Le Sx HR (proj1 Hd) I' z ltac:(lia) D1 D2 D3) as LS2.
    destruct (@prune_step m D K xs e Lx Le Sx u I' Lu Top) as [_ P2].
    pose proof (nrm_pos (rsub u xs)) as Nu. pose proof (nrm_pos (rsub z xs)) as Nz. split.
    - unfold sp_rate, sp_gain. set (d := nrm (rsub (xof D s) xs)) in *.
      apply Rmult_le_reg_l with ((1 - delta) * (1 - delta)); [apply Rmult_lt_0_compat; lra|].
      assert (Q1 : (1 - delta) * ((1 - delta) * nrm (rsub z xs)) <= (1 - delta) * (2 * nrm (rsub u xs) + ep)) by (apply Rmult_le_compat_l; lra).
      apply Rle_trans with (2 * (sqrt 2 * (delta * d + ep) + ep) + (1 - delta) * ep); [lra|].
      apply Req_le. field. lra.
    - intros He Hc. assert (M : nrm (rsub xs (keep xs I3)) = 0) by (apply missed_nil; intros i Hi; apply in_or_app; left; now apply Hc).
      assert (Ze : nrm e = 0) by (rewrite He; unfold nrm; rewrite rdot_zero_l; apply sqrt_0).
      rewrite M, Ze, Rmult_0_r, Rplus_0_r in LS. assert (Zu : nrm (rsub u xs) = 0) by nra.
      rewrite Ze, Zu in *. pose proof (nrm_pos (rsub xs (keep xs I'))). nra.
  Qed.
  (** *** the first estimates *)
  Lemma sub_zero7 : nrm (rsub (rzero n) xs) = nrm xs.
  Proof.
    unfold nrm. f_equal. replace (rsub (rzero n) xs) with (rscale (-1) xs).
    - rewrite rdot_scale_l, rdot_scale_r. ring.
    - apply vec_eq; [rewrite rscale_len, rsub_len, rzero_len; lia|]. rewrite rscale_len. intros i Hi. rewrite rscale_nth, rsub_nth, rzero_nth by (rewrite rzero_len; auto). ring.
  Qed.
  Lemma zero_at_nil h : zero_at h [] = h.
  Proof. apply vec_eq; [apply zero_at_len|]. rewrite zero_at_len. intros i Hi. now rewrite zero_at_nth. Qed.
  Lemma first_ls Q S0 : rip m D S0 delta -> (K <= Q <= n)%nat -> (K + Q <= S0)%nat ->
    let J := largest_indices (d_trans D y) Q in
    NoDup J /\ in_range D J /\ length J = Q /\ nrm (rsub (scatter n J (lstsq (map (d_atom D) J) y)) xs) <= first_error delta xs e.
  Proof.
    intros HR HQ HS J. pose proof yl7 as Ly. pose proof (trans_len V _ Ly) as Lt.
    assert (NJ : NoDup J) by apply li_nodup. assert (RJ : in_range D J) by (intros i Hi; apply li_lt in Hi; now rewrite Lt in Hi).
    assert (LJ : length J = Q) by (unfold J; rewrite li_len; lia). repeat (split; [assumption|]).
    destruct (ls_dense RJ NJ) as (D1 & D2 & D3). set (u := scatter n J _) in *.
    pose proof (@ls_step m D K delta xs e S0 V Lx Le Sx HR (proj1 Hd) J u ltac:(lia) D1 D2 D3) as LS.
    pose proof (@identify m D K delta xs e S0 V Lx Le Sx HR (proj1 Hd) (rzero n) [] Q (rzero_len n)) as Id. cbn zeta in Id.
    rewrite (combine_zero V), zero_at_nil, sub_zero7 in Id. replace (rsub y (rzero m)) with y in Id by veq. fold J in Id. cbn [app length] in Id.
    specialize (Id ltac:(intros i _; apply rzero_nth) ltac:(lia) ltac:(lia)).
    unfold first_error. apply Rmult_le_reg_l with (1 - delta); [lra|].
    apply Rle_trans with (sqrt 2 * (delta * nrm xs + ep) + ep); [lra|]. apply Req_le. field. lra.
  Qed.
  Lemma sp_first : rip m D (3 * K) delta -> (K <= n)%nat ->
    good m D y K (sp_init lstsq D y K) /\ nrm (rsub (xof D (sp_init lstsq D y K)) xs) <= first_error delta xs e.
  Proof.
    intros HR HK. destruct (@first_ls K (3 * K) HR ltac:(lia) ltac:(lia)) as (N & R & L & E).
    destruct (sp_init_ok _ V yl7 HK HLS) as [C _]. split; [split; [exact C|exact N]|exact E].
  Qed.
  Lemma nrm_scatter J (c : vec) : NoDup J -> (forall i, In i J -> (i < n)%nat) -> length c = length J -> nrm2 (scatter n J c) = nrm2 c.
  Proof.
    intros NJ RJ Lc. unfold nrm2. rewrite (@scatter_dot n (scatter n J c) J (scatter_len n J c) c NJ RJ Lc). f_equal.
    apply vec_eq; [rewrite gather_len; lia|]. rewrite gather_len. intros a Ha. rewrite gather_nth by auto.
    assert (Q : forall J c a, NoDup J -> length c = length J -> (a < length J)%nat -> scatter_get J c (nth a J 0%nat) = c@a).
    { clear. induction J as [|b J IH]; intros c a ND L Ha; [simpl in Ha; lia|]. destruct c as [|d c]; [discriminate|]. inversion ND; subst.
      destruct a as [|a]; cbn [nth scatter_get]; [now rewrite Nat.eqb_refl|].
      assert (In (nth a J 0%nat) J) by (apply nth_In; simpl in Ha; lia).
      destruct (Nat.eqb_spec b (nth a J 0%nat)); [congruence|]. rewrite IH; auto; simpl in *; try lia. }
    unfold scatter. rewrite nth_tab by (apply RJ, nth_In; auto). now apply Q.
  Qed.
  (** CoSaMP sorts the first index list without its coefficients, so the first estimate is only bounded *)
  Lemma cosamp_first : rip m D (4 * K) delta -> (3 * K <= n)%nat ->
    good m D y K (cosamp_init lstsq D y K) /\ nrm (rsub (xof D (cosamp_init lstsq D y K)) xs) <= 2 * nrm xs + first_error delta xs e.
  Proof.
    intros HR HK. pose proof yl7 as Ly. destruct (@first_ls (3 * K) (4 * K) HR ltac:(lia) ltac:(lia)) as (N & R & L & E).
    pose proof (@cosamp_init_ok m D y K V Ly ltac:(lia) lstsq HLS) as C. unfold cosamp_init in *.
    set (J := largest_indices (d_trans D y) (3 * K)) in *. set (x3 := lstsq (map (d_atom D) J) y) in *. set (Ia := largest_indices x3 K) in *.
    assert (Lx3 : length x3 = length J) by (apply (ls_len _ V Ly HLS); auto).
    assert (LIa : length Ia = K) by (unfold Ia; rewrite li_len; lia).
    assert (NP : NoDup (pick J Ia)) by (apply pick_nodup; auto; [apply li_nodup|]; intros a Ha; apply li_lt in Ha; lia).
    assert (NS : NoDup (nsort (pick J Ia))) by (apply (Permutation_NoDup (Permutation_sym (nsort_perm _))); auto).
    set (s := ps_make D y (nsort (pick J Ia)) (gather x3 Ia) 1 (seq 0 K)) in *.
    assert (G : good m D y K s) by (split; [exact C|exact NS]). split; auto.
    assert (RS : forall i, In i (nsort (pick J Ia)) -> (i < n)%nat) by apply C.
    assert (Lg : length (gather x3 Ia) = length (nsort (pick J Ia))) by (rewrite gather_len, (Permutation_length (nsort_perm _)), pick_len; auto).
    assert (Q : nrm (xof D s) <= nrm (scatter n J x3)).
    { unfold nrm. apply sqrt_le_1_alt. change (nrm2 (xof D s) <= nrm2 (scatter n J x3)). unfold xof. cbn [s ps_make p_I p_x].
      rewrite (@nrm_scatter _ (gather x3 Ia) NS RS Lg), (@nrm_scatter J x3 N R Lx3).
      rewrite <- (@nrm_scatter (pick J Ia) (gather x3 Ia) NP); [|intros i Hi; apply R; eapply pick_in; [|exact Hi]; intros a Ha; apply li_lt in Ha; lia|rewrite gather_len, pick_len; auto].
      rewrite <- (@nrm_scatter J x3 N R Lx3).
      destruct (@pick_top n J x3 K N R Lx3 ltac:(lia)) as [Tp Gp]. fold Ia in Tp, Gp. rewrite <- Gp.
      rewrite <- (scatter_len n J x3) at 1. rewrite scatter_gather by (intros i Hi; destruct Tp as (_ & _ & T3 & _); rewrite map_length in T3; auto).
      destruct (keep_split (scatter n J x3) (pick J Ia)) as [_ ->]. pose proof (rdot_pos (rsub (scatter n J x3) (keep (scatter n J x3) (pick J Ia)))). unfold nrm2. lra. }
    assert (Lu : length (scatter n J x3) = n) by apply scatter_len.
    assert (Q2 : nrm (scatter n J x3) <= nrm (rsub (scatter n J x3) xs) + nrm xs) by (pose proof (@nrm_triang_sub (scatter n J x3) xs ltac:(lia)); lra).
    assert (Q3 : nrm (rsub (xof D s) xs) <= nrm (xof D s) + nrm xs).
    { replace (rsub (xof D s) xs) with (radd (xof D s) (rscale (-1) xs)) by (pose proof (xof_len D s); veq).
      eapply Rle_trans; [apply nrm_triang; rewrite rscale_len, xof_len; auto|]. apply Rplus_le_compat_l. apply Req_le.
      unfold nrm. f_equal. rewrite rdot_scale_l, rdot_scale_r. ring. }
    lra.
  Qed.
  (** *** runs *)
  Section Loop.
    Variables (cond : ps -> bool) (body : ps -> option ps) (s0 : ps) (rho tau d0 : R) (q : nat).
    Hypothesis G0 : good m D y K s0.
    Hypothesis It0 : p_it s0 = 1%nat.
    Hypothesis E0 : nrm (rsub (xof D s0) xs) <= d0.
    Hypothesis Hrho : 0 <= rho < 1.
    Hypothesis Htau : 0 <= tau.
    Hypothesis Hstep : forall s s', good m D y K s -> correlates D q s -> body s = Some s' ->
      good m D y K s' /\ p_it s' = S (p_it s) /\ nrm (rsub (xof D s') xs) <= rho * nrm (rsub (xof D s) xs) + tau * nrm e /\
      (e = rzero m -> (forall i, xs@i <> 0 -> In i (p_I s)) -> nrm (rsub (xof D s') xs) = 0).
    Hypothesis Hcor : forall k s, reaches cond body s0 k s -> cond s = true -> correlates D q s.
    Lemma loop_err k s : reaches cond body s0 k s ->
      good m D y K s /\ p_it s = S k /\ nrm (rsub (xof D s) xs) <= rho ^ k * d0 + tau / (1 - rho) * nrm e.
    Proof.
      induction 1 as [|k s s' H IH C B].
      - split; auto. split; auto. assert (0 <= tau / (1 - rho) * nrm e); [|simpl; lra].
        apply Rmult_le_pos; [|apply nrm_pos]. apply Rmult_le_pos; auto. apply Rlt_le, Rinv_0_lt_compat. lra.
      - destruct IH as (G & I & E). destruct (Hstep G (Hcor H C) B) as (G' & I' & E' & _).
        split; auto. split; [lia|]. eapply Rle_trans; [exact E'|].
        apply Rle_trans with (rho * (rho ^ k * d0 + tau / (1 - rho) * nrm e) + tau * nrm e).
        + apply Rplus_le_compat_r, Rmult_le_compat_l; lra.
        + apply Req_le. simpl. field. lra.
    Qed.
    Lemma loop_exact a k s : e = rzero m -> reaches cond body s0 (S k) s ->
      (forall i, xs@i <> 0 -> a <= Rabs (xs@i)) -> rho ^ k * d0 < a -> xof D s = xs.
    Proof.
      intros He H Ha Hk. inversion H as [|k' s1 s2 H1 C B]; subst k' s2.
      destruct (loop_err H1) as (G & I & E). assert (Ze : nrm e = 0) by (rewrite He; unfold nrm; rewrite rdot_zero_l; apply sqrt_0).
      rewrite Ze, Rmult_0_r, Rplus_0_r in E. destruct (Hstep G (Hcor H1 C) B) as (_ & _ & _ & X).
      assert (Z : nrm (rsub (xof D s) xs) = 0) by (apply X; auto; apply (@covers s1 a); auto; lra).
      apply nrm_eq0 in Z. apply vec_eq; [rewrite xof_len; lia|]. rewrite xof_len. intros i Hi.
      assert (E2 : (rsub (xof D s) xs)@i = 0) by (rewrite Z; apply rzero_nth). rewrite rsub_nth in E2 by (rewrite xof_len; lia). lra.
    Qed.
  End Loop.
End Run.
