From Coq Require Import List Arith Bool Lia Reals Lra Permutation.
From Verif Require Import Scalar Vec RVec RMat Loop LoopLemmas OptSpec OptModel OptProofs OptProofs2 SortedL1Model SortedL1Proofs CGModel SlsModel SlsProofs SelModel SelSpec SelProofs DictModel DictSpec DictProofs SolverSpec SolverLemmas CGProofs PursuitModel PursuitSpec PursuitSpec2 PursuitProofs PursuitProofs2 PursuitProofs3 PursuitProofs4 PursuitProofs5 PursuitLemmas PursuitLemmas2 PursuitLemmas3.
Import ListNotations.
Set Implicit Arguments.
Local Open Scope R_scope.

Lemma le_of_sq a b : 0 <= a -> 0 <= b -> a * a <= b * a -> a <= b.
Proof.
  intros A B H. destruct (Req_dec a 0) as [->|N]; auto. apply Rmult_le_reg_r with a; [lra|exact H].
Qed.
Lemma nrm_le_sq a c : 0 <= c -> nrm2 a <= c * c -> nrm a <= c.
Proof. intros C H. unfold nrm. rewrite <- (sqrt_square c C). apply sqrt_le_1_alt. exact H. Qed.
Lemma keep_split h J : length (keep h J) = length h /\ nrm2 h = nrm2 (keep h J) + nrm2 (rsub h (keep h J)).
Proof.
  split; [apply keep_len|]. unfold nrm2.
  rewrite !(@rdot_sum (length h)) by (rewrite ?rsub_len, ?keep_len; lia). rewrite <- rsum_add. apply rsum_ext. intros i Hi.
  rewrite rsub_nth by (now rewrite keep_len). rewrite keep_nth by auto. destruct (mem i J); ring.
Qed.
Lemma top_nodup (T : list nat) n K : (length T <= K)%nat ->
  exists T', NoDup T' /\ (forall i, In i T' -> (i < n)%nat /\ In i T) /\ (length T' <= K)%nat /\ forall i, (i < n)%nat -> ~ In i T' -> ~ In i T.
Proof.
  intros LT. exists (filter (fun i => (i <? n)%nat) (nodup Nat.eq_dec T)). split; [apply NoDup_filter, NoDup_nodup|]. split; [|split].
  - intros i Hi. apply filter_In in Hi as [H1 H2]. split; [now apply Nat.ltb_lt|now apply nodup_In in H1].
  - assert (length (nodup Nat.eq_dec T) <= length T)%nat by (apply NoDup_incl_length; [apply NoDup_nodup|]; intros i Hi; now apply nodup_In in Hi).
    assert (length (filter (fun i => (i <? n)%nat) (nodup Nat.eq_dec T)) <= length (nodup Nat.eq_dec T))%nat; [|lia].
    clear. induction (nodup Nat.eq_dec T) as [|a l IH]; simpl; auto. destruct (a <? n)%nat; simpl; lia.
  - intros i Hi Hn C. apply Hn. apply filter_In. split; [now apply nodup_In|now apply Nat.ltb_lt].
Qed.

Section Step.
  Variables (m : nat) (D : dictionary) (K : nat) (delta : R) (xs e : vec) (S0 : nat).
  Hypothesis V : valid_dict m D.
  Hypothesis Lx : length xs = d_n D.
  Hypothesis Le : length e = m.
  Hypothesis Sx : sparse K xs.
  Hypothesis HR : rip m D S0 delta.
  Hypothesis Hd : 0 <= delta.
  Let n := d_n D.
  Let F := combine_atoms m D.
  Let y := radd (F xs) e.
  Let eps := sqrt (1 + delta) * nrm e.
  Lemma yl : length y = m.
  Proof. unfold y, F. rewrite radd_len, (combine_len V). lia. Qed.
  Lemma eps_pos : 0 <= eps. Proof. apply Rmult_le_pos; [apply sqrt_pos|apply nrm_pos]. Qed.
  Lemma noise_le v : length v = n -> sparse S0 v -> rdot e (F v) <= eps * nrm v.
  Proof.
    intros L S. eapply Rle_trans; [apply cauchy_le|]. pose proof (rip_norm HR L S) as N. fold F in N.
    unfold eps. replace (sqrt (1 + delta) * nrm e * nrm v) with (nrm e * (sqrt (1 + delta) * nrm v)) by ring.
    apply Rmult_le_compat_l; auto. apply nrm_pos.
  Qed.
  (** the part of xs missed by the current support and the new indices *)
  Lemma identify x I Q : length x = n -> supp_in I x -> (K <= Q <= n)%nat -> (K + length I + Q <= S0)%nat ->
    let S1 := largest_indices (zero_at (d_trans D (rsub y (F x))) I) Q in
    nrm (rsub xs (keep xs (I ++ S1))) <= sqrt 2 * (delta * nrm (rsub x xs) + eps).
  Proof.
    intros L1 SI HQ HS. set (h := d_trans D (rsub y (F x))). intros S1. pose proof yl as Ly.
    assert (LF : forall z, length (F z) = m) by (intros; apply (combine_len V)).
    assert (Lr : length (rsub y (F x)) = m) by (rewrite rsub_len, LF; lia).
    assert (Lh : length h = n) by (apply (trans_len V); auto).
    set (hz := zero_at h I) in *. assert (Lhz : length hz = n) by (unfold hz; now rewrite zero_at_len).
    destruct Sx as [T [LT ST]]. destruct (@top_nodup T n K LT) as (T0 & NT0 & BT0 & LT0 & ST0).
    (* the positions of xs outside the current support *)
    set (T' := filter (fun i => negb (mem i I)) T0).
    assert (NT' : NoDup T') by (now apply NoDup_filter).
    assert (BT' : forall i, In i T' -> (i < n)%nat) by (intros i Hi; apply filter_In in Hi as [Hi _]; now apply BT0).
    assert (LT' : (length T' <= Q)%nat).
    { assert (length T' <= length T0)%nat; [|lia]. unfold T'. clear. induction T0 as [|a l IH]; simpl; auto. destruct (negb _); simpl; lia. }
    assert (MT' : forall i, (i < n)%nat -> mem i T' = false -> mem i I = false -> xs@i = 0).
    { intros i Hi M1 M2. apply ST. apply ST0; auto. intros C. apply mem_nIn in M1. apply M1. apply filter_In. now rewrite M2. }
    set (g := rsub (radd x h) xs). assert (Lg : length g = n) by (unfold g; rewrite rsub_len, radd_len; unfold n in *; lia).
    assert (Top : top_selection (map (fun a => a * a) hz) Q S1) by (apply top_sq, largest_top; lia).
    set (a2 := map (fun a => a * a) hz) in *. assert (Ai : forall i, a2@i = hz@i * hz@i) by (intros i; unfold a2; apply (map_nth0 (fun t => t * t)); ring).
    assert (La2 : length a2 = n) by (unfold a2; now rewrite map_length).
    pose proof (@top_sum a2 Q S1 T' ltac:(intros; rewrite Ai; apply Rle_0_sqr) Top NT' ltac:(rewrite La2; auto) LT') as Hs.
    destruct Top as (NS & LS & BS & _). rewrite La2 in BS.
    rewrite !(@isum_indicator n) in Hs by auto.
    assert (AB : rsum n (fun i => if mem i T' then (if mem i S1 then 0 else hz@i * hz@i) else 0) <=
                 rsum n (fun i => if mem i S1 then (if mem i T' then 0 else hz@i * hz@i) else 0)).
    { apply Rminus_le. apply Rle_minus in Hs. eapply Rle_trans; [|exact Hs]. apply Req_le. rewrite <- !rsum_sub. apply rsum_ext. intros i _. rewrite Ai.
      destruct (mem i T'), (mem i S1); ring. }
    set (ind := fun i => negb (mem i I) && xorb (mem i T') (mem i S1)).
    set (gP := tab n (fun i => if ind i then g@i else 0)). assert (LgP : length gP = n) by apply tab_length.
    assert (Hgi : forall i, (i < n)%nat -> g@i = x@i + h@i - xs@i).
    { intros i Hi. unfold g. rewrite rsub_nth by (rewrite radd_len; unfold n in *; lia). rewrite radd_nth by lia. ring. }
    assert (Hx0 : forall i, mem i I = false -> x@i = 0) by (intros i Hi; apply SI; now apply mem_nIn).
    assert (B2 : nrm2 (rsub xs (keep xs (I ++ S1))) <= 2 * nrm2 gP).
    { set (E1 := rsum n (fun i => if mem i T' then (if mem i S1 then 0 else g@i * g@i) else 0)).
      apply Rle_trans with (2 * rsum n (fun i => if mem i T' then (if mem i S1 then 0 else hz@i * hz@i) else 0) + 2 * E1).
      - unfold nrm2. rewrite (@rdot_sum n) by (rewrite rsub_len, keep_len; unfold n; lia). unfold E1. rewrite <- !rsum_mul_l, <- rsum_add. apply rsum_le. intros i Hi.
        rewrite rsub_nth by (rewrite keep_len; unfold n in *; lia). rewrite keep_nth by (unfold n in *; lia).
        assert (Em : mem i (I ++ S1) = mem i I || mem i S1) by (unfold mem; apply existsb_app). rewrite Em.
        destruct (mem i T') eqn:M1.
        + assert (M0 : mem i I = false). { apply mem_In in M1. apply filter_In in M1 as [_ M1]. now destruct (mem i I). }
          rewrite M0. cbn [orb]. destruct (mem i S1); [lra|]. rewrite Hgi, (Hx0 i M0) by auto. unfold hz. rewrite zero_at_nth by lia. rewrite M0.
          pose proof (Rle_0_sqr (h@i + (h@i - xs@i))). unfold Rsqr in *. lra.
        + destruct (mem i I) eqn:M0; cbn [orb]; [lra|]. rewrite (MT' i Hi M1 M0). destruct (mem i S1); lra.
      - apply Rle_trans with (2 * rsum n (fun i => if mem i S1 then (if mem i T' then 0 else hz@i * hz@i) else 0) + 2 * E1); [lra|].
        apply Req_le. unfold E1, nrm2. rewrite (@rdot_sum n) by auto. rewrite <- Rmult_plus_distr_l, <- rsum_add. f_equal. apply rsum_ext. intros i Hi.
        unfold gP. rewrite nth_tab by auto. unfold ind. unfold hz. rewrite zero_at_nth by lia.
        destruct (mem i I) eqn:M0.
        + destruct (mem i T') eqn:M1.
          { apply mem_In in M1. apply filter_In in M1 as [_ M1]. rewrite M0 in M1. discriminate. }
          cbn [negb andb]. destruct (mem i S1); ring.
        + cbn [negb andb]. destruct (mem i T') eqn:M1, (mem i S1); cbn [xorb]; try ring.
          rewrite Hgi, (Hx0 i M0), (MT' i Hi M1 M0) by auto. ring. }
    assert (Egp : nrm2 gP = rdot g gP).
    { unfold nrm2. rewrite !(@rdot_sum n) by auto. apply rsum_ext. intros i Hi. unfold gP. rewrite nth_tab by auto. destruct (ind i); ring. }
    set (J := T0 ++ I ++ S1).
    assert (LJ : (length J <= S0)%nat) by (unfold J; rewrite !app_length; lia).
    assert (SgP : supp_in J gP).
    { intros i Hi. destruct (Nat.lt_ge_cases i n); [|apply nth_overflow; lia]. unfold gP. rewrite nth_tab by auto. unfold ind.
      assert (M1 : mem i T' = false) by (apply mem_nIn; intros C; apply Hi, in_or_app; left; now apply filter_In in C).
      assert (M2 : mem i S1 = false) by (apply mem_nIn; intros C; apply Hi, in_or_app; right; apply in_or_app; now right).
      rewrite M1, M2. cbn [xorb]. now rewrite andb_false_r. }
    assert (Sw : supp_in J (rsub x xs)).
    { apply supp_sub; [unfold n in *; lia| |].
      - apply (supp_mono SI). intros i Hi. apply in_or_app. right. apply in_or_app. now left.
      - intros i Hi. destruct (Nat.lt_ge_cases i n); [|apply nth_overflow; unfold n in *; lia]. apply ST. apply ST0; auto. intros C. apply Hi, in_or_app. now left. }
    assert (NgP : nrm gP <= delta * nrm (rsub x xs) + eps).
    { pose proof (nrm_pos gP). pose proof (nrm_pos (rsub x xs)). pose proof eps_pos.
      apply le_of_sq; auto; [apply Rplus_le_le_0_compat; auto; now apply Rmult_le_pos|].
      pose proof (rip_bilinear V HR LJ (w := rsub x xs) (v := gP) ltac:(rewrite rsub_len; unfold n in *; lia) LgP Sw SgP) as Bl. fold F in Bl.
      pose proof (Rle_abs (rdot (rsub x xs) gP - rdot (F (rsub x xs)) (F gP))) as Ab.
      pose proof (@noise_le gP LgP (supp_sparse SgP LJ)) as Ne.
      rewrite nrm_sq. unfold nrm2 in Egp. rewrite Egp.
      assert (Gd : rdot g gP = rdot (rsub x xs) gP - rdot (F (rsub x xs)) (F gP) + rdot e (F gP)).
      { unfold g. rewrite rdot_sub_l by (rewrite radd_len; unfold n in *; lia). rewrite rdot_add_l by lia.
        assert (Eh : rdot h gP = rdot (rsub y (F x)) (F gP)).
        { rewrite (rdot_sym h), (rdot_sym _ (F gP)). symmetry. apply (combine_adj V); auto. }
        rewrite Eh. rewrite rdot_sub_l by (rewrite LF; lia). unfold y. rewrite rdot_add_l by (rewrite LF; lia).
        replace (F (rsub x xs)) with (rsub (F x) (F xs)) by (symmetry; apply (combine_sub V); unfold n in *; lia).
        rewrite !rdot_sub_l by (rewrite ?LF; unfold n in *; lia). ring. }
      rewrite Gd. rewrite Rmult_plus_distr_r. lra. }
    assert (R0 : 0 <= delta * nrm (rsub x xs) + eps) by (pose proof (nrm_pos gP); lra).
    apply nrm_le_sq; [apply Rmult_le_pos; auto; apply sqrt_pos|].
    eapply Rle_trans; [exact B2|]. replace (sqrt 2 * (delta * nrm (rsub x xs) + eps) * (sqrt 2 * (delta * nrm (rsub x xs) + eps)))
      with ((sqrt 2 * sqrt 2) * ((delta * nrm (rsub x xs) + eps) * (delta * nrm (rsub x xs) + eps))) by ring.
    rewrite sqrt_sqrt by lra. apply Rmult_le_compat_l; [lra|]. unfold nrm2. rewrite <- nrm_sq. pose proof (nrm_pos gP). apply Rmult_le_compat; auto.
  Qed.
  (** least squares over U *)
  Lemma ls_step U z : (K + length U <= S0)%nat -> length z = n -> supp_in U z ->
    (forall w, length w = n -> supp_in U w -> nrm2 (rsub y (F z)) <= nrm2 (rsub y (F w))) ->
    (1 - delta) * nrm (rsub z xs) <= nrm (rsub xs (keep xs U)) + eps.
  Proof.
    intros HS Lz SU Min. pose proof yl as Ly.
    assert (LF : forall z, length (F z) = m) by (intros; apply (combine_len V)).
    set (v := rsub z xs). assert (Lv : length v = n) by (unfold v; rewrite rsub_len; unfold n in *; lia).
    set (vU := keep v U). assert (LvU : length vU = n) by (unfold vU; now rewrite keep_len).
    set (r := rsub y (F z)). assert (Lr : length r = m) by (unfold r; rewrite rsub_len, LF; lia).
    assert (Or : rdot r (F vU) = 0).
    { assert (Q : forall t, 0 <= t * t * nrm2 (F vU) - 2 * t * rdot r (F vU)).
      { intros t. pose proof (Min (radd z (rscale t vU)) ltac:(rewrite radd_len, rscale_len; lia)) as M.
        assert (M' : nrm2 r <= nrm2 (rsub y (F (radd z (rscale t vU))))).
        { apply M. apply supp_add; auto; [rewrite rscale_len; lia|]. apply supp_scale, supp_keep. }
        assert (E2 : rsub y (F (radd z (rscale t vU))) = rsub r (rscale t (F vU))).
        { unfold r, F. rewrite (combine_add V), (combine_scale V) by (rewrite ?rscale_len; lia). fold (F z) (F vU). pose proof (LF z). pose proof (LF vU). veq. }
        rewrite E2 in M'. unfold nrm2 in *.
        rewrite rdot_sub_l, !rdot_sub_r, !rdot_scale_l, !rdot_scale_r in M' by (rewrite rscale_len, !LF; lia). rewrite (rdot_sym (F vU) r) in M'. lra. }
      set (a := rdot r (F vU)) in *. set (b := nrm2 (F vU)) in *. assert (B0 : 0 <= b) by apply rdot_pos.
      destruct (Req_dec b 0) as [Zb|Nb].
      - pose proof (Q 1). pose proof (Q (-1)). rewrite Zb in *. lra.
      - pose proof (Q (a / b)) as Q1. assert (E : a / b * (a / b) * b - 2 * (a / b) * a = - (a * a) / b) by (field; lra).
        rewrite E in Q1. assert (a * a <= 0).
        { apply Rmult_le_reg_r with (/ b); [apply Rinv_0_lt_compat; lra|]. unfold Rdiv in Q1. lra. }
        apply Rsqr_0_uniq. unfold Rsqr. pose proof (Rle_0_sqr a). unfold Rsqr in *. lra. }
    destruct Sx as [T [LT ST]]. set (J := T ++ U).
    assert (LJ : (length J <= S0)%nat) by (unfold J; rewrite app_length; lia).
    assert (SvJ : supp_in J v).
    { apply supp_sub; [unfold n in *; lia| |]; [apply (supp_mono SU); intros i Hi; apply in_or_app; now right|].
      intros i Hi. apply ST. intros C. apply Hi, in_or_app. now left. }
    assert (SvU : supp_in J vU) by (apply (supp_mono (@supp_keep v U)); intros i Hi; apply in_or_app; now right).
    assert (N1 : nrm vU <= delta * nrm v + eps).
    { pose proof (nrm_pos vU). pose proof (nrm_pos v). pose proof eps_pos.
      apply le_of_sq; auto; [apply Rplus_le_le_0_compat; auto; now apply Rmult_le_pos|].
      pose proof (rip_bilinear V HR LJ Lv LvU SvJ SvU) as Bl. fold F in Bl.
      pose proof (Rle_abs (rdot v vU - rdot (F v) (F vU))) as Ab.
      pose proof (@noise_le vU LvU (supp_sparse SvU LJ)) as Ne.
      assert (E1 : rdot r (F vU) = rdot e (F vU) - rdot (F v) (F vU)).
      { unfold r. rewrite rdot_sub_l by (rewrite LF; lia). unfold y. rewrite rdot_add_l by (rewrite LF; lia).
        replace (F v) with (rsub (F z) (F xs)) by (symmetry; apply (combine_sub V); unfold n in *; lia).
        rewrite rdot_sub_l by (rewrite !LF; lia). ring. }
      assert (E : rdot v vU = nrm vU * nrm vU) by (rewrite nrm_sq, rdot_sym; unfold vU; now apply keep_dot).
      rewrite Rmult_plus_distr_r. lra. }
    assert (N2 : nrm v <= nrm vU + nrm (rsub xs (keep xs U))).
    { replace v with (radd vU (rsub v vU)) at 1 by veq.
      eapply Rle_trans; [apply nrm_triang; rewrite rsub_len; lia|]. apply Rplus_le_compat_l. apply Req_le.
      assert (E : rsub v vU = rsub (keep xs U) xs).
      { apply vec_eq; [rewrite !rsub_len, keep_len; unfold n in *; lia|]. rewrite rsub_len, Lv, LvU, Nat.min_id. intros i Hi.
        rewrite !rsub_nth by (rewrite ?keep_len; unfold n in *; lia). unfold vU. rewrite !keep_nth by (unfold n in *; lia). unfold v. rewrite rsub_nth by (unfold n in *; lia).
        destruct (mem i U) eqn:M; [ring|]. apply mem_nIn in M. rewrite (SU i M). ring. }
      rewrite E. apply nrm_sub_sym. now rewrite keep_len. }
    fold v. lra.
  Qed.
  (** keeping K largest entries *)
  Lemma prune_step u I : length u = n -> top_selection (map Rabs u) K I ->
    nrm (rsub (keep u I) xs) <= 2 * nrm (rsub u xs) /\ nrm (rsub xs (keep xs I)) <= 2 * nrm (rsub u xs).
  Proof.
    intros Lu Top. pose proof (@best_k_term u K I xs Top Sx ltac:(unfold n in *; lia)) as B.
    assert (B' : nrm (rsub u (keep u I)) <= nrm (rsub u xs)) by (unfold nrm; apply sqrt_le_1_alt; exact B).
    assert (Q1 : nrm (rsub (keep u I) xs) <= 2 * nrm (rsub u xs)).
    { replace (rsub (keep u I) xs) with (radd (rsub (keep u I) u) (rsub u xs)).
      - eapply Rle_trans; [apply nrm_triang; rewrite !rsub_len, keep_len; unfold n in *; lia|].
        rewrite (@nrm_sub_sym (keep u I)) by apply keep_len. lra.
      - pose proof (keep_len u I). unfold n in *. veq. }
    split; auto. eapply Rle_trans; [|exact Q1]. unfold nrm. apply sqrt_le_1_alt.
    rewrite !(@rdot_sum n) by (rewrite rsub_len, keep_len; unfold n in *; lia). apply rsum_le. intros i Hi.
    rewrite !rsub_nth by (rewrite keep_len; unfold n in *; lia). rewrite !keep_nth by (unfold n in *; lia). destruct (mem i I).
    - replace ((xs @ i - xs @ i) * (xs @ i - xs @ i)) with 0 by ring. apply Rle_0_sqr.
    - lra.
  Qed.
End Step.
(** the K largest coefficients, listed by position in J, are the K largest entries of the dense vector *)
Lemma pick_top n J c K : NoDup J -> (forall i, In i J -> (i < n)%nat) -> length c = length J -> (K <= length J)%nat ->
  top_selection (map Rabs (scatter n J c)) K (pick J (largest_indices c K)) /\
  gather (scatter n J c) (pick J (largest_indices c K)) = gather c (largest_indices c K).
Proof.
  intros ND RJ Lc HK. destruct (@largest_top c K ltac:(lia)) as (T1 & T2 & T3 & T4). rewrite map_length in *.
  assert (G : forall J c a, NoDup J -> length c = length J -> (a < length J)%nat -> scatter_get J c (nth a J 0%nat) = c@a).
  { clear. induction J as [|b J IH]; intros c a ND L Ha; [simpl in Ha; lia|]. destruct c as [|d c]; [discriminate|]. inversion ND; subst.
    destruct a as [|a]; cbn [nth scatter_get].
    - now rewrite Nat.eqb_refl.
    - assert (In (nth a J 0%nat) J) by (apply nth_In; simpl in Ha; lia).
      destruct (Nat.eqb_spec b (nth a J 0%nat)); [congruence|]. rewrite IH; auto; simpl in *; try lia. }
  assert (Ge : forall a, (a < length J)%nat -> (scatter n J c)@(nth a J 0%nat) = c@a).
  { intros a Ha. unfold scatter. rewrite nth_tab by (apply RJ, nth_In; auto). now apply G. }
  split.
  - repeat split.
    + apply pick_nodup; auto. intros a Ha. apply T3 in Ha. lia.
    + now rewrite pick_len.
    + rewrite map_length, scatter_len. intros i Hi. apply RJ. eapply pick_in; [|exact Hi]. intros a Ha. apply T3 in Ha. lia.
    + rewrite map_length, scatter_len. intros i j Hi Hj Nj. unfold pick in Hi. apply in_map_iff in Hi as (a & <- & Ha).
      pose proof (T3 a Ha) as Ba. rewrite !(map_nth0 Rabs) by apply Rabs_R0. rewrite Ge by lia.
      destruct (in_dec Nat.eq_dec j J) as [Ij|Nj2].
      * destruct (In_nth _ _ 0%nat Ij) as (b & Bb & <-). rewrite Ge by auto. specialize (T4 a b Ha ltac:(lia)).
        rewrite !(map_nth0 Rabs) in T4 by apply Rabs_R0. apply T4. intros C. apply Nj. unfold pick. apply in_map_iff. eauto.
      * unfold scatter. rewrite nth_tab by auto. rewrite scatter_get_notin by auto. rewrite Rabs_R0. apply Rabs_pos.
  - unfold gather, pick. rewrite map_map. apply map_ext_in. intros a Ha. apply Ge. apply T3 in Ha. lia.
Qed.
(** enough correlated atoms make the new indices new *)
Lemma fresh m D y K q s : valid_dict m D -> length y = m -> (K <= d_n D)%nat -> (q <= d_n D)%nat -> consistent m D y K s -> NoDup (p_I s) -> correlates D q s ->
  NoDup (p_I s ++ largest_indices (zero_at (d_trans D (p_r s)) (p_I s)) q).
Proof.
  intros V Ly HK Hq C ND (J & NJ & LJ & HJ). pose proof (consistent_len V Ly HK C) as Lr. pose proof (trans_len V _ Lr) as Lt.
  destruct (@largest_top (zero_at (d_trans D (p_r s)) (p_I s)) q) as (T1 & T2 & T3 & T4); [rewrite zero_at_len; lia|].
  rewrite map_length, zero_at_len, Lt in *.
  apply (app_nodup _ V Ly); auto. intros i Hi Ci.
  assert (Inc : incl (i :: J) (largest_indices (zero_at (d_trans D (p_r s)) (p_I s)) q)).
  { intros j [<-|Hj]; auto. destruct (HJ j Hj) as (Bj & Nj & Cj).
    destruct (in_dec Nat.eq_dec j (largest_indices (zero_at (d_trans D (p_r s)) (p_I s)) q)) as [|Nl]; auto. exfalso.
    specialize (T4 i j Ci Bj Nl). pose proof (T3 i Ci) as Bi.
    rewrite !(map_nth0 Rabs) in T4 by apply Rabs_R0. rewrite !zero_at_nth in T4 by lia.
    rewrite (proj2 (mem_in i (p_I s)) Hi), Rabs_R0 in T4. assert (M : mem j (p_I s) = false) by (now apply mem_nIn). rewrite M in T4.
    rewrite (trans_nth V) in T4 by auto. apply Rabs_pos_lt in Cj. lra. }
  apply NoDup_incl_length in Inc; [simpl in Inc; lia|]. constructor; auto. intros C'. exact (proj1 (proj2 (HJ i C')) Hi).
Qed.
