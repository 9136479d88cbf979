From Coq Require Import List Arith Bool Lia Reals Lra Permutation.
From Verif Require Import Scalar Vec RVec RMat Loop LoopLemmas OptSpec OptModel OptProofs OptProofs2 SortedL1Model SortedL1Proofs CGModel SlsModel SelModel SelSpec SelProofs DictModel DictSpec DictProofs SolverSpec CGProofs PursuitModel PursuitSpec PursuitProofs PursuitProofs2 PursuitProofs4.
Import ListNotations.
Set Implicit Arguments.
Local Open Scope R_scope.

(** z vanishes outside J *)
Definition supp_in (J : list nat) (z : vec) : Prop := forall i, ~ In i J -> z@i = 0.
Lemma supp_sparse J z S : supp_in J z -> (length J <= S)%nat -> sparse S z.
Proof. intros H L. exists J. auto. Qed.
Lemma supp_mono J J' z : supp_in J z -> incl J J' -> supp_in J' z.
Proof. intros H HI i Hi. apply H. intros C. now apply Hi, HI. Qed.
Lemma supp_sub J a b : length a = length b -> supp_in J a -> supp_in J b -> supp_in J (rsub a b).
Proof. intros L Ha Hb i Hi. rewrite rsub_nth, Ha, Hb by auto. ring. Qed.
Lemma supp_add J a b : length a = length b -> supp_in J a -> supp_in J b -> supp_in J (radd a b).
Proof. intros L Ha Hb i Hi. rewrite radd_nth, Ha, Hb by auto. ring. Qed.
Lemma supp_scale J c a : supp_in J a -> supp_in J (rscale c a).
Proof. intros Ha i Hi. rewrite rscale_nth, Ha by auto. ring. Qed.
Lemma supp_scatter n J x : supp_in J (scatter n J x).
Proof.
  intros i H. unfold scatter. destruct (Nat.lt_ge_cases i n); [rewrite nth_tab by auto; now apply scatter_get_notin|].
  apply nth_overflow. now rewrite tab_length.
Qed.
Lemma supp_keep h J : supp_in J (keep h J).
Proof.
  intros i H. destruct (Nat.lt_ge_cases i (length h)); [|apply nth_overflow; now rewrite keep_len].
  rewrite keep_nth by auto. apply mem_nIn in H. now rewrite H.
Qed.
Lemma keep_sub a b J : length a = length b -> keep (rsub a b) J = rsub (keep a J) (keep b J).
Proof.
  intros L. apply vec_eq; [rewrite keep_len, !rsub_len, !keep_len; lia|]. rewrite keep_len, rsub_len. intros i Hi.
  rewrite keep_nth by (rewrite rsub_len; lia). rewrite !rsub_nth by (rewrite ?keep_len; lia). rewrite !keep_nth by lia. destruct (mem i J); ring.
Qed.
Lemma keep_dot a b J : length a = length b -> rdot (keep a J) b = rdot (keep a J) (keep b J).
Proof.
  intros L. rewrite !(@rdot_sum (length a)) by (rewrite ?keep_len; auto). apply rsum_ext. intros i Hi.
  rewrite !keep_nth by lia. destruct (mem i J); ring.
Qed.

Section RIP.
  Variables (m : nat) (D : dictionary).
  Hypothesis V : valid_dict m D.
  Let n := d_n D.
  Let F := combine_atoms m D.
  Variables (S0 : nat) (delta : R).
  Hypothesis HR : rip m D S0 delta.
  (** near-isometry of the bilinear form on vectors with a common small support *)
  Lemma rip_bilinear J w v : (length J <= S0)%nat -> length w = n -> length v = n -> supp_in J w -> supp_in J v ->
    Rabs (rdot w v - rdot (F w) (F v)) <= delta * (nrm w * nrm v).
  Proof.
    intros LJ Lw Lv Sw Sv.
    set (b := rdot w v - rdot (F w) (F v)). set (W := nrm w). set (X := nrm v).
    assert (W0 : 0 <= W) by apply nrm_pos. assert (X0 : 0 <= X) by apply nrm_pos.
    assert (LF : forall z, length (F z) = m) by (intros; apply (combine_len V)).
    destruct (Req_dec W 0) as [EW|NW].
    { assert (w = rzero n) by (rewrite <- Lw; now apply nrm_eq0). subst w. unfold b, F. unfold n. rewrite (combine_zero V), !rdot_zero_l.
      rewrite Rminus_0_r, Rabs_R0, EW. lra. }
    destruct (Req_dec X 0) as [EX|NX].
    { assert (v = rzero n) by (rewrite <- Lv; now apply nrm_eq0). subst v. unfold b, F. unfold n. rewrite (combine_zero V), !rdot_zero_r.
      rewrite Rminus_0_r, Rabs_R0, EX. lra. }
    set (p := radd (rscale X w) (rscale W v)). set (q := rsub (rscale X w) (rscale W v)).
    assert (Lp : length p = n) by (unfold p; rewrite radd_len, !rscale_len; lia).
    assert (Lq : length q = n) by (unfold q; rewrite rsub_len, !rscale_len; lia).
    assert (Sp : sparse S0 p) by (apply (@supp_sparse J); auto; apply supp_add; try apply supp_scale; auto; rewrite !rscale_len; lia).
    assert (Sq : sparse S0 q) by (apply (@supp_sparse J); auto; apply supp_sub; try apply supp_scale; auto; rewrite !rscale_len; lia).
    pose proof (@HR p Lp Sp) as Rp. pose proof (@HR q Lq Sq) as Rq.
    fold (F p) in Rp. fold (F q) in Rq.
    assert (Fp : F p = radd (rscale X (F w)) (rscale W (F v))).
    { unfold p, F. rewrite (combine_add V) by (rewrite !rscale_len; lia). now rewrite !(combine_scale V). }
    assert (Fq : F q = rsub (rscale X (F w)) (rscale W (F v))).
    { unfold q, F. rewrite (combine_sub V) by (rewrite !rscale_len; lia). now rewrite !(combine_scale V). }
    assert (E1 : nrm2 p = X*X*(W*W) + 2*(X*W)*rdot w v + W*W*(X*X)).
    { unfold nrm2, p. rewrite rdot_add_l, !rdot_add_r, !rdot_scale_l, !rdot_scale_r by (rewrite !rscale_len; lia).
      rewrite <- (nrm_sq w), <- (nrm_sq v). fold W X. rewrite (rdot_sym v w). ring. }
    assert (E2 : nrm2 q = X*X*(W*W) - 2*(X*W)*rdot w v + W*W*(X*X)).
    { unfold nrm2, q. rewrite rdot_sub_l, !rdot_sub_r, !rdot_scale_l, !rdot_scale_r by (rewrite !rscale_len; lia).
      rewrite <- (nrm_sq w), <- (nrm_sq v). fold W X. rewrite (rdot_sym v w). ring. }
    assert (E3 : nrm2 (F p) = X*X*rdot (F w) (F w) + 2*(X*W)*rdot (F w) (F v) + W*W*rdot (F v) (F v)).
    { rewrite Fp. unfold nrm2. rewrite rdot_add_l, !rdot_add_r, !rdot_scale_l, !rdot_scale_r by (rewrite !rscale_len, !LF; lia).
      rewrite (rdot_sym (F v) (F w)). ring. }
    assert (E4 : nrm2 (F q) = X*X*rdot (F w) (F w) - 2*(X*W)*rdot (F w) (F v) + W*W*rdot (F v) (F v)).
    { rewrite Fq. unfold nrm2. rewrite rdot_sub_l, !rdot_sub_r, !rdot_scale_l, !rdot_scale_r by (rewrite !rscale_len, !LF; lia).
      rewrite (rdot_sym (F v) (F w)). ring. }
    assert (K : 4 * (X * W) * b = (nrm2 p - nrm2 (F p)) - (nrm2 q - nrm2 (F q))) by (rewrite E1, E2, E3, E4; unfold b; ring).
    assert (K2 : Rabs (4 * (X * W) * b) <= delta * (4 * (X * W) * (X * W))).
    { rewrite K. eapply Rle_trans; [apply Rabs_triang|]. rewrite Rabs_Ropp.
      rewrite (Rabs_minus_sym (nrm2 p)), (Rabs_minus_sym (nrm2 q)).
      replace (delta * (4 * (X * W) * (X * W))) with (delta * nrm2 p + delta * nrm2 q) by (rewrite E1, E2; ring). lra. }
    assert (P : 0 < 4 * (X * W)) by (assert (0 < X * W) by (apply Rmult_lt_0_compat; lra); lra).
    rewrite Rabs_mult, (Rabs_right (4 * (X * W))) in K2 by lra.
    apply Rmult_le_reg_l with (4 * (X * W)); auto. eapply Rle_trans; [exact K2|]. apply Req_le. ring.
  Qed.
  Lemma rip_norm v : length v = n -> sparse S0 v -> nrm (F v) <= sqrt (1 + delta) * nrm v.
  Proof.
    intros L S. unfold nrm.
    assert (B : nrm2 (F v) <= (1 + delta) * nrm2 v).
    { pose proof (Rle_abs (nrm2 (F v) - nrm2 v)). pose proof (@HR v L S) as H'. fold (F v) in H'. lra. }
    destruct (Rle_lt_dec 0 (1 + delta)) as [P|P].
    - rewrite <- sqrt_mult by (auto; apply rdot_pos). apply sqrt_le_1_alt. exact B.
    - assert (Z : rdot (F v) (F v) = 0).
      { pose proof (rdot_pos (F v)). pose proof (rdot_pos v). unfold nrm2 in B. nra. }
      rewrite Z, sqrt_0. apply Rmult_le_pos; apply sqrt_pos.
  Qed.
End RIP.

Section IHT.
  Variables (m : nat) (D : dictionary) (y : vec) (K : nat) (mu : R).
  Hypothesis V : valid_dict m D.
  Hypothesis Ly : length y = m.
  Hypothesis HK : (K <= d_n D)%nat.
  Let n := d_n D.
  Let F := combine_atoms m D.
  Definition xof (s : ps) : vec := scatter n (p_I s) (p_x s).
  Definition grad_pt (x : vec) : vec := radd x (rscale mu (d_trans D (rsub y (F x)))).
  Definition good (s : ps) : Prop := consistent m D y K s /\ NoDup (p_I s).
  Lemma xof_len s : length (xof s) = n. Proof. apply scatter_len. Qed.
  Lemma good_r s : good s -> p_r s = rsub y (F (xof s)).
  Proof.
    intros ((C1 & C2 & C3 & C4 & C5) & ND). rewrite C4. unfold F, xof. unfold n.
    rewrite (combine_scatter V); auto. congruence.
  Qed.
  Lemma F_len x : length (F x) = m. Proof. apply (combine_len V). Qed.
  Lemma resid_len x : length (rsub y (F x)) = m. Proof. rewrite rsub_len, F_len. lia. Qed.
  Lemma grad_len x : length x = n -> length (grad_pt x) = n.
  Proof. intros L. unfold grad_pt. rewrite radd_len, rscale_len, (trans_len V) by apply resid_len. unfold n in *. lia. Qed.
  Lemma iht_body_x s s' : good s -> iht_body D y K (Some mu) s = Some s' ->
    good s' /\ p_I s' = largest_indices (grad_pt (xof s)) K /\ xof s' = keep (grad_pt (xof s)) (p_I s').
  Proof.
    intros G B. destruct (iht_body_ok V Ly HK _ (proj1 G) B) as (C' & ND & _). split; [split; auto|].
    unfold iht_body in B. cbn [get_step_size hard_threshold] in B. fold n in B. fold (xof s) in B. rewrite (good_r G) in B. 
    fold (grad_pt (xof s)) in B. injection B as <-. cbn [ps_make p_I]. split; [reflexivity|].
    unfold xof at 1. cbn [ps_make p_I p_x]. rewrite <- (grad_len _ (xof_len s)). apply scatter_gather. intros i Hi. now apply li_lt in Hi.
  Qed.
  Lemma iht_init_x s : iht_init D y K (Some mu) = Some s ->
    good s /\ p_I s = largest_indices (grad_pt (rzero n)) K /\ xof s = keep (grad_pt (rzero n)) (p_I s).
  Proof.
    intros B. destruct (iht_init_ok y V Ly HK _ B) as (C' & ND & _). split; [split; auto|].
    assert (E : rscale mu (d_trans D y) = grad_pt (rzero n)).
    { unfold grad_pt. unfold F, n. rewrite (combine_zero V).
      replace (rsub y (rzero m)) with y by veq. pose proof (trans_len V y Ly) as Lt. veq. }
    unfold iht_init in B. cbn [get_step_size hard_threshold] in B. rewrite E in B. injection B as <-. cbn [ps_make p_I].
    split; [reflexivity|]. unfold xof. cbn [ps_make p_I p_x]. set (u := grad_pt (rzero n)) in *.
    assert (Lu : length u = n) by (apply grad_len, rzero_len). rewrite <- Lu. apply scatter_gather. intros i Hi. now apply li_lt in Hi.
  Qed.
  (** thresholding is at least as close to the gradient point as any K-sparse vector *)
  Lemma best_pt x z : length x = n -> length z = n -> sparse K z ->
    let u := grad_pt x in nrm2 (rsub u (keep u (largest_indices u K))) <= nrm2 (rsub u z).
  Proof.
    intros Lx Lz Sz u. pose proof (grad_len _ Lx) as Lu. fold u in Lu. apply (@best_k_term u K); auto; [apply largest_top; rewrite Lu; auto|congruence].
  Qed.
  Lemma xof_sparse s : good s -> sparse K (xof s).
  Proof. intros [(C1 & _) _]. rewrite <- C1. apply scatter_sparse. Qed.

  (** *** descent *)
  Variable B : R.
  Lemma descent x x' : (forall z, length z = n -> nrm2 (F z) <= B * nrm2 z) -> 0 < mu -> length x = n -> length x' = n ->
    nrm2 (rsub (grad_pt x) x') <= nrm2 (rsub (grad_pt x) x) ->
    nrm2 (rsub y (F x')) <= nrm2 (rsub y (F x)) - (/ mu - B) * nrm2 (rsub x' x).
  Proof.
    intros HB Hmu Lx Lx' Hc. set (r := rsub y (F x)). set (d := rsub x' x).
    assert (Ld : length d = n) by (unfold d; rewrite rsub_len; lia). assert (Lr : length r = m) by apply resid_len.
    set (h := d_trans D r). assert (Lh : length h = n) by (apply (trans_len V); auto).
    assert (E1 : rsub y (F x') = rsub r (F d)).
    { unfold d, F. rewrite (combine_sub V) by lia. fold (F x') (F x). unfold r. pose proof (F_len x). pose proof (F_len x'). veq. }
    assert (E2 : rsub (grad_pt x) x = rscale mu h) by (unfold grad_pt; fold r h; veq).
    assert (E3 : rsub (grad_pt x) x' = rsub (rscale mu h) d) by (unfold grad_pt, d; fold r h; veq).
    rewrite E2, E3 in Hc. rewrite E1.
    assert (E4 : rdot (F d) r = rdot d h) by (apply (combine_adj V); auto).
    pose proof (HB d Ld) as Q. pose proof (F_len d) as LFd. unfold nrm2 in *.
    rewrite rdot_sub_l, !rdot_sub_r by lia. rewrite (rdot_sym r (F d)), E4.
    rewrite (@rdot_sub_l (rscale mu h)), !(@rdot_sub_r _ (rscale mu h)) in Hc by (rewrite rscale_len; lia).
    rewrite !rdot_scale_l, !rdot_scale_r, (rdot_sym h d) in Hc.
    assert (H1 : rdot d d <= 2 * mu * rdot d h) by lra.
    assert (H2 : / mu * rdot d d <= 2 * rdot d h).
    { apply Rmult_le_reg_l with mu; auto. rewrite <- Rmult_assoc, Rinv_r by lra. lra. }
    lra.
  Qed.
  Lemma iht_descent s s' : (forall z, length z = n -> nrm2 (F z) <= B * nrm2 z) -> 0 < mu -> good s -> iht_body D y K (Some mu) s = Some s' ->
    nrm2 (p_r s') <= nrm2 (p_r s) - (/ mu - B) * nrm2 (rsub (xof s') (xof s)).
  Proof.
    intros HB Hmu G Hb. destruct (iht_body_x G Hb) as (G' & EI & EX). rewrite (good_r G), (good_r G').
    apply descent; auto; try apply xof_len. rewrite EX, EI. apply best_pt; try apply xof_len. now apply xof_sparse.
  Qed.
  Lemma htp_body_I lstsq s s' : least_squares_solver lstsq -> good s -> htp_body lstsq D y K (Some mu) s = Some s' ->
    good s' /\ Permutation (p_I s') (largest_indices (grad_pt (xof s)) K) /\
    forall z, length z = n -> supp_in (p_I s') z -> nrm2 (p_r s') <= nrm2 (rsub y (F z)).
  Proof.
    intros HLS G Hb. destruct (htp_body_ok V Ly HK HLS _ (proj1 G) Hb) as (C' & ND & _ & _ & Min).
    assert (G' : good s') by (split; auto). split; auto. split.
    - unfold htp_body in Hb. cbn [get_step_size hard_threshold_sorted] in Hb. fold n in Hb. fold (xof s) in Hb. rewrite (good_r G) in Hb.
      fold (grad_pt (xof s)) in Hb. injection Hb as <-. cbn [ps_make p_I]. apply nsort_perm.
    - intros z Lz Sz. destruct C' as (C1 & C2 & _).
      assert (E : scatter n (p_I s') (gather z (p_I s')) = z).
      { rewrite <- Lz. rewrite scatter_gather by (rewrite Lz; auto). apply vec_eq; [apply keep_len|]. rewrite keep_len. intros i Hi.
        rewrite keep_nth by auto. destruct (mem i (p_I s')) eqn:Em; auto. apply mem_nIn in Em. symmetry. now apply Sz. }
      eapply Rle_trans; [apply (Min (gather z (p_I s'))); now rewrite gather_len|]. apply Req_le. f_equal. f_equal.
      rewrite <- (combine_scatter V) by (auto; now rewrite gather_len). fold n. now rewrite E.
  Qed.
  Lemma htp_descent lstsq s s' : least_squares_solver lstsq -> (forall z, length z = n -> nrm2 (F z) <= B * nrm2 z) -> 0 < mu -> mu * B <= 1 ->
    good s -> htp_body lstsq D y K (Some mu) s = Some s' -> nrm2 (p_r s') <= nrm2 (p_r s).
  Proof.
    intros HLS HB Hmu HmB G Hb. destruct (htp_body_I HLS G Hb) as (G' & EI & Min). rewrite (good_r G).
    set (u := grad_pt (xof s)) in *. assert (Lu : length u = n) by (apply grad_len, xof_len).
    eapply Rle_trans; [apply (Min (keep u (largest_indices u K))); [now rewrite keep_len|]|].
    - apply (supp_mono (@supp_keep u _)). intros i Hi. now apply (Permutation_in _ (Permutation_sym EI)).
    - assert (LK : length (keep u (largest_indices u K)) = n) by now rewrite keep_len.
      pose proof (@descent _ _ HB Hmu (xof_len s) LK) as Q. fold u in Q.
      assert (HH : nrm2 (rsub u (keep u (largest_indices u K))) <= nrm2 (rsub u (xof s))) by (apply best_pt; try apply xof_len; now apply xof_sparse).
      specialize (Q HH). assert (0 <= (/ mu - B) * nrm2 (rsub (keep u (largest_indices u K)) (xof s))); [|lra].
      apply Rmult_le_pos; [|apply rdot_pos]. assert (B <= / mu); [|lra]. apply Rmult_le_reg_l with mu; auto. rewrite Rinv_r by lra. exact HmB.
  Qed.
End IHT.

(** *** recovery under the restricted isometry property *)
Section Rec.
  Variables (m : nat) (D : dictionary) (K : nat) (delta : R).
  Hypothesis V : valid_dict m D.
  Hypothesis HK : (K <= d_n D)%nat.
  Let n := d_n D.
  Let F := combine_atoms m D.
  Variables (xs e : vec).
  Hypothesis Lx : length xs = n.
  Hypothesis Le : length e = m.
  Hypothesis Sx : sparse K xs.
  Let y := radd (F xs) e.
  Hypothesis HR : rip m D (3 * K) delta.
  Lemma y_len_ : length y = m.
  Proof. unfold y, F. rewrite radd_len, (combine_len V). lia. Qed.
  Lemma grad_dot x v : length x = n -> length v = n ->
    rdot (rsub (grad_pt m D y 1 x) xs) v = rdot (rsub x xs) v - rdot (F (rsub x xs)) (F v) + rdot e (F v).
  Proof.
    intros L1 L2. unfold grad_pt. fold F. pose proof y_len_ as Ly.
    assert (LF : forall z, length (F z) = m) by (intros; apply (combine_len V)).
    set (h := d_trans D (rsub y (F x))). assert (Lr : length (rsub y (F x)) = m) by (rewrite rsub_len, LF; lia).
    assert (Lh : length h = n) by (apply (trans_len V); auto).
    assert (Eh : rdot h v = rdot (rsub y (F x)) (F v)).
    { rewrite (rdot_sym h), (rdot_sym _ (F v)). symmetry. apply (combine_adj V); auto. }
    rewrite rdot_sub_l by (rewrite radd_len, rscale_len; lia). rewrite rdot_add_l by (rewrite rscale_len; lia).
    rewrite rdot_scale_l, Eh. rewrite rdot_sub_l by (rewrite LF; lia). unfold y. rewrite rdot_add_l by (rewrite LF; lia).
    replace (F (rsub x xs)) with (rsub (F x) (F xs)) by (symmetry; apply (combine_sub V); lia).
    rewrite !rdot_sub_l by (rewrite ?LF; lia). ring.
  Qed.
  Lemma sparse_supp z : length z = n -> sparse K z -> exists J, (length J <= K)%nat /\ supp_in J z.
  Proof. intros _ [J HJ]. exists J. exact HJ. Qed.
  Lemma bil x x' v : length x = n -> length x' = n -> sparse K x -> sparse K x' -> length v = n -> (forall J, supp_in J x' -> supp_in J xs -> supp_in J v) ->
    Rabs (rdot (rsub x xs) v - rdot (F (rsub x xs)) (F v)) <= delta * (nrm (rsub x xs) * nrm v) /\ sparse (3 * K) v.
  Proof.
    intros L1 L2 [J1 [A1 B1]] [J2 [A2 B2]] L3 Hv. destruct Sx as [J0 [A0 B0]]. set (J := J0 ++ J1 ++ J2).
    assert (LJ : (length J <= 3 * K)%nat) by (unfold J; rewrite !app_length; lia).
    assert (S0 : supp_in J xs) by (apply (supp_mono B0); unfold J; intros i Hi; apply in_or_app; now left).
    assert (S1 : supp_in J x) by (apply (supp_mono B1); unfold J; intros i Hi; apply in_or_app; right; apply in_or_app; now left).
    assert (S2 : supp_in J x') by (apply (supp_mono B2); unfold J; intros i Hi; apply in_or_app; right; apply in_or_app; now right).
    split.
    - apply (rip_bilinear V HR LJ); auto; [rewrite rsub_len; unfold n in *; lia|]. apply supp_sub; auto. lia.
    - apply (supp_sparse (Hv J S2 S0) LJ).
  Qed.
  Lemma iht_contract x : length x = n -> sparse K x ->
    let x' := keep (grad_pt m D y 1 x) (largest_indices (grad_pt m D y 1 x) K) in
    nrm (rsub x' xs) <= 2 * delta * nrm (rsub x xs) + 2 * sqrt (1 + delta) * nrm e.
  Proof.
    intros L1 S1 x'. set (u := grad_pt m D y 1 x) in *. assert (Lu : length u = n) by (apply (grad_len y 1 V y_len_ HK x L1)).
    assert (L2 : length x' = n) by (unfold x'; now rewrite keep_len).
    assert (S2 : sparse K x') by (apply keep_sparse; rewrite li_len, Lu; unfold n; lia).
    set (v := rsub x' xs). assert (Lv : length v = n) by (unfold v; rewrite rsub_len; lia).
    destruct (@bil x x' v L1 L2 S1 S2 Lv) as [Bl Sv]; [intros J H1 H2; apply supp_sub; auto; lia|].
    pose proof (best_pt y 1 V y_len_ HK x L1 Lx Sx) as Hb. cbn zeta in Hb. fold u x' in Hb.
    assert (E : rsub u x' = rsub (rsub u xs) v) by (unfold v; veq).
    rewrite E in Hb. unfold nrm2 in Hb.
    assert (Q : rdot v v <= 2 * rdot (rsub u xs) v).
    { assert (Lg : length (rsub u xs) = n) by (rewrite rsub_len; lia). clearbody v. clear E Bl. generalize dependent (rsub u xs). intros g Hb Lg.
      rewrite rdot_sub_l, !rdot_sub_r in Hb by lia. rewrite (rdot_sym v g) in Hb. lra. }
    unfold u in Q. rewrite grad_dot in Q by auto.
    pose proof (rip_norm HR Lv Sv) as Nv. fold F in Nv.
    pose proof (cauchy_le e (F v)) as Ce. pose proof (Rle_abs (rdot (rsub x xs) v - rdot (F (rsub x xs)) (F v))) as Ab.
    pose proof (nrm_sq v) as Nsq. pose proof (nrm_pos v) as Nv0. pose proof (nrm_pos e) as Ne0.
    assert (Ce2 : rdot e (F v) <= nrm e * (sqrt (1 + delta) * nrm v)) by (eapply Rle_trans; [exact Ce|]; apply Rmult_le_compat_l; auto).
    destruct (Req_dec (nrm v) 0) as [Z|NZ].
    - fold v. rewrite Z. assert (0 <= sqrt (1 + delta)) by apply sqrt_pos. 
      assert (0 <= delta * nrm (rsub x xs)).
      { destruct (Req_dec (nrm (rsub x xs)) 0) as [Z2|N2]; [rewrite Z2; lra|].
        apply Rmult_le_pos; [|apply nrm_pos]. clear - Bl HR S1 Sx L1 Lx V N2.
        assert (S3 : sparse (3 * K) (rsub x xs)).
        { destruct S1 as [J1 [A1 B1]]. destruct Sx as [J0 [A0 B0]]. apply (@supp_sparse (J0 ++ J1)); [|rewrite app_length; lia].
          apply supp_sub; [lia| |]; [apply (supp_mono B1)|apply (supp_mono B0)]; intros i Hi; apply in_or_app; auto. }
        assert (L3 : length (rsub x xs) = d_n D) by (rewrite rsub_len; unfold n in *; lia).
        pose proof (@HR (rsub x xs) L3 S3) as Q. pose proof (Rabs_pos (nrm2 (combine_atoms m D (rsub x xs)) - nrm2 (rsub x xs))).
        assert (P : 0 < nrm2 (rsub x xs)). { unfold nrm2. rewrite <- nrm_sq. pose proof (nrm_pos (rsub x xs)). apply Rmult_lt_0_compat; lra. }
        destruct (Rle_lt_dec 0 delta); auto. nra. }
      assert (0 <= sqrt (1 + delta) * nrm e) by (now apply Rmult_le_pos). lra.
    - apply Rmult_le_reg_r with (nrm v); [lra|]. fold v. rewrite Nsq. lra.
  Qed.
  (** HTP: with the support chosen from the gradient point *)
  Lemma htp_contract x x' S1 : e = rzero m -> 0 <= delta < 1 -> length x = n -> sparse K x -> length x' = n -> 
    Permutation S1 (largest_indices (grad_pt m D y 1 x) K) -> supp_in S1 x' ->
    (forall z, length z = n -> supp_in S1 z -> nrm2 (rsub y (F x')) <= nrm2 (rsub y (F z))) ->
    (1 - delta * delta) * nrm2 (rsub x' xs) <= 2 * (delta * delta) * nrm2 (rsub x xs).
  Proof.
    intros He Hd L1 Sp1 L2 HP Sx' Min. set (u := grad_pt m D y 1 x) in *. assert (Lu : length u = n) by (apply (grad_len y 1 V y_len_ HK x L1)).
    assert (LF : forall z, length (F z) = m) by (intros; apply (combine_len V)).
    assert (LS1 : length S1 = K) by (rewrite (Permutation_length HP), li_len, Lu; unfold n; lia).
    assert (ND : NoDup S1) by (apply (Permutation_NoDup (Permutation_sym HP)), li_nodup).
    assert (RS : forall i, In i S1 -> (i < n)%nat) by (intros i Hi; apply (Permutation_in _ HP), li_lt in Hi; lia).
    assert (Ey : y = F xs). { unfold y. rewrite He. pose proof (LF xs). veq. }
    destruct Sx as [T [LT ST]]. set (J := T ++ S1).
    assert (LJ : (length J <= 2 * K)%nat) by (unfold J; rewrite app_length; lia).
    assert (Sxs : supp_in J xs) by (apply (supp_mono ST); intros i Hi; apply in_or_app; now left).
    assert (SxJ : supp_in J x') by (apply (supp_mono Sx'); intros i Hi; apply in_or_app; now right).
    set (v := rsub x' xs). assert (Lv : length v = n) by (unfold v; rewrite rsub_len; lia).
    assert (SvJ : supp_in J v) by (apply supp_sub; auto; lia).
    set (vS := keep v S1). assert (LvS : length vS = n) by (unfold vS; now rewrite keep_len).
    assert (SvS : supp_in J vS) by (apply (supp_mono (@supp_keep v S1)); intros i Hi; apply in_or_app; now right).
    (* orthogonality of the residual to the chosen atoms *)
    assert (Or : forall z, length z = n -> supp_in S1 z -> rdot (F v) (F z) = 0).
    { intros z Lz Sz.
      assert (Q : forall t, 0 <= 2 * t * rdot (F v) (F z) + t * t * nrm2 (F z)).
      { intros t. pose proof (Min (radd x' (rscale t z)) ltac:(rewrite radd_len, rscale_len; lia)) as M.
        assert (M' : nrm2 (rsub y (F x')) <= nrm2 (rsub y (F (radd x' (rscale t z))))).
        { apply M. apply supp_add; auto; [rewrite rscale_len; lia|now apply supp_scale]. }
        assert (E1 : rsub y (F x') = rscale (-1) (F v)).
        { rewrite Ey. unfold v, F. rewrite (combine_sub V) by lia. fold (F x') (F xs). pose proof (LF x'). pose proof (LF xs). veq. }
        assert (E2 : rsub y (F (radd x' (rscale t z))) = rscale (-1) (radd (F v) (rscale t (F z)))).
        { rewrite Ey. unfold v, F. rewrite (combine_sub V), (combine_add V), (combine_scale V) by (rewrite ?rscale_len; lia). fold (F x') (F xs) (F z). pose proof (LF x'). pose proof (LF xs). pose proof (LF z). veq. }
        rewrite E1, E2 in M'. unfold nrm2 in *. rewrite !rdot_scale_l, !rdot_scale_r in M'.
        rewrite rdot_add_l, !rdot_add_r, !rdot_scale_l, !rdot_scale_r in M' by (rewrite rscale_len, !LF; lia). rewrite (rdot_sym (F z) (F v)) in M'. lra. }
      set (a := rdot (F v) (F z)) in *. set (b := nrm2 (F z)) in *. assert (B0 : 0 <= b) by apply rdot_pos.
      destruct (Req_dec b 0) as [Zb|Nb].
      - pose proof (Q 1). pose proof (Q (-1)). rewrite Zb in *. lra.
      - pose proof (Q (- a / b)) as Q1. assert (E : 2 * (- a / b) * a + - a / b * (- a / b) * b = - (a * a) / b) by (field; lra).
        rewrite E in Q1. assert (a * a <= 0).
        { apply Rmult_le_reg_r with (/ b); [apply Rinv_0_lt_compat; lra|]. unfold Rdiv in Q1. lra. }
        apply Rsqr_0_uniq. unfold Rsqr. pose proof (Rle_0_sqr a). unfold Rsqr in *. lra. }
    (* ||v_S|| <= delta ||v|| *)
    assert (NvS : nrm vS <= delta * nrm v).
    { assert (LJ3 : (length J <= 3 * K)%nat) by lia.
      pose proof (rip_bilinear V HR LJ3 Lv LvS SvJ SvS) as Bl. fold F in Bl. rewrite (Or vS LvS) in Bl by apply supp_keep.
      rewrite Rminus_0_r in Bl. pose proof (Rle_abs (rdot v vS)).
      assert (E : rdot v vS = nrm vS * nrm vS) by (rewrite nrm_sq, rdot_sym; unfold vS; now apply keep_dot).
      rewrite E in *. destruct (Req_dec (nrm vS) 0) as [Z|N]; [rewrite Z; apply Rmult_le_pos; [lra|apply nrm_pos]|].
      apply Rmult_le_reg_r with (nrm vS); [pose proof (nrm_pos vS); lra|]. lra. }
    (* split v into its part on S1 and the part of xs outside S1 *)
    set (t := rsub xs (keep xs S1)). assert (Lt : length t = n) by (unfold t; rewrite rsub_len, keep_len; lia).
    assert (Ev : nrm2 v = nrm2 vS + nrm2 t).
    { unfold nrm2. rewrite !(@rdot_sum n) by auto. rewrite <- rsum_add. apply rsum_ext. intros i Hi. unfold vS, t.
      rewrite rsub_nth by (now rewrite keep_len). rewrite !keep_nth by lia. destruct (mem i S1) eqn:Em; [ring|].
      apply mem_nIn in Em. unfold v. rewrite rsub_nth by lia. rewrite (Sx' i Em). ring. }
    (* the selected entries dominate: compare u on T \ S1 with u on S1 \ T *)
    set (g := rsub u xs). assert (Lg : length g = n) by (unfold g; rewrite rsub_len; lia).
    assert (Top : top_selection (map (fun a => a * a) u) K S1).
    { apply top_sq. destruct (largest_top u (K := K)) as (T1 & T2 & T3 & T4); [rewrite Lu; auto|]. repeat split; auto.
      - intros i Hi. apply T3. now apply (Permutation_in _ HP).
      - intros i j Hi Hj Hn. apply T4; auto; [now apply (Permutation_in _ HP)|]. intros C. apply Hn. now apply (Permutation_in _ (Permutation_sym HP)). }
    set (T' := filter (fun i => (i <? n)%nat) (nodup Nat.eq_dec T)).
    assert (NT' : NoDup T') by (apply NoDup_filter, NoDup_nodup).
    assert (BT' : forall i, In i T' -> (i < n)%nat) by (intros i Hi; apply filter_In in Hi as [_ Hi]; now apply Nat.ltb_lt).
    assert (LT' : (length T' <= K)%nat).
    { assert (length T' <= length (nodup Nat.eq_dec T))%nat.
      { unfold T'. clear. induction (nodup Nat.eq_dec T) as [|a l IH]; simpl; auto. destruct (a <? n)%nat; simpl; lia. }
      assert (length (nodup Nat.eq_dec T) <= length T)%nat.
      { apply NoDup_incl_length; [apply NoDup_nodup|]. intros i Hi. now apply nodup_In in Hi. }
      lia. }
    assert (ST' : forall i, (i < n)%nat -> ~ In i T' -> xs@i = 0).
    { intros i Hi Hn. apply ST. intros C. apply Hn. apply filter_In. split; [now apply nodup_In|now apply Nat.ltb_lt]. }
    set (a2 := map (fun a => a * a) u) in *. assert (Ai : forall i, a2@i = u@i * u@i) by (intros i; unfold a2; apply (map_nth0 (fun t => t * t)); ring).
    assert (La2 : length a2 = n) by (unfold a2; now rewrite map_length).
    pose proof (@top_sum a2 K S1 T' ltac:(intros; rewrite Ai; apply Rle_0_sqr) Top NT' ltac:(rewrite La2; auto) LT') as Q.
    rewrite !(@isum_indicator n) in Q by auto.
    set (A := rsum n (fun i => if mem i T' then (if mem i S1 then 0 else u@i * u@i) else 0)).
    set (Bs := rsum n (fun i => if mem i S1 then (if mem i T' then 0 else u@i * u@i) else 0)).
    assert (AB : A <= Bs).
    { assert (A - Bs = rsum n (fun i => if mem i T' then a2@i else 0) - rsum n (fun i => if mem i S1 then a2@i else 0)); [|lra].
      unfold A, Bs. rewrite <- !rsum_sub. apply rsum_ext. intros i _. rewrite Ai. destruct (mem i T'), (mem i S1); ring. }
    (* the difference set and g restricted to it *)
    set (E1 := rsum n (fun i => if mem i T' then (if mem i S1 then 0 else g@i * g@i) else 0)).
    set (E2 := rsum n (fun i => if mem i S1 then (if mem i T' then 0 else g@i * g@i) else 0)).
    assert (BE : Bs = E2).
    { apply rsum_ext. intros i Hi. destruct (mem i S1); auto. destruct (mem i T') eqn:Em; auto. apply mem_nIn in Em. unfold g.
      rewrite rsub_nth by lia. rewrite (ST' i Hi Em). ring. }
    assert (Tn : nrm2 t <= 2 * (E1 + E2)).
    { (* xs = u - g on T \ S1 *)
      apply Rle_trans with (2 * A + 2 * E1); [|lra]. unfold nrm2. rewrite (@rdot_sum n) by auto.
      unfold A, E1. rewrite <- !rsum_mul_l, <- rsum_add. apply rsum_le. intros i Hi. unfold t. rewrite rsub_nth by (now rewrite keep_len).
      rewrite keep_nth by lia. destruct (mem i S1); [destruct (mem i T'); lra|]. destruct (mem i T') eqn:Em.
      - unfold g. rewrite rsub_nth by lia. pose proof (Rle_0_sqr (u@i + (u@i - xs@i))). unfold Rsqr in *. lra.
      - apply mem_nIn in Em. rewrite (ST' i Hi Em). lra. }
    set (P := T' ++ S1). set (gP := tab n (fun i => if xorb (mem i T') (mem i S1) then g@i else 0)).
    assert (LgP : length gP = n) by apply tab_length.
    assert (EgP : nrm2 gP = E1 + E2).
    { unfold nrm2. rewrite (@rdot_sum n) by auto. unfold E1, E2. rewrite <- rsum_add. apply rsum_ext. intros i Hi. unfold gP. rewrite nth_tab by auto.
      destruct (mem i T'), (mem i S1); simpl; ring. }
    assert (EgP2 : nrm2 gP = rdot g gP).
    { unfold nrm2. rewrite !(@rdot_sum n) by auto. apply rsum_ext. intros i Hi. unfold gP. rewrite nth_tab by auto.
      destruct (xorb _ _); ring. }
    assert (SgP : supp_in P gP).
    { intros i Hi. destruct (Nat.lt_ge_cases i n); [|apply nth_overflow; lia]. unfold gP. rewrite nth_tab by auto.
      assert (mem i T' = false) by (apply mem_nIn; intros C; apply Hi, in_or_app; now left).
      assert (mem i S1 = false) by (apply mem_nIn; intros C; apply Hi, in_or_app; now right). now rewrite H0, H1. }
    assert (NgP : nrm gP <= delta * nrm (rsub x xs)).
    { pose proof (grad_dot x gP L1 LgP) as Gd. fold u g in Gd. rewrite He, rdot_zero_l, Rplus_0_r in Gd.
      destruct Sp1 as [J1 [A1 B1]]. set (J3 := J1 ++ P).
      assert (LJ3 : (length J3 <= 3 * K)%nat) by (unfold J3, P; rewrite !app_length; lia).
      assert (SgJ : supp_in J3 gP) by (apply (supp_mono SgP); intros i Hi; apply in_or_app; now right).
      assert (SwJ : supp_in J3 (rsub x xs)).
      { apply supp_sub; [lia| |].
        - apply (supp_mono B1); intros i Hi; apply in_or_app; now left.
        - intros i Hi. destruct (Nat.lt_ge_cases i n); [|apply nth_overflow; lia]. apply ST'; auto. intros C. apply Hi, in_or_app. right. apply in_or_app. now left. }
      pose proof (rip_bilinear V HR LJ3 (w := rsub x xs) (v := gP) ltac:(rewrite rsub_len; unfold n in *; lia) LgP SwJ SgJ) as Bl. fold F in Bl.
      rewrite <- Gd, <- EgP2 in Bl. pose proof (Rle_abs (nrm2 gP)). unfold nrm2 in *. rewrite <- nrm_sq in *.
      destruct (Req_dec (nrm gP) 0) as [Z|N]; [rewrite Z; apply Rmult_le_pos; [lra|apply nrm_pos]|].
      apply Rmult_le_reg_r with (nrm gP); [pose proof (nrm_pos gP); lra|]. lra. }
    assert (Q1 : nrm2 gP <= delta * delta * nrm2 (rsub x xs)).
    { unfold nrm2. rewrite <- (nrm_sq gP), <- (nrm_sq (rsub x xs)). pose proof (nrm_pos gP).
      replace (delta * delta * (nrm (rsub x xs) * nrm (rsub x xs))) with ((delta * nrm (rsub x xs)) * (delta * nrm (rsub x xs))) by ring.
      apply Rmult_le_compat; auto. }
    assert (Q2 : nrm2 vS <= delta * delta * nrm2 v).
    { unfold nrm2. rewrite <- (nrm_sq vS), <- (nrm_sq v). pose proof (nrm_pos vS).
      replace (delta * delta * (nrm v * nrm v)) with ((delta * nrm v) * (delta * nrm v)) by ring.
      apply Rmult_le_compat; auto. }
    fold v. rewrite EgP in Q1. lra.
  Qed.
End Rec.
