From Coq Require Import List Arith Bool Lia Reals Lra Permutation.
From Verif Require Import Scalar Vec RVec RMat Loop LoopLemmas OptSpec OptModel OptProofs OptProofs2 SortedL1Model SortedL1Proofs CGModel SlsModel SlsProofs SelModel SelSpec SelProofs DictModel DictSpec DictProofs SolverSpec SolverLemmas CGProofs PursuitModel PursuitSpec PursuitSpec2 PursuitProofs PursuitProofs2 PursuitProofs3 PursuitProofs4 PursuitProofs5 PursuitLemmas PursuitLemmas2 PursuitLemmas3 PursuitProofs6 PursuitProofs7.
Import ListNotations.
Set Implicit Arguments.
Local Open Scope R_scope.

Lemma gain_pos delta : 0 <= delta < 1 -> 0 <= cosamp_gain delta /\ 0 <= sp_gain delta /\ 0 <= cosamp_rate delta /\ 0 <= sp_rate delta.
Proof.
  intros H. pose proof (sqrt_pos 2). pose proof (sqrt_pos (1 + delta)). assert (I1 : 0 < / (1 - delta)) by (apply Rinv_0_lt_compat; lra).
  assert (I2 : 0 < / (1 - delta) ^ 2) by (apply Rinv_0_lt_compat, pow_lt; lra).
  unfold cosamp_gain, sp_gain, cosamp_rate, sp_rate, Rdiv.
  split; [|split; [|split]]; repeat first [apply Rmult_le_pos | lra].
Qed.
Section Runs.
  Variables (m : nat) (D : dictionary) (K : nat) (delta : R) (xs e : vec).
  Hypothesis V : valid_dict m D.
  Hypothesis Lx : length xs = d_n D.
  Hypothesis Le : length e = m.
  Hypothesis Sx : sparse K xs.
  Hypothesis Hd : 0 <= delta < 1.
  Variable lstsq : list vec -> vec -> vec.
  Hypothesis HLS : least_squares_solver lstsq.
  Notation n := (d_n D).
  Notation y := (radd (combine_atoms m D xs) e).
  Variable cond : ps -> bool.
  Section C.
    Hypothesis HR : rip m D (4 * K) delta.
    Hypothesis HK : (3 * K <= n)%nat.
    Hypothesis Hr : cosamp_rate delta < 1.
    Notation body := (cosamp_body lstsq D y K).
    Notation s0 := (cosamp_init lstsq D y K).
    Hypothesis Hcor : forall k s, reaches cond body s0 k s -> cond s = true -> correlates D (2 * K) s.
    Notation d0 := (2 * nrm xs + first_error delta xs e).
    Lemma cosamp_steps s s' : good m D y K s -> correlates D (2 * K) s -> body s = Some s' ->
      good m D y K s' /\ p_it s' = S (p_it s) /\
      nrm (rsub (xof D s') xs) <= cosamp_rate delta * nrm (rsub (xof D s) xs) + cosamp_gain delta * nrm e /\
      (e = rzero m -> (forall i, xs@i <> 0 -> In i (p_I s)) -> nrm (rsub (xof D s') xs) = 0).
    Proof.
      intros G HC B. destruct (@cosamp_step m D K delta xs e V Lx Le Sx Hd lstsq HLS s s' HR ltac:(lia) G HC B) as (Q1 & Q2 & Q3).
      split; auto. split; auto. unfold cosamp_body in B. injection B as <-. reflexivity.
    Qed.
    Lemma cosamp_err k s : reaches cond body s0 k s ->
      good m D y K s /\ p_it s = S k /\ nrm (rsub (xof D s) xs) <= cosamp_rate delta ^ k * d0 + cosamp_gain delta / (1 - cosamp_rate delta) * nrm e.
    Proof.
      destruct (@cosamp_first m D K delta xs e V Lx Le Sx Hd lstsq HLS HR HK) as [G0 E0]. destruct (gain_pos Hd) as (P1 & _ & P2 & _).
      apply (@loop_err m D K xs e Lx Le cond body s0 (cosamp_rate delta) (cosamp_gain delta) d0 (2 * K)); auto. apply cosamp_steps.
    Qed.
    Lemma cosamp_exact a k s : e = rzero m -> reaches cond body s0 (S k) s ->
      (forall i, xs@i <> 0 -> a <= Rabs (xs@i)) -> cosamp_rate delta ^ k * d0 < a -> xof D s = xs.
    Proof.
      destruct (@cosamp_first m D K delta xs e V Lx Le Sx Hd lstsq HLS HR HK) as [G0 E0]. destruct (gain_pos Hd) as (P1 & _ & P2 & _).
      apply (@loop_exact m D K xs e Lx Le cond body s0 (cosamp_rate delta) (cosamp_gain delta) d0 (2 * K)); auto. apply cosamp_steps.
    Qed.
  End C.
  Section S.
    Hypothesis HR : rip m D (3 * K) delta.
    Hypothesis HK : (K <= n)%nat.
    Hypothesis Hr : sp_rate delta < 1.
    Notation body := (sp_body lstsq D y K).
    Notation s0 := (sp_init lstsq D y K).
    Hypothesis Hcor : forall k s, reaches cond body s0 k s -> cond s = true -> correlates D K s.
    Notation d0 := (first_error delta xs e).
    Lemma sp_steps s s' : good m D y K s -> correlates D K s -> body s = Some s' ->
      good m D y K s' /\ p_it s' = S (p_it s) /\
      nrm (rsub (xof D s') xs) <= sp_rate delta * nrm (rsub (xof D s) xs) + sp_gain delta * nrm e /\
      (e = rzero m -> (forall i, xs@i <> 0 -> In i (p_I s)) -> nrm (rsub (xof D s') xs) = 0).
    Proof.
      intros G HC B. destruct (@sp_step m D K delta xs e V Lx Le Sx Hd lstsq HLS s s' HR HK G HC B) as (Q1 & Q2 & Q3).
      split; auto. split; auto. unfold sp_body in B. injection B as <-. reflexivity.
    Qed.
    Lemma sp_err k s : reaches cond body s0 k s ->
      good m D y K s /\ p_it s = S k /\ nrm (rsub (xof D s) xs) <= sp_rate delta ^ k * d0 + sp_gain delta / (1 - sp_rate delta) * nrm e.
    Proof.
      destruct (@sp_first m D K delta xs e V Lx Le Sx Hd lstsq HLS HR HK) as [G0 E0]. destruct (gain_pos Hd) as (_ & P1 & _ & P2).
      apply (@loop_err m D K xs e Lx Le cond body s0 (sp_rate delta) (sp_gain delta) d0 K); auto. apply sp_steps.
    Qed.
    Lemma sp_exact a k s : e = rzero m -> reaches cond body s0 (S k) s ->
      (forall i, xs@i <> 0 -> a <= Rabs (xs@i)) -> sp_rate delta ^ k * d0 < a -> xof D s = xs.
    Proof.
      destruct (@sp_first m D K delta xs e V Lx Le Sx Hd lstsq HLS HR HK) as [G0 E0]. destruct (gain_pos Hd) as (_ & P1 & _ & P2).
      apply (@loop_exact m D K xs e Lx Le cond body s0 (sp_rate delta) (sp_gain delta) d0 K); auto. apply sp_steps.
    Qed.
  End S.
End Runs.
(** *** scaling of the operator variants *)
Section Op.
  Variables (m : nat) (D : dictionary) (K : nat) (xs e : vec).
  Hypothesis V : valid_dict m D.
  Hypothesis Lx : length xs = d_n D.
  Hypothesis Le : length e = m.
  Notation n := (d_n D).
  Notation y := (radd (combine_atoms m D xs) e).
  Lemma scaled_problem yn : normalize y = Some yn -> 0 < nrm y /\
    yn = radd (combine_atoms m D (rscale (/ nrm y) xs)) (rscale (/ nrm y) e).
  Proof.
    intros E. assert (Ly : length y = m) by (rewrite radd_len, (combine_len V); lia).
    destruct (scale_back y Ly E) as (S1 & S2 & S3 & S4). split; auto. rewrite (combine_scale V).
    pose proof (combine_len V xs). set (c := nrm y) in *.
    assert (E2 : yn = rscale (/ c) (rscale c yn)) by (apply vec_eq; [now rewrite !rscale_len|]; intros i Hi; rewrite !rscale_nth; field; lra).
    rewrite E2, S1. apply vec_eq; [rewrite rscale_len, !radd_len, !rscale_len; lia|]. rewrite rscale_len, radd_len. intros i Hi.
    rewrite rscale_nth, !radd_nth, !rscale_nth by (rewrite ?rscale_len; lia). ring.
  Qed.
  Lemma nrm_scale c (v : vec) : 0 <= c -> nrm (rscale c v) = c * nrm v.
  Proof. intros H. unfold nrm. rewrite rdot_scale_l, rdot_scale_r, <- Rmult_assoc, sqrt_mult_alt by (apply Rmult_le_pos; auto). now rewrite sqrt_square. Qed.
  Lemma scaled_sol c s : length (p_x s) = length (p_I s) -> solution_x n (ps_scale c s) = rscale c (xof D s).
  Proof. intros H. unfold solution_x, xof. cbn [ps_scale p_x p_I]. apply vec_eq; [rewrite rscale_len, !scatter_len; auto|].
    rewrite scatter_len. intros i Hi. rewrite rscale_nth. unfold scatter. rewrite !nth_tab by auto. clear - H.
    revert H. generalize (p_x s). induction (p_I s) as [|a J IH]; intros [|b x] H; try discriminate; cbn [rscale map scatter_get]; [ring|].
    destruct (a =? i)%nat; auto. apply IH. simpl in H. lia.
  Qed.
  Lemma first_scale delta c : 0 <= c -> first_error delta (rscale c xs) (rscale c e) = c * first_error delta xs e.
  Proof. intros H. unfold first_error. rewrite !nrm_scale by auto. unfold Rdiv. ring. Qed.
  Lemma sparse_scale c : sparse K xs -> sparse K (rscale c xs).
  Proof. intros [J [A B]]. exists J. split; auto. intros i Hi. rewrite rscale_nth, B by auto. ring. Qed.
  Lemma scaled_err c s a b : 0 < c -> length (p_x s) = length (p_I s) ->
    nrm (rsub (xof D s) (rscale (/ c) xs)) <= a * nrm (rscale (/ c) e) + b * / c -> 
    nrm (rsub (solution_x n (ps_scale c s)) xs) <= a * nrm e + b.
  Proof.
    intros Hc HL H. rewrite scaled_sol by auto. rewrite nrm_scale in H by (apply Rlt_le, Rinv_0_lt_compat; auto).
    assert (E : rsub (rscale c (xof D s)) xs = rscale c (rsub (xof D s) (rscale (/ c) xs))).
    { pose proof (xof_len D s). apply vec_eq; [rewrite rscale_len, !rsub_len, !rscale_len; lia|]. rewrite rsub_len, rscale_len. intros i Hi.
      rewrite rscale_nth, !rsub_nth, !rscale_nth by (rewrite ?rscale_len; lia). field. lra. }
    rewrite E, nrm_scale by lra. apply Rle_trans with (c * (a * (/ c * nrm e) + b * / c)); [apply Rmult_le_compat_l; lra|].
    apply Req_le. field. lra.
  Qed.
  Lemma scaled_exact c s : 0 < c -> length (p_x s) = length (p_I s) -> xof D s = rscale (/ c) xs -> solution_x n (ps_scale c s) = xs.
  Proof.
    intros Hc HL H. rewrite scaled_sol, H by auto. apply vec_eq; rewrite !rscale_len; auto. intros i Hi. rewrite !rscale_nth. field. lra.
  Qed.
End Op.
Section Fin.
  Variables (m : nat) (D : dictionary) (K : nat) (delta : R) (xs e : vec).
  Hypothesis V : valid_dict m D.
  Hypothesis Lx : length xs = d_n D.
  Hypothesis Le : length e = m.
  Hypothesis Sx : sparse K xs.
  Hypothesis Hd : 0 <= delta < 1.
  Variable lstsq : list vec -> vec -> vec.
  Hypothesis HLS : least_squares_solver lstsq.
  Notation n := (d_n D).
  Notation y := (radd (combine_atoms m D xs) e).
  Variables (max_iters : nat) (rtol : R) (fuel : nat) (s : ps).
  Lemma pow_it k : p_it s = S k -> (p_it s - 1)%nat = k. Proof. lia. Qed.
  Lemma cosamp_matrix_rec : rip m D (4 * K) delta -> (3 * K <= n)%nat -> cosamp_rate delta < 1 ->
    (forall k s, reaches (ps_cond (rdot y y * rtol ^ 2) max_iters) (cosamp_body lstsq D y K) (cosamp_init lstsq D y K) k s ->
      ps_cond (rdot y y * rtol ^ 2) max_iters s = true -> correlates D (2 * K) s) ->
    cosamp_matrix lstsq D y K max_iters rtol fuel = Done s ->
    within n s xs (cosamp_rate delta ^ (p_it s - 1) * (2 * nrm xs + first_error delta xs e) + cosamp_gain delta / (1 - cosamp_rate delta) * nrm e) /\
    (e = rzero m -> forall a, (forall i, xs@i <> 0 -> a <= Rabs (xs@i)) -> (2 <= p_it s)%nat ->
      cosamp_rate delta ^ (p_it s - 2) * (2 * nrm xs + first_error delta xs e) < a -> solution_x n s = xs).
  Proof.
    intros HR HK Hr Hc H. unfold cosamp_matrix in H. apply while_done in H as (k & _ & H & _).
    destruct (@cosamp_err m D K delta xs e V Lx Le Sx Hd lstsq HLS _ HR HK Hr Hc k s H) as (G & I & E). split.
    - unfold within. rewrite (pow_it I). exact E.
    - intros He a Ha H2 Hk. rewrite I in H2, Hk. destruct k as [|k]; [lia|]. replace (S (S k) - 2)%nat with k in Hk by lia.
      exact (@cosamp_exact m D K delta xs e V Lx Le Sx Hd lstsq HLS _ HR HK Hr Hc a k s He H Ha Hk).
  Qed.
  Lemma sp_matrix_rec : rip m D (3 * K) delta -> (K <= n)%nat -> sp_rate delta < 1 ->
    (forall k s, reaches (ps_cond (rdot y y * rtol ^ 2) max_iters) (sp_body lstsq D y K) (sp_init lstsq D y K) k s ->
      ps_cond (rdot y y * rtol ^ 2) max_iters s = true -> correlates D K s) ->
    sp_matrix lstsq D y K max_iters rtol fuel = Done s ->
    within n s xs (sp_rate delta ^ (p_it s - 1) * first_error delta xs e + sp_gain delta / (1 - sp_rate delta) * nrm e) /\
    (e = rzero m -> forall a, (forall i, xs@i <> 0 -> a <= Rabs (xs@i)) -> (2 <= p_it s)%nat ->
      sp_rate delta ^ (p_it s - 2) * first_error delta xs e < a -> solution_x n s = xs).
  Proof.
    intros HR HK Hr Hc H. unfold sp_matrix in H. apply while_done in H as (k & _ & H & _).
    destruct (@sp_err m D K delta xs e V Lx Le Sx Hd lstsq HLS _ HR HK Hr Hc k s H) as (G & I & E). split.
    - unfold within. rewrite (pow_it I). exact E.
    - intros He a Ha H2 Hk. rewrite I in H2, Hk. destruct k as [|k]; [lia|]. replace (S (S k) - 2)%nat with k in Hk by lia.
      exact (@sp_exact m D K delta xs e V Lx Le Sx Hd lstsq HLS _ HR HK Hr Hc a k s He H Ha Hk).
  Qed.
  Lemma Rinv_pos_le c : 0 < c -> 0 <= / c. Proof. intros. apply Rlt_le, Rinv_0_lt_compat. auto. Qed.
  Lemma cosamp_operator_rec : rip m D (4 * K) delta -> (3 * K <= n)%nat -> cosamp_rate delta < 1 ->
    (forall yn k s, normalize y = Some yn ->
      reaches (ps_cond_support (rtol ^ 2) max_iters (min_iters K)) (cosamp_body lstsq D yn K) (cosamp_init lstsq D yn K) k s ->
      ps_cond_support (rtol ^ 2) max_iters (min_iters K) s = true -> correlates D (2 * K) s) ->
    cosamp_operator lstsq D y K max_iters rtol fuel = Done s ->
    within n s xs (cosamp_rate delta ^ (p_it s - 1) * (2 * nrm xs + first_error delta xs e) + cosamp_gain delta / (1 - cosamp_rate delta) * nrm e) /\
    (e = rzero m -> forall a, (forall i, xs@i <> 0 -> a <= Rabs (xs@i)) -> (2 <= p_it s)%nat ->
      cosamp_rate delta ^ (p_it s - 2) * (2 * nrm xs + first_error delta xs e) < a -> solution_x n s = xs).
  Proof.
    intros HR HK Hr Hc H. unfold cosamp_operator, rescaled in H. destruct (normalize y) as [yn|] eqn:En; [|discriminate].
    destruct (@scaled_problem m D xs e V Lx Le yn En) as (Py & Ey). set (c := nrm y) in *. pose proof (Rinv_pos_le Py) as Ic.
    specialize (Hc yn). rewrite Ey in *. clear Ey.
    destruct (while_ _ _ _ _) as [s1| |] eqn:E1; try discriminate. injection H as <-. apply while_done in E1 as (k & _ & H & _).
    assert (Hc' : forall k s, reaches (ps_cond_support (rtol ^ 2) max_iters (min_iters K)) (cosamp_body lstsq D (radd (combine_atoms m D (rscale (/ c) xs)) (rscale (/ c) e)) K)
      (cosamp_init lstsq D (radd (combine_atoms m D (rscale (/ c) xs)) (rscale (/ c) e)) K) k s ->
      ps_cond_support (rtol ^ 2) max_iters (min_iters K) s = true -> correlates D (2 * K) s) by (intros; eapply Hc; eauto).
    assert (L1 : length (rscale (/ c) xs) = n) by (now rewrite rscale_len). assert (L2 : length (rscale (/ c) e) = m) by (now rewrite rscale_len).
    destruct (@cosamp_err m D K delta (rscale (/ c) xs) (rscale (/ c) e) V L1 L2 (@sparse_scale K xs (/ c) Sx) Hd lstsq HLS _ HR HK Hr Hc' k s1 H) as (G & I & E).
    assert (HL : length (p_x s1) = length (p_I s1)) by (destruct G as [(C1 & _ & C3 & _) _]; congruence).
    cbn [ps_scale p_it]. split.
    - unfold within. rewrite (Rplus_comm (_ * (_ + _))). apply (@scaled_err m D xs e Lx Le); auto.
      rewrite (nrm_scale xs Ic), first_scale in E by auto. rewrite I. cbn [Nat.sub]. rewrite Nat.sub_0_r.
      eapply Rle_trans; [exact E|]. apply Req_le. ring.
    - intros He a Ha H2 Hk. rewrite I in H2, Hk. destruct k as [|k]; [lia|]. replace (S (S k) - 2)%nat with k in Hk by lia.
      apply scaled_exact; auto.
      apply (@cosamp_exact m D K delta (rscale (/ c) xs) (rscale (/ c) e) V L1 L2 (@sparse_scale K xs (/ c) Sx) Hd lstsq HLS _ HR HK Hr Hc' (/ c * a) k s1); auto.
      + rewrite He. apply vec_eq; rewrite rscale_len, rzero_len; auto. intros i Hi. rewrite rscale_nth, !rzero_nth. ring.
      + intros i Hi. rewrite rscale_nth in *. rewrite Rabs_mult, (Rabs_right (/ c)) by lra. apply Rmult_le_compat_l; auto. apply Ha. intros Z. apply Hi. rewrite Z. ring.
      + rewrite (nrm_scale xs Ic), first_scale by auto. apply Rle_lt_trans with (/ c * (cosamp_rate delta ^ k * (2 * nrm xs + first_error delta xs e))); [apply Req_le; ring|].
        apply Rmult_lt_compat_l; auto. now apply Rinv_0_lt_compat.
  Qed.
  Lemma sp_operator_rec : rip m D (3 * K) delta -> (K <= n)%nat -> sp_rate delta < 1 ->
    (forall yn k s, normalize y = Some yn ->
      reaches (ps_cond_support (rtol ^ 2) max_iters (min_iters K)) (sp_body lstsq D yn K) (sp_init lstsq D yn K) k s ->
      ps_cond_support (rtol ^ 2) max_iters (min_iters K) s = true -> correlates D K s) ->
    sp_operator lstsq D y K max_iters rtol fuel = Done s ->
    within n s xs (sp_rate delta ^ (p_it s - 1) * first_error delta xs e + sp_gain delta / (1 - sp_rate delta) * nrm e) /\
    (e = rzero m -> forall a, (forall i, xs@i <> 0 -> a <= Rabs (xs@i)) -> (2 <= p_it s)%nat ->
      sp_rate delta ^ (p_it s - 2) * first_error delta xs e < a -> solution_x n s = xs).
  Proof.
    intros HR HK Hr Hc H. unfold sp_operator, rescaled in H. destruct (normalize y) as [yn|] eqn:En; [|discriminate].
    destruct (@scaled_problem m D xs e V Lx Le yn En) as (Py & Ey). set (c := nrm y) in *. pose proof (Rinv_pos_le Py) as Ic.
    specialize (Hc yn). rewrite Ey in *. clear Ey.
    destruct (while_ _ _ _ _) as [s1| |] eqn:E1; try discriminate. injection H as <-. apply while_done in E1 as (k & _ & H & _).
    assert (Hc' : forall k s, reaches (ps_cond_support (rtol ^ 2) max_iters (min_iters K)) (sp_body lstsq D (radd (combine_atoms m D (rscale (/ c) xs)) (rscale (/ c) e)) K)
      (sp_init lstsq D (radd (combine_atoms m D (rscale (/ c) xs)) (rscale (/ c) e)) K) k s ->
      ps_cond_support (rtol ^ 2) max_iters (min_iters K) s = true -> correlates D K s) by (intros; eapply Hc; eauto).
    assert (L1 : length (rscale (/ c) xs) = n) by (now rewrite rscale_len). assert (L2 : length (rscale (/ c) e) = m) by (now rewrite rscale_len).
    destruct (@sp_err m D K delta (rscale (/ c) xs) (rscale (/ c) e) V L1 L2 (@sparse_scale K xs (/ c) Sx) Hd lstsq HLS _ HR HK Hr Hc' k s1 H) as (G & I & E).
    assert (HL : length (p_x s1) = length (p_I s1)) by (destruct G as [(C1 & _ & C3 & _) _]; congruence).
    cbn [ps_scale p_it]. split.
    - unfold within. rewrite (Rplus_comm (_ ^ _ * _)). apply (@scaled_err m D xs e Lx Le); auto.
      rewrite first_scale in E by auto. rewrite I. cbn [Nat.sub]. rewrite Nat.sub_0_r.
      eapply Rle_trans; [exact E|]. apply Req_le. ring.
    - intros He a Ha H2 Hk. rewrite I in H2, Hk. destruct k as [|k]; [lia|]. replace (S (S k) - 2)%nat with k in Hk by lia.
      apply scaled_exact; auto.
      apply (@sp_exact m D K delta (rscale (/ c) xs) (rscale (/ c) e) V L1 L2 (@sparse_scale K xs (/ c) Sx) Hd lstsq HLS _ HR HK Hr Hc' (/ c * a) k s1); auto.
      + rewrite He. apply vec_eq; rewrite rscale_len, rzero_len; auto. intros i Hi. rewrite rscale_nth, !rzero_nth. ring.
      + intros i Hi. rewrite rscale_nth in *. rewrite Rabs_mult, (Rabs_right (/ c)) by lra. apply Rmult_le_compat_l; auto. apply Ha. intros Z. apply Hi. rewrite Z. ring.
      + rewrite first_scale by auto. apply Rle_lt_trans with (/ c * (sp_rate delta ^ k * first_error delta xs e)); [apply Req_le; ring|].
        apply Rmult_lt_compat_l; auto. now apply Rinv_0_lt_compat.
  Qed.
End Fin.
