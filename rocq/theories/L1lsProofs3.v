From Coq Require Import List Arith Bool Lia Reals Lra Psatz.
From Verif Require Import Vec RVec RMat Loop LoopLemmas XReal SolverSpec SolverLemmas OptSpec OptProofs SelModel SelProofs CGModel CGProofs FomProofs2 SpglProofs L1lsModel L1lsSpec L1lsProofs L1lsProofs2.
Import ListNotations.
Set Implicit Arguments.
Local Open Scope R_scope.

Lemma nrminf_scale c x : 0 <= c -> nrminf (rscale c x) = c * nrminf x.
Proof.
  intros Hc. induction x as [|a x IH]; cbn [rscale map nrminf]; [ring|]. fold (rscale c x). rewrite IH, Rabs_mult, (Rabs_pos_eq c) by auto.
  now rewrite RmaxRmult.
Qed.

(** *** duality *)
Section Dual.
  Variables (n m : nat) (times trans : vec -> vec) (y : vec) (lambda : R).
  Hypothesis Adj : adjoint_ops n m times trans.
  Hypothesis Ly : length y = m.
  Hypothesis Hl : 0 <= lambda.
  Notation nu := (get_nu trans lambda).
  Notation obj := (l1ls_obj times y lambda).
  Lemma get_nu_cases z : length z = m -> exists c, 0 <= c <= 1 /\ nu z = rscale (2 * c) z /\ (0 < lambda -> 0 < c).
  Proof.
    intros Lz. unfold get_nu. cbv zeta. destruct (Reqb_spec (nrminf (trans (rscale 2 z))) 0) as [E|E].
    - exists 1. split; [lra|]. split; [f_equal; lra|lra].
    - destruct (Rltb_spec (lambda / nrminf (trans (rscale 2 z))) 1) as [E1|E1].
      + exists (lambda / nrminf (trans (rscale 2 z))). pose proof (nrminf_pos (trans (rscale 2 z))).
        assert (P : 0 < / nrminf (trans (rscale 2 z))) by (apply Rinv_0_lt_compat; lra). split; [split|].
        * apply Rmult_le_pos; lra.
        * lra.
        * split; [veq|]. intros. apply Rmult_lt_0_compat; auto.
      + exists 1. split; [lra|]. split; [f_equal; lra|lra].
  Qed.
  Lemma get_nu_len z : length z = m -> length (nu z) = m.
  Proof. intros Lz. destruct (get_nu_cases z Lz) as [c [_ [-> _]]]. vl. Qed.
  Lemma get_nu_feasible z : length z = m -> nrminf (trans (nu z)) <= lambda.
  Proof.
    intros Lz. unfold get_nu. cbv zeta. destruct Adj as [_ [[T0 [_ T2]] _]]. pose proof (nrminf_pos (trans (rscale 2 z))) as P.
    destruct (Reqb_spec (nrminf (trans (rscale 2 z))) 0) as [E|E]; [lra|].
    destruct (Rltb_spec (lambda / nrminf (trans (rscale 2 z))) 1) as [E1|E1].
    - assert (0 < / nrminf (trans (rscale 2 z))) by (apply Rinv_0_lt_compat; lra).
      rewrite T2, nrminf_scale by (try apply Rmult_le_pos; vl; lra). right. field. lra.
    - assert (Q : 1 * nrminf (trans (rscale 2 z)) <= lambda / nrminf (trans (rscale 2 z)) * nrminf (trans (rscale 2 z))) by (apply Rmult_le_compat_r; lra).
      replace (lambda / nrminf (trans (rscale 2 z)) * nrminf (trans (rscale 2 z))) with lambda in Q by (field; lra). lra.
  Qed.
  (** weak duality *)
  Lemma weak_duality v w : length v = m -> nrminf (trans v) <= lambda -> length w = n -> get_dual_obj y v <= obj w.
  Proof.
    intros Lv Hv Lw. destruct Adj as [[A0 _] [[T0 _] AT]]. unfold get_dual_obj, l1ls_obj. pose proof (A0 _ Lw) as LA. pose proof (T0 _ Lv) as LT.
    assert (Lz : length (rsub (times w) y) = m) by vl.
    assert (E : rdot v (rsub (times w) y) = rdot (trans v) w - rdot v y).
    { rewrite rdot_sub_r by vl. f_equal. rewrite rdot_sym, AT, rdot_sym by auto. auto. }
    pose proof (holder (trans v) w) as Hh. pose proof (Rle_abs (- rdot (trans v) w)) as Hb. rewrite Rabs_Ropp in Hb.
    pose proof (Rmult_le_compat_r (nrm1 w) _ _ (nrm1_pos w) Hv) as Hc.
    pose proof (rdot_pos (rsub (rsub (times w) y) (rscale (/ 2) v))) as Hs.
    revert E Lz Hs. generalize (rsub (times w) y). intros z E Lz Hs.
    rewrite rdot_sub_l, !rdot_sub_r, rdot_scale_l, !rdot_scale_r, rdot_scale_l in Hs by vl. rewrite (rdot_sym z v) in Hs. unfold nrm2. lra.
  Qed.
  Lemma primal_eq x : get_primal_obj lambda x (rsub (times x) y) = obj x.
  Proof. reflexivity. Qed.
  (** the dual value at the residual of zero is positive *)
  Lemma dual_at_zero : 0 < lambda -> y <> rzero m -> 0 < get_dual_obj y (nu (rsub (times (rzero n)) y)).
  Proof.
    intros Pl NZ. destruct Adj as [LA _]. assert (E : times (rzero n) = rzero m).
    { destruct LA as [A0 [A1 A2]]. replace (rzero n) with (rscale 0 (rzero n)) by veq. rewrite A2 by vl. pose proof (A0 (rzero n) ltac:(vl)). veq. }
    rewrite E. destruct (get_nu_cases (rsub (rzero m) y) ltac:(vl)) as [c [C [-> Pc]]]. specialize (Pc Pl).
    replace (rscale (2 * c) (rsub (rzero m) y)) with (rscale (- (2 * c)) y) by veq. unfold get_dual_obj.
    rewrite !rdot_scale_l, rdot_scale_r. assert (0 < rdot y y).
    { pose proof (rdot_pos y) as [P|P]; auto. symmetry in P. apply rdot_eq0 in P. rewrite Ly in P. contradiction. }
    replace (- (1 / 4) * (- (2 * c) * (- (2 * c) * rdot y y)) - - (2 * c) * rdot y y) with ((c * (2 - c)) * rdot y y) by field.
    apply Rmult_lt_0_compat; auto. apply Rmult_lt_0_compat; lra.
  Qed.
End Dual.

(** *** the constraints *)
Lemma constraints_len n x u : length x = n -> length u = n -> length (constraints x u) = (2 * n)%nat.
Proof. intros. unfold constraints. rewrite app_length. vl. Qed.
Lemma constraints_nth n x u i : length x = n -> length u = n -> (i < n)%nat ->
  (constraints x u)@i = x@i - u@i /\ (constraints x u)@(n + i) = - x@i - u@i.
Proof.
  intros Lx Lu Hi. unfold constraints. rewrite app_nth1, app_nth2 by vl. rewrite rsub_len, Lx, Lu, Nat.min_id.
  replace (n + i - n)%nat with i by lia. rewrite !rsub_nth, ropp_nth by vl. auto.
Qed.
Lemma constraints_inside n x u : length x = n -> length u = n -> (0 < n)%nat -> (vmax (constraints x u) < 0 <-> strictly_inside n x u).
Proof.
  intros Lx Lu Hn. pose proof (constraints_len x u Lx Lu) as L.
  assert (NE : constraints x u <> []) by (intros E; rewrite E in L; cbn in L; lia).
  destruct (vmax_spec NE) as [V1 V2]. split.
  - intros H. split; auto. split; auto. intros i Hi. destruct (@constraints_nth n x u i Lx Lu Hi) as [E1 E2].
    assert (H1 : (constraints x u)@i <= vmax (constraints x u)) by (apply V2, nth_In; lia).
    assert (H2 : (constraints x u)@(n + i) <= vmax (constraints x u)) by (apply V2, nth_In; lia).
    apply Rabs_def1; lra.
  - intros [_ [_ H]]. apply (In_nth _ _ 0) in V1 as [j [Hj E]]. rewrite <- E. destruct (le_lt_dec n j).
    + assert (Hi : (j - n < n)%nat) by lia. destruct (@constraints_nth n x u (j - n) Lx Lu Hi) as [_ E2].
      replace (n + (j - n))%nat with j in E2 by lia. rewrite E2. specialize (H _ Hi). apply Rabs_def2 in H. lra.
    + destruct (@constraints_nth n x u j Lx Lu l) as [E1 _]. rewrite E1. specialize (H _ l). apply Rabs_def2 in H. lra.
Qed.
Lemma get_phi_barrier n times y lambda x u t : length x = n -> length u = n ->
  get_phi lambda u (rsub (times x) y) (constraints x u) t = barrier n times y lambda t x u.
Proof.
  intros Lx Lu. unfold get_phi, barrier, nrm2. rewrite (@rlsum_sum n u) by auto.
  assert (E : rlsum (map (fun v => ln (- v)) (constraints x u)) = rsum n (fun i => ln (u@i + x@i) + ln (u@i - x@i))).
  { rewrite (@rlsum_sum (n + n)) by (rewrite map_length, (@constraints_len n); auto; lia). rewrite rsum_split, <- rsum_add. apply rsum_ext. intros i Hi.
    assert (Q : forall k, (k < n + n)%nat -> (map (fun v => ln (- v)) (constraints x u))@k = ln (- (constraints x u)@k)).
    { intros k Hk. rewrite nth_indep with (d' := (fun v => ln (- v)) 0) by (rewrite map_length, (@constraints_len n); auto; lia). apply (map_nth (fun v => ln (- v))). }
    rewrite !Q by lia. destruct (@constraints_nth n x u i Lx Lu Hi) as [-> ->]. rewrite Rplus_comm. f_equal; f_equal; ring. }
  rewrite E. unfold Rdiv. ring.
Qed.

(** *** small steps *)
Lemma small_all n (P : nat -> R -> Prop) : (forall i, (i < n)%nat -> exists d, 0 < d /\ forall s, 0 < s < d -> P i s) ->
  exists d, 0 < d /\ forall s, 0 < s < d -> forall i, (i < n)%nat -> P i s.
Proof.
  induction n as [|n IH]; intros H; [exists 1; split; [lra|intros; lia]|].
  destruct IH as [d [Hd D]]; [intros; apply H; lia|]. destruct (H n ltac:(lia)) as [e [He E]].
  exists (Rmin d e). split; [now apply Rmin_glb_lt|]. intros s [S1 S2] i Hi. pose proof (Rmin_l d e). pose proof (Rmin_r d e).
  destruct (Nat.eq_dec i n) as [->|]; [apply E; lra|apply D; [lra|lia]].
Qed.
Lemma half_pow_lt d : 0 < d -> exists k, (/ 2) ^ k < d.
Proof.
  intros Hd. destruct (pow_lt_1_zero (/ 2) ltac:(rewrite Rabs_pos_eq; lra) d Hd) as [k K]. exists k.
  specialize (K k (le_n k)). rewrite Rabs_pos_eq in K; auto. left. apply pow_lt. lra.
Qed.
Lemma half_pow_pos k : 0 < (/ 2) ^ k <= 1.
Proof. induction k as [|k IH]; cbn [pow]; lra. Qed.
Lemma half_pow_mono j k : (j <= k)%nat -> (/ 2) ^ k <= (/ 2) ^ j.
Proof. induction 1 as [|k H IH]; [lra|]. cbn [pow]. pose proof (half_pow_pos k). lra. Qed.

Section Search.
  Variables (n m : nat) (times trans : vec -> vec) (y : vec) (lambda : R) (x u dx du : vec) (t gdx : R).
  Hypothesis Adj : adjoint_ops n m times trans.
  Hypothesis Ly : length y = m.
  Hypothesis Hin : strictly_inside n x u.
  Hypothesis Hn : (0 < n)%nat.
  Hypothesis Ht : 0 < t.
  Hypothesis Ldx : length dx = n.
  Hypothesis Ldu : length du = n.
  Let Lx : length x = n. Proof. apply Hin. Qed.
  Let Lu : length u = n. Proof. apply Hin. Qed.
  Let phi := get_phi lambda u (rsub (times x) y) (constraints x u) t.
  Notation fin := (f_init x u dx du).
  Notation bar := (barrier n times y lambda t).
  Lemma f_cond_spec s : f_cond (fin s) = false <-> strictly_inside n (radd x (rscale s dx)) (radd u (rscale s du)).
  Proof.
    unfold f_cond, f_init. cbn. destruct (@constraints_inside n (radd x (rscale s dx)) (radd u (rscale s du)) ltac:(vl) ltac:(vl) Hn) as [C1 C2].
    split; intros H.
    - apply Rleb_false in H. auto.
    - destruct (Rleb_spec 0 (vmax (constraints (radd x (rscale s dx)) (radd u (rscale s du))))); auto. specialize (C2 H). lra.
  Qed.
  Lemma inside_small : exists d, 0 < d /\ forall s, 0 < s < d -> strictly_inside n (radd x (rscale s dx)) (radd u (rscale s du)).
  Proof.
    destruct (@small_all n (fun i s => Rabs (x@i + s * dx@i) < u@i + s * du@i)) as [d [Hd D]].
    - intros i Hi. destruct Hin as [_ [_ H]]. specialize (H i Hi). set (c := Rabs (dx@i) + Rabs (du@i) + 1).
      assert (0 < c) by (unfold c; pose proof (Rabs_pos (dx@i)); pose proof (Rabs_pos (du@i)); lra).
      exists ((u@i - Rabs (x@i)) / c). split; [apply Rdiv_lt_0_compat; lra|]. intros s [S1 S2].
      assert (S3 : s * c < u@i - Rabs (x@i)).
      { apply Rmult_lt_compat_r with (r := c) in S2; auto. replace ((u@i - Rabs (x@i)) / c * c) with (u@i - Rabs (x@i)) in S2 by (field; lra). auto. }
      pose proof (Rabs_triang (x@i) (s * dx@i)) as T. rewrite Rabs_mult, (Rabs_pos_eq s) in T by lra.
      pose proof (Rle_abs (- du@i)) as T2. rewrite Rabs_Ropp in T2.
      pose proof (Rmult_le_compat_l s _ _ (Rlt_le _ _ S1) T2). unfold c in S3. lra.
    - exists d. split; auto. intros s S. split; [vl|]. split; [vl|]. intros i Hi. rewrite !radd_nth, !rscale_nth by vl. auto.
  Qed.
  Lemma feas_reach s k f : reaches f_cond (f_body x u dx du) (fin s) k f -> f = fin ((/ 2) ^ k * s).
  Proof.
    induction 1 as [|k f f' H IH C B]; [apply (f_equal fin); cbn [pow]; lra|]. subst f. injection B as <-. transitivity (fin (L1LS_BETA * ((/ 2) ^ k * s))); [reflexivity|]. apply (f_equal fin).
    unfold L1LS_BETA. cbn [pow]. lra.
  Qed.
  Lemma feasible_done fuel s f : feasible x u dx du fuel s = Done f ->
    exists k, f = fin ((/ 2) ^ k * s) /\ strictly_inside n (fe_x f) (fe_u f).
  Proof.
    intros H. apply while_done in H as [k [_ [H C]]]. apply feas_reach in H. exists k. split; auto. subst f. apply f_cond_spec in C. exact C.
  Qed.
  Lemma feasible_total : exists fuel, forall s, 0 < s <= 1 -> exists f, feasible x u dx du fuel s = Done f.
  Proof.
    destruct inside_small as [d [Hd D]]. destruct (half_pow_lt Hd) as [K HK]. exists (S K). intros s Hs.
    apply while_total; [intros; discriminate|]. intros k f H C. apply feas_reach in H. subst f.
    destruct (le_lt_dec (S K) k); auto. exfalso. assert (E : f_cond (fin ((/ 2) ^ k * s)) = false); [|congruence].
    apply f_cond_spec, D. pose proof (half_pow_pos k). pose proof (@half_pow_mono K k ltac:(lia)).
    split; [apply Rmult_lt_0_compat; lra|]. pose proof (Rmult_le_compat_l ((/ 2) ^ k) s 1 ltac:(lra) ltac:(lra)). lra.
  Qed.
  (** states of the backtracking loop *)
  Definition bt_ok j (b : bt_state) : Prop :=
    exists s, 0 < s <= (/ 2) ^ j /\ (exists k, s = (/ 2) ^ k) /\ bt_s b = s /\ bt_x b = radd x (rscale s dx) /\ bt_u b = radd u (rscale s du) /\
      strictly_inside n (bt_x b) (bt_u b) /\ bt_z b = rsub (times (bt_x b)) y /\ bt_phi b = bar (bt_x b) (bt_u b) /\ bt_count b = S j.
  Lemma bt_of_ok fuel s f j : feasible x u dx du fuel s = Done f -> 0 < s <= (/ 2) ^ j -> (exists k, s = (/ 2) ^ k) -> bt_ok j (bt_of times y lambda t f (S j)).
  Proof.
    intros H Hs [k Hk]. apply feasible_done in H as [i [E I]]. exists ((/ 2) ^ i * s). pose proof (half_pow_pos i).
    assert (0 < (/ 2) ^ i * s) by (apply Rmult_lt_0_compat; lra). pose proof (Rmult_le_compat_r s ((/ 2) ^ i) 1 ltac:(lra) ltac:(lra)).
    split; [lra|]. split; [exists (i + k)%nat; now rewrite pow_add, Hk|].
    unfold bt_of. cbv zeta. cbn. subst f. cbn in *. repeat (split; [solve [auto]|]). split; auto. apply get_phi_barrier; vl.
  Qed.
  Notation bcond := (bt_cond phi gdx).
  Lemma phi_eq : phi = bar x u.
  Proof. apply get_phi_barrier; auto. Qed.
  Lemma bt_reach ff f k b : feasible x u dx du ff 1 = Done f ->
    reaches bcond (bt_body times y lambda x u dx du t ff) (bt_of times y lambda t f 1) k b -> bt_ok k b.
  Proof.
    intros F. induction 1 as [|k b b' H IH C B].
    - eapply bt_of_ok; eauto; [cbn; lra|]. exists 0%nat. reflexivity.
    - unfold bt_body in B. destruct (feasible _ _ _ _ ff (L1LS_BETA * _)) as [f'| |] eqn:F'; try discriminate. injection B as <-.
      destruct IH as [s [S0 [[i Si] [Es [_ [_ [_ [_ [_ Ec]]]]]]]]]. rewrite Ec. eapply bt_of_ok; eauto; rewrite Es; unfold L1LS_BETA; cbn [pow].
      + lra.
      + exists (S i). cbn [pow]. rewrite <- Si. lra.
  Qed.
  Lemma search_done ff bf b : line_search times y lambda x u dx du t phi gdx ff bf = Done b ->
    exists j, bt_ok j b /\ bar (bt_x b) (bt_u b) <= bar x u + L1LS_ALPHA * bt_s b * gdx.
  Proof.
    unfold line_search. destruct (feasible _ _ _ _ ff 1) as [f| |] eqn:F; try discriminate. intros H.
    apply while_done in H as [j [_ [H C]]]. apply (bt_reach F) in H. exists j. split; auto.
    destruct H as [s [_ [_ [_ [_ [_ [_ [_ [Ep _]]]]]]]]]. unfold bt_cond in C. apply Rltb_false in C. rewrite Ep, phi_eq in C. lra.
  Qed.
  (** along a descent direction the search ends *)
  Lemma search_total : gdx = rdot (gradient_phi trans y lambda x u (rsub (times x) y) t) (dx ++ du) -> gdx < 0 ->
    exists ff bf b, line_search times y lambda x u dx du t phi gdx ff bf = Done b.
  Proof.
    intros Eg Hg. destruct feasible_total as [ff FF]. exists ff.
    destruct (@barrier_derivative n m times trans y lambda x u t Adj Ly Hin dx du Ldx Ldu (- gdx / 2) ltac:(lra)) as [d D]. rewrite <- Eg in D.
    destruct (half_pow_lt (cond_pos d)) as [K HK]. exists (S K). unfold line_search.
    destruct (FF 1 ltac:(lra)) as [f F]. rewrite F. apply while_total.
    - intros k b H C B. destruct (bt_reach F H) as [s [S0 [_ [Es _]]]]. unfold bt_body in B. pose proof (half_pow_pos k).
      destruct (FF (L1LS_BETA * bt_s b)) as [f' F']; [rewrite Es; unfold L1LS_BETA; lra|]. rewrite F' in B. discriminate.
    - intros k b H C. destruct (le_lt_dec (S K) k); auto. exfalso. destruct (bt_reach F H) as [s [S0 [_ [Es [Ex [Eu [_ [_ [Ep _]]]]]]]]].
      unfold bt_cond in C. apply Rltb_true in C. rewrite Ep, phi_eq, Es, Ex, Eu in C. pose proof (@half_pow_mono K k ltac:(lia)).
      assert (Hs : Rabs s < d) by (rewrite Rabs_pos_eq; lra). specialize (D s ltac:(lra) Hs).
      rewrite !Rplus_0_l in D. replace (radd x (rscale 0 dx)) with x in D by veq. replace (radd u (rscale 0 du)) with u in D by veq.
      apply Rabs_def2 in D as [D _]. set (q := bar (radd x (rscale s dx)) (radd u (rscale s du)) - bar x u) in *.
      assert (Q : q / s < gdx / 2) by lra. apply Rmult_lt_compat_r with (r := s) in Q; [|lra].
      replace (q / s * s) with q in Q by (field; lra). unfold L1LS_ALPHA in C.
      assert (0 < s * - gdx) by (apply Rmult_lt_0_compat; lra). lra.
  Qed.
  (** a zero direction is accepted at once *)
  Lemma search_zero : gdx = 0 -> dx = rzero n -> du = rzero n ->
    exists b, line_search times y lambda x u dx du t phi gdx 0 0 = Done b /\ bt_x b = x /\ bt_u b = u.
  Proof.
    intros Eg Ex Eu. unfold line_search, feasible. cbn [while_].
    assert (X : radd x (rscale 1 dx) = x) by (rewrite Ex; veq). assert (U : radd u (rscale 1 du) = u) by (rewrite Eu; veq).
    assert (C : f_cond (fin 1) = false) by (apply f_cond_spec; now rewrite X, U). rewrite C. unfold bt_of, f_init. cbn. rewrite X, U.
    assert (B : forall z c, bt_cond phi gdx (BtState x u (constraints x u) z phi 1 c) = false).
    { intros z c. unfold bt_cond. cbn. destruct (Rltb_spec (L1LS_ALPHA * 1 * gdx) (phi - phi)); auto. rewrite Eg in *. lra. }
    fold phi. rewrite B. eexists. split; [reflexivity|]. auto.
  Qed.
End Search.
