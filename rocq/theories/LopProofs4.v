(** Positivity, flags, dot test, norm estimate, refutations. *)
From Coq Require Import List Arith Bool Lia Reals Lra Psatz.
From Verif Require Import Scalar Vec Loop LopSpec LopOpSpec LopModel LopModel2D LopModel3 LopLemmas LopProofs LopProofs2 LopProofs3.
Import ListNotations.
Set Implicit Arguments.
Local Open Scope R_scope.

Lemma gap_test_spec a b tol : 0 < tol ->
  gap_test a b tol = true <->
  (a + b + / 10 ^ 15 < 0 \/ (0 < a + b + / 10 ^ 15 /\ Rabs (a - b) < tol * ((a + b + / 10 ^ 15) / 2))).
Proof.
  intros Ht. unfold gap_test. set (d := a + b + / 10 ^ 15).
  destruct (Reqb_spec (d / 2) 0) as [E|E].
  - split; [discriminate|]. intros [H|[H _]]; lra.
  - rewrite Rltb_true. split.
    + intros H. destruct (Rlt_dec d 0); [now left|right]. assert (0 < d) by lra. split; auto.
      apply Rmult_lt_reg_r with (/ (d/2)); [apply Rinv_0_lt_compat; lra|].
      replace (tol * (d / 2) * / (d / 2)) with tol by (field; lra). exact H.
    + intros [H|[H1 H2]].
      * apply Rle_lt_trans with 0; auto.
        assert (0 <= Rabs (a - b)) by apply Rabs_pos.
        assert (/ (d / 2) < 0) by (apply Rinv_lt_0_compat; lra). unfold Rdiv at 1. nra.
      * apply Rmult_lt_reg_r with (d / 2); [lra|]. unfold Rdiv at 1.
        rewrite Rmult_assoc, Rinv_l by lra. lra.
Qed.

Lemma dot_test_accepts (A : operator Rs) u v tol : adj A -> 0 < tol ->
  length u = on A -> length v = om A ->
  @inner Rs (times A u) v <> - (/ 10 ^ 15) / 2 ->
  dot_test_real A u v tol = true.
Proof.
  intros [_ [_ H]] Ht Hu Hv Hn. unfold dot_test_real. rewrite <- H by auto.
  set (a := @inner Rs (times A u) v) in *. apply gap_test_spec; auto.
  destruct (Rtotal_order (a + a + / 10 ^ 15) 0) as [L|[E|G]]; [now left| |].
  - exfalso. apply Hn. lra.
  - right. split; auto. rewrite Rminus_diag_eq by reflexivity. rewrite Rabs_R0. nra.
Qed.

Lemma dot_test_sound (A : operator Rs) u v tol : 0 < tol ->
  0 < @inner Rs (times A u) v + @inner Rs u (trans A v) + / 10 ^ 15 ->
  dot_test_real A u v tol = true ->
  Rabs (@inner Rs (times A u) v - @inner Rs u (trans A v)) <
    tol * ((@inner Rs (times A u) v + @inner Rs u (trans A v) + / 10 ^ 15) / 2).
Proof.
  intros Ht Hp H. apply gap_test_spec in H; auto. destruct H as [H|[_ H]]; [lra|exact H].
Qed.

(** an operator whose "adjoint" is -3 x is accepted on u = v = [1] *)
Lemma dot_test_unsound : exists (A : operator Rs) u v,
  length u = on A /\ length v = om A /\
  dot_test_real A u v (/ 10 ^ 6) = true /\
  Rabs (@inner Rs (times A u) v - @inner Rs u (trans A v)) = 4.
Proof.
  exists (mkop (fun x => x) (@vscale Rs (-3)) 1 1), [1], [1].
  split; [reflexivity|]. split; [reflexivity|]. split.
  - apply gap_test_spec; [lra|]. left. simpl. lra.
  - simpl. replace (1 * 1 + 0 - (1 * (-3 * 1) + 0)) with 4 by ring. rewrite Rabs_right; lra.
Qed.

(** *** norm estimate *)
Section NE.
  Variable K : scalar.
  Variable sabs : K -> R.
  Variable Hself : forall x : list K, sabs (inner x x) = fold_right (fun a s => sabs a * sabs a + s) 0 x.
  Variable Hscale : forall c (x : list K), 0 < c ->
    fold_right (fun a s => sabs a * sabs a + s) 0 (vscale (ofR c) x) =
    c * c * fold_right (fun a s => sabs a * sabs a + s) 0 x.

  Lemma sumsq_nonneg (x : list K) : 0 <= fold_right (fun a s => sabs a * sabs a + s) 0 x.
  Proof. induction x; simpl; [lra|]. nra. Qed.

  Lemma ne_cond_init m tol (b : list K) : tol < 2 -> ne_cond (S m) tol (ne_init b) = true.
  Proof.
    intros Ht. unfold ne_cond. cbn [ne_init ne_it ne_old ne_new Nat.ltb Nat.leb andb].
    destruct (Reqb_spec (- (10 ^ 20)) 0); [lra|]. apply Rltb_true.
    replace ((10 ^ 20 - - 10 ^ 20) / - 10 ^ 20) with (-2) by (field; lra).
    rewrite Rabs_left; lra.
  Qed.

  Lemma normest_le (A : operator K) b max_iters tol L e :
    adj A -> length b = on A -> (1 <= max_iters)%nat -> tol < 2 -> 0 <= L ->
    (forall x, length x = on A -> l2norm sabs (times A x) <= L * l2norm sabs x) ->
    normest sabs A b max_iters tol = Done e -> 0 <= e <= L.
  Proof.
    intros HA Hb Hm Ht HL Hop. unfold normest.
    destruct (Reqb (l2norm sabs b) 0); [discriminate|].
    set (b' := vscale _ b). destruct (while_ _ _ _ _) as [s| |] eqn:W; try discriminate.
    intros [= <-]. split; [apply sqrt_pos|].
    assert (Step : forall s1 s2, length (ne_v s1) = on A -> ne_body sabs A s1 = Some s2 ->
               length (ne_v s2) = on A /\ 0 <= ne_new s2 <= L * L /\ (0 < ne_it s2)%nat).
    { intros s1 s2 Hl. unfold ne_body.
      destruct (Reqb_spec (l2norm sabs (ne_v s1)) 0) as [|Hn]; [discriminate|]. intros [= <-]. simpl.
      set (v := vscale _ (ne_v s1)).
      assert (Hv : length v = on A) by (unfold v; now rewrite vscale_length).
      destruct HA as [A1 [A2 A3]]. split; [apply A2, A1, Hv|]. split; [|lia].
      rewrite <- A3 by auto. rewrite Hself.
      assert (Hv1 : l2norm sabs v = 1).
      { unfold l2norm, v. unfold l2norm in Hn. pose proof (sqrt_pos (fold_right (fun a s => sabs a * sabs a + s) 0 (ne_v s1))).
        rewrite Hscale by (apply Rinv_0_lt_compat; unfold l2norm; lra).
        unfold l2norm. set (q := fold_right _ _ (ne_v s1)) in *.
        replace (/ sqrt q * / sqrt q * q) with 1; [apply sqrt_1|].
        assert (Hq : sqrt q * sqrt q = q) by (apply sqrt_sqrt, sumsq_nonneg).
        rewrite <- Hq at 3. field. lra. }
      pose proof (Hop v Hv) as H1. rewrite Hv1 in H1.
      unfold l2norm in H1. set (q := fold_right _ _ (times A v)) in *.
      assert (0 <= q) by apply sumsq_nonneg. split; auto.
      assert (Hq : sqrt q * sqrt q = q) by (apply sqrt_sqrt; auto).
      pose proof (sqrt_pos q). nra. }
    pose (P := fun s : ne_state K => length (ne_v s) = on A /\
       ((ne_it s = 0%nat /\ s = ne_init b') \/ (0 <= ne_new s <= L * L))).
    assert (HP : P s /\ ne_cond max_iters tol s = false).
    { apply (@while_inv _ _ _ P) in W; auto.
      - intros s1 s2 [H1 _] _ HB. destruct (Step s1 s2 H1 HB) as [? [? ?]]. split; auto.
      - split; [|left; auto]. simpl. unfold b'. now rewrite vscale_length. }
    destruct HP as [[_ [[H0 E]|H]] HC].
    - exfalso. subst s. destruct max_iters; [lia|]. rewrite ne_cond_init in HC by auto. discriminate.
    - rewrite <- (sqrt_Rsqr L HL). unfold Rsqr. apply sqrt_le_1; try apply H. nra.
  Qed.

  Lemma normest_no_fuel (A : operator K) b max_iters tol : normest sabs A b max_iters tol <> Fuel.
  Proof.
    unfold normest. destruct (Reqb _ 0); [discriminate|].
    destruct (while_ _ _ _ _) eqn:W; try discriminate. exfalso. revert W.
    apply while_term with (mu := fun s => (max_iters - ne_it s)%nat) (P := fun _ => True); auto.
    - intros s _. unfold ne_cond. intros H. apply andb_true_iff in H. destruct H as [H _].
      apply Nat.ltb_lt in H. lia.
    - intros s s' _ H. unfold ne_cond in H. apply andb_true_iff in H. destruct H as [H _].
      apply Nat.ltb_lt in H. unfold ne_body. destruct (Reqb _ 0); [discriminate|]. intros [= <-]. simpl. split; auto. lia.
    - simpl. lia.
  Qed.
End NE.

Lemma Rs_self (x : list Rs) : Rabs (@inner Rs x x) = fold_right (fun a s => Rabs a * Rabs a + s) 0 x.
Proof.
  rewrite Rabs_right by (apply Rle_ge, inner_pos_R).
  induction x; simpl; auto. rewrite IHx. f_equal. rewrite <- Rabs_mult, Rabs_right; auto. simpl. nra.
Qed.
Lemma Rs_scale c (x : list Rs) : 0 < c ->
  fold_right (fun a s => Rabs a * Rabs a + s) 0 (@vscale Rs (ofR c) x) =
  c * c * fold_right (fun a s => Rabs a * Rabs a + s) 0 x.
Proof.
  intros Hc. induction x; simpl; [ring|]. simpl in IHx. rewrite IHx, Rabs_mult, (Rabs_right c) by lra. ring.
Qed.
Lemma Cabs_sq z : Cabs z * Cabs z = Cnsq z.
Proof. unfold Cabs. apply sqrt_sqrt. unfold Cnsq. nra. Qed.
Lemma Cs_self (x : list Cs) : Cabs (@inner Cs x x) = fold_right (fun a s => Cabs a * Cabs a + s) 0 x.
Proof.
  destruct (inner_pos_C x) as [H1 H2]. unfold Cabs at 1, Cnsq. rewrite H2.
  replace (fst (@inner Cs x x) * fst (@inner Cs x x) + 0 * 0) with (Rsqr (fst (@inner Cs x x))) by (unfold Rsqr; ring).
  rewrite sqrt_Rsqr by auto. clear. induction x as [|a x IH]; simpl; auto. rewrite IH, Cabs_sq.
  unfold Cnsq. simpl. ring.
Qed.
Lemma Cs_scale c (x : list Cs) : 0 < c ->
  fold_right (fun a s => Cabs a * Cabs a + s) 0 (@vscale Cs (ofR c) x) =
  c * c * fold_right (fun a s => Cabs a * Cabs a + s) 0 x.
Proof.
  intros Hc. induction x as [|a x IH]; simpl; [ring|]. simpl in IH. rewrite IH, !Cabs_sq. unfold Cnsq. simpl. ring.
Qed.

Lemma normest_zero_iters : @normest Rs Rabs (@op_zero Rs 1 1) [1] 0 (/2) = Done (sqrt (10 ^ 20)).
Proof.
  unfold normest. destruct (Reqb_spec (l2norm (K:=Rs) Rabs [1]) 0) as [E|E].
  - exfalso. unfold l2norm in E. simpl in E. rewrite Rabs_R1 in E.
    replace (1 * 1 + 0) with 1 in E by ring. rewrite sqrt_1 in E. lra.
  - reflexivity.
Qed.
Lemma normest_zero_op : @normest Rs Rabs (@op_zero Rs 1 1) [1] 100 (/ 10 ^ 6) = Fail.
Proof.
  assert (E1 : forall a, sqrt (Rabs a * Rabs a + 0) = Rabs a).
  { intros. rewrite Rplus_0_r. apply sqrt_Rsqr, Rabs_pos. }
  unfold normest, l2norm. simpl (fold_right _ _ _). rewrite E1, Rabs_R1.
  destruct (Reqb_spec 1 0); [lra|].
  cbn [while_]. rewrite ne_cond_init by lra. unfold ne_body at 1. unfold l2norm. simpl (fold_right _ _ _). rewrite E1.
  destruct (Reqb_spec (Rabs (/ 1 * 1)) 0) as [E|_].
  { exfalso. rewrite Rabs_right in E; lra. }
  cbn [while_]. unfold ne_cond at 1. cbn [ne_init ne_it ne_old ne_new].
  destruct (Reqb_spec (10 ^ 20) 0); [lra|].
  match goal with |- context [Rltb _ ?e] => assert (E2 : e = 1) end.
  { simpl. replace (/ Rabs (/ 1 * 1) * (/ 1 * 1) * 0 + 0) with 0 by ring. rewrite Rabs_R0.
    match goal with |- Rabs ?e = 1 => replace e with (-1) by (field; lra) end. rewrite Rabs_left; lra. }
  rewrite E2. destruct (Rltb_spec (/ 10 ^ 6) 1) as [_|H]; [|exfalso; apply H; lra].
  cbn [Nat.ltb Nat.leb andb]. unfold ne_body at 1. unfold l2norm. simpl (fold_right _ _ _). rewrite E1, Rabs_R0.
  destruct (Reqb_spec 0 0); [reflexivity|]. contradiction.
Qed.
