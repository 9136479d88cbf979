From Coq Require Import List Arith Bool Lia Reals Lra Psatz.
From Verif Require Import Vec RVec RMat Loop LoopLemmas XReal SolverSpec SolverLemmas OptSpec OptProofs SelModel SelProofs CGModel CGProofs FomProofs2 SpglProofs L1lsModel L1lsSpec.
Import ListNotations.
Set Implicit Arguments.
Local Open Scope R_scope.

(** *** vectors in two halves *)
Lemma rdot_app a b c d : length a = length c -> rdot (a ++ b) (c ++ d) = rdot a c + rdot b d.
Proof.
  revert c. induction a as [|x a IH]; intros [|z c] L; try discriminate.
  - cbn [app]. replace (rdot [] []) with 0 by reflexivity. lra.
  - injection L as L. cbn [app]. replace (rdot (x :: a ++ b) (z :: c ++ d)) with (x * z + rdot (a ++ b) (c ++ d)) by (unfold rdot; cbn; ring).
    rewrite IH by auto. replace (rdot (x :: a) (z :: c)) with (x * z + rdot a c) by (unfold rdot; cbn; ring). lra.
Qed.
Lemma halves n (v : vec) : length v = (2 * n)%nat -> length (firstn n v) = n /\ length (skipn n v) = n.
Proof. intros L. rewrite firstn_length, skipn_length. lia. Qed.
Arguments halves n {v} _.

Lemma firstn_app_len (p q : vec) n : length p = n -> firstn n (p ++ q) = p.
Proof. intros <-. rewrite firstn_app, firstn_all, Nat.sub_diag, firstn_O. apply app_nil_r. Qed.
Lemma skipn_app_len (p q : vec) n : length p = n -> skipn n (p ++ q) = q.
Proof. intros <-. rewrite skipn_app, skipn_all, Nat.sub_diag. reflexivity. Qed.
Lemma firstn_nth (v : vec) k i : (i < k)%nat -> (firstn k v)@i = v@i.
Proof. revert k i. induction v as [|a v IH]; intros [|k] [|i] H; cbn; auto; try lia. apply IH. lia. Qed.
Lemma skipn_nth (v : vec) k i : (skipn k v)@i = v@(k + i).
Proof. revert v. induction k as [|k IH]; intros [|a v]; cbn; auto. destruct i; auto. Qed.
Lemma halves_radd n u v : length u = (2 * n)%nat -> length v = (2 * n)%nat ->
  firstn n (radd u v) = radd (firstn n u) (firstn n v) /\ skipn n (radd u v) = radd (skipn n u) (skipn n v).
Proof.
  intros Lu Lv. destruct (halves n Lu), (halves n Lv).
  assert (length (radd u v) = (2 * n)%nat) as L by vl. destruct (halves n L).
  split; apply vec_eq; try vl; intros i Hi.
  - rewrite firstn_nth, !radd_nth, !firstn_nth by vl. auto.
  - rewrite skipn_nth, !radd_nth, !skipn_nth by vl. auto.
Qed.
Lemma halves_rscale n c v : length v = (2 * n)%nat ->
  firstn n (rscale c v) = rscale c (firstn n v) /\ skipn n (rscale c v) = rscale c (skipn n v).
Proof.
  intros Lv. destruct (halves n Lv).
  assert (length (rscale c v) = (2 * n)%nat) as L by vl. destruct (halves n L).
  split; apply vec_eq; try vl; intros i Hi.
  - rewrite firstn_nth, !rscale_nth, !firstn_nth by vl. auto.
  - rewrite skipn_nth, !rscale_nth, !skipn_nth by vl. auto.
Qed.
Lemma app_radd a b c d : length a = length c -> length b = length d -> radd (a ++ b) (c ++ d) = radd a c ++ radd b d.
Proof.
  intros L1 L2. revert c L1. induction a as [|x a IH]; intros [|z c] L1; try discriminate; auto.
  injection L1 as L1. cbn [app radd zipw]. f_equal. apply IH; auto.
Qed.
Lemma app_rscale c a b : rscale c (a ++ b) = rscale c a ++ rscale c b.
Proof. apply map_app. Qed.
Lemma rdot_halves n u v : length u = (2 * n)%nat -> length v = (2 * n)%nat ->
  rdot u v = rdot (firstn n u) (firstn n v) + rdot (skipn n u) (skipn n v).
Proof.
  intros Lu Lv. destruct (halves n Lu), (halves n Lv). rewrite <- rdot_app by congruence. now rewrite !firstn_skipn.
Qed.

Lemma lin2_add n a b p p' q q' : length a = n -> length b = n -> length p = n -> length p' = n -> length q = n -> length q' = n ->
  radd (rmul a (radd p p')) (rmul b (radd q q')) = radd (radd (rmul a p) (rmul b q)) (radd (rmul a p') (rmul b q')).
Proof. intros. veq. Qed.
Lemma lin2_scale n a b k p q : length a = n -> length b = n -> length p = n -> length q = n ->
  radd (rmul a (rscale k p)) (rmul b (rscale k q)) = rscale k (radd (rmul a p) (rmul b q)).
Proof. intros. veq. Qed.
(** a 2 x 2 block matrix of diagonal blocks [a b; b c] *)
Definition blk n (a b c : vec) (v : vec) : vec :=
  radd (rmul a (firstn n v)) (rmul b (skipn n v)) ++ radd (rmul b (firstn n v)) (rmul c (skipn n v)).
Section Blk.
  Variables (n : nat) (a b c : vec).
  Hypothesis La : length a = n.
  Hypothesis Lb : length b = n.
  Hypothesis Lc : length c = n.
  Lemma blk_len v : length v = (2 * n)%nat -> length (blk n a b c v) = (2 * n)%nat.
  Proof. intros L. destruct (halves n L). unfold blk. rewrite app_length. vl. Qed.
  Lemma blk_linear : linear_op (2 * n) (2 * n) (blk n a b c).
  Proof.
    split; [exact blk_len|]. split.
    - intros u v Lu Lv. destruct (halves n Lu), (halves n Lv). unfold blk.
      destruct (halves_radd n u v Lu Lv) as [-> ->]. rewrite app_radd by vl. now rewrite !(@lin2_add n).
    - intros k v Lv. destruct (halves n Lv). unfold blk.
      destruct (halves_rscale n k v Lv) as [-> ->]. rewrite app_rscale. now rewrite !(@lin2_scale n).
  Qed.
  Lemma blk_dot u v : length u = (2 * n)%nat -> length v = (2 * n)%nat ->
    rdot u (blk n a b c v) = rsum n (fun i => u@i * (a@i * v@i + b@i * v@(n + i)) + u@(n + i) * (b@i * v@i + c@i * v@(n + i))).
  Proof.
    intros Lu Lv. destruct (halves n Lu), (halves n Lv). rewrite <- (firstn_skipn n u) at 1. unfold blk. rewrite rdot_app by vl.
    rewrite (@rdot_sum n), (@rdot_sum n (skipn n u)) by vl. rewrite <- rsum_add. apply rsum_ext. intros i Hi.
    rewrite !radd_nth, !rmul_nth, !firstn_nth, !skipn_nth by vl. reflexivity.
  Qed.
  Lemma blk_sym : symmetric_op (2 * n) (blk n a b c).
  Proof.
    intros u v Lu Lv. rewrite rdot_sym, !blk_dot by auto. apply rsum_ext. intros i Hi. ring.
  Qed.
  Hypothesis Ha : forall i, (i < n)%nat -> 0 < a@i.
  Hypothesis Hd : forall i, (i < n)%nat -> 0 < a@i * c@i - b@i * b@i.
  Lemma blk_term i x z : (i < n)%nat -> x * (a@i * x + b@i * z) + z * (b@i * x + c@i * z) =
    ((a@i * x + b@i * z) * (a@i * x + b@i * z) + (a@i * c@i - b@i * b@i) * (z * z)) / a@i.
  Proof. intros Hi. pose proof (Ha Hi). field. lra. Qed.
  Lemma blk_term_pos i x z : (i < n)%nat -> 0 <= x * (a@i * x + b@i * z) + z * (b@i * x + c@i * z).
  Proof.
    intros Hi. rewrite blk_term by auto. pose proof (Ha Hi). pose proof (Hd Hi). apply Rmult_le_pos; [|left; now apply Rinv_0_lt_compat].
    pose proof (Rle_0_sqr (a@i * x + b@i * z)) as S1. pose proof (Rle_0_sqr z) as S2. unfold Rsqr in *.
    pose proof (Rmult_le_pos (a@i * c@i - b@i * b@i) (z * z) ltac:(lra) S2). lra.
  Qed.
  Lemma blk_term_zero i x z : (i < n)%nat -> x * (a@i * x + b@i * z) + z * (b@i * x + c@i * z) = 0 -> x = 0 /\ z = 0.
  Proof.
    intros Hi E. rewrite blk_term in E by auto. pose proof (Ha Hi). pose proof (Hd Hi).
    pose proof (Rle_0_sqr (a@i * x + b@i * z)) as S1. pose proof (Rle_0_sqr z) as S2. unfold Rsqr in *.
    assert (E' : (a@i * x + b@i * z) * (a@i * x + b@i * z) + (a@i * c@i - b@i * b@i) * (z * z) = 0).
    { apply Rmult_integral in E as [E|E]; auto. exfalso. pose proof (Rinv_0_lt_compat _ H). lra. }
    pose proof (Rmult_le_pos (a@i * c@i - b@i * b@i) (z * z) ltac:(lra) S2) as S3.
    assert (Z : (a@i * c@i - b@i * b@i) * (z * z) = 0) by lra.
    apply Rmult_integral in Z as [Z|Z]; [lra|]. assert (z = 0) by (apply Rmult_integral in Z; tauto). subst z. split; auto.
    assert (Q : (a@i * x) * (a@i * x) = 0) by lra. assert (a@i * x = 0) as Q' by (apply Rmult_integral in Q; tauto).
    apply Rmult_integral in Q'. destruct Q'; auto. lra.
  Qed.
  Lemma blk_pos : positive_op (2 * n) (blk n a b c).
  Proof.
    intros v Lv NZ. rewrite blk_dot by auto.
    assert (P : 0 <= rsum n (fun i => v@i * (a@i * v@i + b@i * v@(n + i)) + v@(n + i) * (b@i * v@i + c@i * v@(n + i)))).
    { apply rsum_pos. intros i Hi. now apply blk_term_pos. }
    destruct P as [P|P]; auto. exfalso. apply NZ. symmetry in P.
    pose proof (rsum_eq0 _ (fun i Hi => blk_term_pos (v@i) (v@(n+i)) Hi) P) as Z.
    apply vec_eq; [vl|]. intros i Hi. rewrite rzero_nth. destruct (le_lt_dec n i).
    - assert (Hj : (i - n < n)%nat) by lia. destruct (blk_term_zero Hj (Z _ Hj)) as [_ E]. now replace (n + (i - n))%nat with i in E by lia.
    - destruct (blk_term_zero l (Z _ l)) as [E _]. auto.
  Qed.
End Blk.

Section Newton.
  Variables (n m : nat) (times trans : vec -> vec) (y : vec) (lambda : R) (x u : vec) (t : R).
  Hypothesis Adj : adjoint_ops n m times trans.
  Hypothesis Ly : length y = m.
  Hypothesis Hin : strictly_inside n x u.
  Hypothesis Ht : 0 < t.
  Let En : l1_n trans y = n. Proof. unfold l1_n. now apply Adj. Qed.
  Let Lx : length x = n. Proof. apply Hin. Qed.
  Let Lu : length u = n. Proof. apply Hin. Qed.
  Lemma inside_bounds i : (i < n)%nat -> 0 < u@i + x@i /\ 0 < u@i - x@i.
  Proof. intros Hi. destruct Hin as [_ [_ H]]. specialize (H i Hi). apply Rabs_def2 in H. lra. Qed.
  Notation q1 := (q1_ trans y x u). Notation q2 := (q2_ trans y x u).
  Notation d1 := (d1_ trans y x u t). Notation d2 := (d2_ trans y x u t).
  Lemma Lq1 : length q1 = n. Proof. unfold q1_. now rewrite tab_length. Qed.
  Lemma Lq2 : length q2 = n. Proof. unfold q2_. now rewrite tab_length. Qed.
  Lemma Ld1 : length d1 = n. Proof. unfold d1_. now rewrite tab_length. Qed.
  Lemma Ld2 : length d2 = n. Proof. unfold d2_. now rewrite tab_length. Qed.
  Lemma q1_pos i : (i < n)%nat -> q1@i = / (u@i + x@i) /\ 0 < q1@i.
  Proof. intros Hi. unfold q1_. rewrite En, nth_tab by auto. destruct (inside_bounds Hi) as [H1 _]. apply Rinv_0_lt_compat in H1. lra. Qed.
  Lemma q2_pos i : (i < n)%nat -> q2@i = / (u@i - x@i) /\ 0 < q2@i.
  Proof. intros Hi. unfold q2_. rewrite En, nth_tab by auto. destruct (inside_bounds Hi) as [_ H1]. apply Rinv_0_lt_compat in H1. lra. Qed.
  Lemma d1_nth i : (i < n)%nat -> d1@i = (q1@i * q1@i + q2@i * q2@i) * / t.
  Proof. intros Hi. unfold d1_. rewrite En, nth_tab by auto. unfold Rdiv. ring. Qed.
  Lemma d2_nth i : (i < n)%nat -> d2@i = (q1@i * q1@i - q2@i * q2@i) * / t.
  Proof. intros Hi. unfold d2_. rewrite En, nth_tab by auto. unfold Rdiv. ring. Qed.
  Lemma d_pos i : (i < n)%nat -> 0 < d1@i /\ 0 < d1@i * d1@i - d2@i * d2@i.
  Proof.
    intros Hi. rewrite d1_nth, d2_nth by auto. destruct (q1_pos Hi) as [_ H1], (q2_pos Hi) as [_ H2].
    pose proof (Rinv_0_lt_compat _ Ht) as H3. pose proof (Rmult_lt_0_compat _ _ H1 H1). pose proof (Rmult_lt_0_compat _ _ H2 H2).
    split; [apply Rmult_lt_0_compat; lra|].
    replace (_ - _) with (4 * (q1@i * q1@i) * (q2@i * q2@i) * (/ t * / t)) by ring.
    repeat apply Rmult_lt_0_compat; lra.
  Qed.
  Notation H := (hessian times trans y x u t).
  Notation M := (preconditioner trans y x u t).
  Definition gram v := trans (rscale 2 (times (firstn n v))) ++ rzero n.
  Lemma hessian_eq v : length v = (2 * n)%nat -> H v = radd (gram v) (blk n d1 d2 d1 v).
  Proof.
    intros L. destruct (halves n L) as [K0 K1]. unfold hessian, gram, blk. cbv zeta. rewrite En. destruct Adj as [[A0 _] [[T0 _] _]].
    pose proof (A0 _ K0). assert (length (trans (rscale 2 (times (firstn n v)))) = n) by (apply T0; vl). pose proof Ld1. pose proof Ld2.
    rewrite app_radd by vl. f_equal; veq; ring.
  Qed.
  Lemma gram_linear : linear_op (2 * n) (2 * n) gram.
  Proof.
    destruct Adj as [[A0 [A1 A2]] [[T0 [T1 T2]] _]]. split; [|split].
    - intros v L. destruct (halves n L) as [K0 K1]. unfold gram. rewrite app_length. pose proof (A0 _ K0).
      rewrite T0 by vl. rewrite rzero_len. lia.
    - intros a b La Lb. destruct (halves n La) as [K0 K1], (halves n Lb) as [K2 K3]. unfold gram. destruct (halves_radd n a b La Lb) as [-> _].
      pose proof (A0 _ K0). pose proof (A0 _ K2). rewrite A1 by vl.
      replace (rscale 2 (radd (times (firstn n a)) (times (firstn n b)))) with (radd (rscale 2 (times (firstn n a))) (rscale 2 (times (firstn n b)))) by (veq; ring).
      rewrite T1 by vl. assert (length (trans (rscale 2 (times (firstn n a)))) = n) by (apply T0; vl). assert (length (trans (rscale 2 (times (firstn n b)))) = n) by (apply T0; vl).
      rewrite app_radd by vl. f_equal. veq.
    - intros c v L. destruct (halves n L) as [K0 K1]. unfold gram. destruct (halves_rscale n c v L) as [-> _]. pose proof (A0 _ K0). rewrite A2 by vl.
      replace (rscale 2 (rscale c (times (firstn n v)))) with (rscale c (rscale 2 (times (firstn n v)))) by (veq; ring).
      rewrite T2 by vl. rewrite app_rscale. f_equal. veq.
  Qed.
  Lemma gram_dot v w : length v = (2 * n)%nat -> length w = (2 * n)%nat ->
    rdot v (gram w) = 2 * rdot (times (firstn n v)) (times (firstn n w)).
  Proof.
    intros Lv Lw. destruct (halves n Lv) as [K0 K1], (halves n Lw) as [K2 K3]. destruct Adj as [[A0 _] [[T0 _] AT]]. pose proof (A0 _ K2).
    rewrite <- (firstn_skipn n v) at 1. unfold gram. rewrite rdot_app by (rewrite T0; vl). rewrite rdot_zero_r, <- AT by vl.
    rewrite rdot_scale_r. lra.
  Qed.
  Lemma hessian_linear : linear_op (2 * n) (2 * n) H.
  Proof.
    destruct gram_linear as [G0 [G1 G2]]. destruct (@blk_linear n d1 d2 d1 Ld1 Ld2 Ld1) as [B0 [B1 B2]].
    split; [|split].
    - intros v L. rewrite hessian_eq by auto. pose proof (G0 _ L). pose proof (B0 _ L). vl.
    - intros a b La Lb. rewrite !hessian_eq by vl. rewrite G1, B1 by auto. pose proof (G0 _ La). pose proof (G0 _ Lb). pose proof (B0 _ La). pose proof (B0 _ Lb).
      veq.
    - intros c v L. rewrite !hessian_eq by vl. rewrite G2, B2 by auto. pose proof (G0 _ L). pose proof (B0 _ L). veq.
  Qed.
  Lemma hessian_dot v w : length v = (2 * n)%nat -> length w = (2 * n)%nat ->
    rdot v (H w) = 2 * rdot (times (firstn n v)) (times (firstn n w)) + rdot v (blk n d1 d2 d1 w).
  Proof.
    intros Lv Lw. rewrite hessian_eq by auto. rewrite rdot_add_r, gram_dot by (auto; rewrite (proj1 gram_linear), blk_len by (auto using Ld1, Ld2); auto). auto.
  Qed.
  Lemma hessian_sym : symmetric_op (2 * n) H.
  Proof.
    intros v w Lv Lw. rewrite rdot_sym, !hessian_dot by auto. rewrite <- (@blk_sym n d1 d2 d1 Ld1 Ld2 Ld1 v w Lv Lw).
    rewrite (rdot_sym (times (firstn n w))), (rdot_sym w). auto.
  Qed.
  Lemma hessian_pos : positive_op (2 * n) H.
  Proof.
    intros v L NZ. rewrite hessian_dot by auto. pose proof (rdot_pos (times (firstn n v))).
    assert (0 < rdot v (blk n d1 d2 d1 v)); [|lra]. apply blk_pos; auto using Ld1, Ld2; intros i Hi; apply (d_pos Hi).
  Qed.
  (** the preconditioner inverts the Hessian with A^T A replaced by the identity *)
  Definition prs_ i : R := (2 + d1@i) * d1@i - d2@i * d2@i.
  Lemma prs_pos i : (i < n)%nat -> 0 < prs_ i.
  Proof. intros Hi. unfold prs_. destruct (d_pos Hi). lra. Qed.
  Lemma precond_eq v : length v = (2 * n)%nat ->
    M v = blk n (tab n (fun i => d1@i / prs_ i)) (tab n (fun i => - (d2@i / prs_ i))) (tab n (fun i => (2 + d1@i) / prs_ i)) v.
  Proof.
    intros L. destruct (halves n L) as [K0 K1]. unfold preconditioner, blk. cbv zeta. rewrite En. pose proof Ld1. pose proof Ld2.
    f_equal; apply vec_eq; try (vl; rewrite ?tab_length; vl); intros i Hi;
      assert (Hi' : (i < n)%nat) by (revert Hi; vl; rewrite ?tab_length; vl).
    - rewrite radd_nth, rsub_nth, !rmul_nth, !nth_tab by (vl; rewrite ?tab_length; vl). unfold prs_. cbn [pow]. rewrite !Rmult_1_r. lra.
    - rewrite !radd_nth, !rmul_nth, !ropp_nth, !nth_tab by (vl; rewrite ?tab_length; vl). unfold prs_. cbn [pow]. rewrite !Rmult_1_r. lra.
  Qed.
  Lemma precond_len v : length v = (2 * n)%nat -> length (M v) = (2 * n)%nat.
  Proof. intros L. rewrite precond_eq by auto. apply blk_len; auto; apply tab_length. Qed.
  Lemma precond_sym : symmetric_op (2 * n) M.
  Proof. intros v w Lv Lw. rewrite !precond_eq by auto. apply blk_sym; auto; apply tab_length. Qed.
  Lemma precond_pos : positive_op (2 * n) M.
  Proof.
    intros v L NZ. rewrite precond_eq by auto. apply blk_pos; auto; try apply tab_length.
    - intros i Hi. rewrite nth_tab by auto. destruct (d_pos Hi). pose proof (prs_pos Hi). apply Rdiv_lt_0_compat; auto.
    - intros i Hi. rewrite !nth_tab by auto. pose proof (prs_pos Hi) as P. 
      replace (_ - _) with (/ prs_ i); [now apply Rinv_0_lt_compat|].
      assert (E : prs_ i = (2 + d1@i) * d1@i - d2@i * d2@i) by reflexivity.
      replace (d1@i / prs_ i * ((2 + d1@i) / prs_ i) - - (d2@i / prs_ i) * - (d2@i / prs_ i)) with
        (((2 + d1@i) * d1@i - d2@i * d2@i) * (/ prs_ i * / prs_ i)) by (field; lra).
      rewrite <- E. field. lra.
  Qed.
  Lemma precond_inverse v : length v = (2 * n)%nat ->
    M (blk n (tab n (fun i => 2 + d1@i)) d2 d1 v) = v.
  Proof.
    intros L. destruct (halves n L) as [K0 K1]. pose proof Ld1. pose proof Ld2. set (w := blk _ _ _ _ _).
    assert (Lw : length w = (2 * n)%nat) by (apply blk_len; auto; apply tab_length).
    rewrite precond_eq by auto. transitivity (firstn n v ++ skipn n v); [|apply firstn_skipn]. unfold blk at 1.
    assert (W1 : firstn n w = radd (rmul (tab n (fun i => 2 + d1@i)) (firstn n v)) (rmul d2 (skipn n v))).
    { apply firstn_app_len. vl. }
    assert (W2 : skipn n w = radd (rmul d2 (firstn n v)) (rmul d1 (skipn n v))).
    { apply skipn_app_len. vl. }
    rewrite W1, W2. f_equal; apply vec_eq; try (vl; rewrite ?tab_length; vl); intros i Hi;
      assert (Hi' : (i < n)%nat) by (revert Hi; vl; rewrite ?tab_length; vl);
      rewrite !radd_nth, !rmul_nth, !radd_nth, !rmul_nth, !nth_tab by (vl; rewrite ?tab_length; vl);
      pose proof (prs_pos Hi') as P; assert (E : prs_ i = (2 + d1@i) * d1@i - d2@i * d2@i) by reflexivity.
    - replace (_ + _) with (((2 + d1@i) * d1@i - d2@i * d2@i) * / prs_ i * (firstn n v)@i) by (field; lra). rewrite <- E. field. lra.
    - replace (_ + _) with (((2 + d1@i) * d1@i - d2@i * d2@i) * / prs_ i * (skipn n v)@i) by (field; lra). rewrite <- E. field. lra.
  Qed.
End Newton.
