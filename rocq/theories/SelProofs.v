From Coq Require Import List Arith Bool Lia Reals Lra Permutation.
From Verif Require Import Scalar Vec RVec Loop OptSpec OptModel OptProofs OptProofs2 SortedL1Model SortedL1Proofs SelModel SelSpec.
Import ListNotations.
Set Implicit Arguments.
Local Open Scope R_scope.

Lemma argmax_from_spec l : forall pre best bv, bv = (pre ++ l)@best -> (best < length pre)%nat ->
  (forall i, (i < length pre)%nat -> (pre ++ l)@i <= bv) ->
  (argmax_from (length pre) best bv l < length (pre ++ l))%nat /\
  forall i, (i < length (pre ++ l))%nat -> (pre ++ l)@i <= (pre ++ l)@(argmax_from (length pre) best bv l).
Proof.
  induction l as [|a l IH]; intros pre best bv Hb Hl Hi; cbn [argmax_from].
  - rewrite app_nil_r in *. split; auto. intros i H. rewrite <- Hb. auto.
  - specialize (IH (pre ++ [a])). rewrite <- app_assoc in IH. simpl app in IH. rewrite (app_length pre [a]) in IH. simpl length in IH.
    replace (length pre + 1)%nat with (S (length pre)) in IH by lia.
    assert (Ha : (pre ++ a :: l)@(length pre) = a) by (rewrite app_nth2, Nat.sub_diag by lia; reflexivity).
    destruct (Rltb_spec bv a); apply IH; auto; try lia.
    + intros i H. destruct (Nat.eq_dec i (length pre)) as [->|]; [lra|]. pose proof (Hi i ltac:(lia)). lra.
    + intros i H. destruct (Nat.eq_dec i (length pre)) as [->|]; [lra|]. apply Hi. lia.
Qed.
Lemma argmax_spec l : l <> [] -> (argmax l < length l)%nat /\ forall i, (i < length l)%nat -> l@i <= l@(argmax l).
Proof.
  destruct l as [|a l]; [easy|]. intros _. apply (argmax_from_spec l [a]); simpl; auto.
  intros i Hi. assert (i = 0)%nat by lia. subst. simpl. lra.
Qed.
Lemma fold_max l : forall a, (a <= fold_left Rmax l a) /\ (forall b, In b l -> b <= fold_left Rmax l a) /\
  (fold_left Rmax l a = a \/ In (fold_left Rmax l a) l).
Proof.
  induction l as [|c l IH]; intros a; simpl; [repeat split; auto; [lra|easy]|].
  destruct (IH (Rmax a c)) as [H1 [H2 H3]]. pose proof (Rmax_l a c). pose proof (Rmax_r a c).
  repeat split; [lra| |].
  - intros b [<-|Hb]; [lra|auto].
  - destruct H3 as [H3|H3]; auto. rewrite H3. unfold Rmax. destruct (Rle_dec a c); auto.
Qed.
Lemma vmax_spec l : l <> [] -> In (vmax l) l /\ forall a, In a l -> a <= vmax l.
Proof.
  destruct l as [|a l]; [easy|]. intros _. cbn [vmax]. destruct (fold_max l a) as [H1 [H2 H3]]. split.
  - destruct H3 as [->|]; simpl; auto.
  - intros b [<-|Hb]; auto.
Qed.
Lemma concat_len {X} n (G : list (list X)) : (forall r, In r G -> length r = n) -> length (concat G) = (length G * n)%nat.
Proof. induction G as [|a G IH]; intros H; simpl; auto. rewrite app_length, IH, (H a); simpl; auto. intros; apply H; now right. Qed.
Lemma nth_concat {X} n (G : list (list X)) d k : (forall r, In r G -> length r = n) -> (k < length G * n)%nat ->
  nth k (concat G) d = nth (k mod n) (nth (k / n) G []) d.
Proof.
  intros H. revert k. induction G as [|a G IH]; intros k Hk; simpl in Hk; [lia|]. simpl concat.
  assert (n <> 0)%nat by (destruct n; lia).
  assert (La : length a = n) by (apply H; now left). destruct (Nat.lt_ge_cases k n) as [Hn|Hn].
  - rewrite app_nth1 by lia. rewrite Nat.div_small, Nat.mod_small by auto. reflexivity.
  - rewrite app_nth2 by lia. rewrite La. rewrite IH by (try (intros; apply H; now right); lia).
    replace (k mod n) with ((k - n) mod n) by (replace k with (k - n + 1 * n)%nat at 2 by lia; now rewrite Nat.mod_add).
    replace (k / n)%nat with (S ((k - n) / n)); [reflexivity|].
    replace k with (k - n + 1 * n)%nat at 2 by lia. rewrite Nat.div_add by auto. lia.
Qed.

Lemma map_nth0 (f : R -> R) x i : f 0 = 0 -> (map f x)@i = f (x@i).
Proof. intros H. rewrite <- H at 1. apply map_nth. Qed.
(** *** largest_indices *)
Lemma mem_In i I : mem i I = true <-> In i I.
Proof.
  unfold mem. rewrite existsb_exists. split.
  - intros [j [Hj E]]. apply Nat.eqb_eq in E. now subst.
  - intros H. exists i. split; auto. apply Nat.eqb_refl.
Qed.
Lemma mem_nIn i I : mem i I = false <-> ~ In i I.
Proof. rewrite <- mem_In. destruct (mem i I); split; congruence. Qed.
Lemma ranked_desc a : descending (gather a (rev (argsort a))).
Proof. rewrite gather_rev, argsort_gather. apply rev_desc, rsort_asc. Qed.
Lemma ranked_perm a : Permutation (rev (argsort a)) (seq 0 (length a)).
Proof. rewrite <- Permutation_rev. apply argsort_perm. Qed.
Lemma gather_nth a J k : (k < length J)%nat -> (gather a J)@k = a@(nth k J 0%nat).
Proof.
  intros H. unfold gather. rewrite nth_indep with (d' := a@0%nat); [|now rewrite map_length].
  exact (map_nth (fun i => a@i) J 0%nat k).
Qed.
Lemma top_firstn a J K : descending (gather a J) -> Permutation J (seq 0 (length a)) -> (K <= length a)%nat ->
  top_selection a K (firstn K J).
Proof.
  intros D P HK.
  assert (LJ : length J = length a) by (rewrite (Permutation_length P); apply seq_length).
  assert (ND : NoDup J) by (apply (Permutation_NoDup (Permutation_sym P)), seq_NoDup).
  assert (HB : forall i, In i J <-> (i < length a)%nat).
  { intros i. split; intros H; [apply (Permutation_in _ P) in H; apply in_seq in H; lia|].
    apply (Permutation_in _ (Permutation_sym P)), in_seq. lia. }
  rewrite <- (firstn_skipn K J) in ND. repeat split.
  - rewrite <- (app_nil_r (firstn K J)). clear - ND. induction (firstn K J) as [|i l IH]; [constructor|].
    simpl in *. inversion ND as [|? ? Hni ND']; subst. rewrite app_nil_r in *. constructor; [|auto].
    intros C. apply Hni, in_or_app. now left.
  - rewrite firstn_length. lia.
  - intros i Hi. apply HB. rewrite <- (firstn_skipn K J). apply in_or_app. now left.
  - intros i j Hi Hj Hn. assert (Hj' : In j (skipn K J)).
    { apply HB in Hj. rewrite <- (firstn_skipn K J) in Hj. apply in_app_or in Hj. tauto. }
    apply (In_nth _ _ 0%nat) in Hi as [p [Hp Ep]]. apply (In_nth _ _ 0%nat) in Hj' as [q [Hq Eq]].
    rewrite firstn_length in Hp. rewrite skipn_length in Hq.
    assert (Ei : nth p J 0%nat = i).
    { rewrite <- Ep. rewrite <- (firstn_skipn K J) at 1. rewrite app_nth1; auto. rewrite firstn_length. lia. }
    assert (Ej : nth (K + q) J 0%nat = j).
    { rewrite <- Eq. rewrite <- (firstn_skipn K J) at 1. rewrite app_nth2; rewrite firstn_length; [|lia]. f_equal. lia. }
    rewrite <- Ei, <- Ej. rewrite <- !gather_nth by lia. apply D; [lia|]. rewrite gather_len. lia.
Qed.
Lemma largest_top h K : (K <= length h)%nat -> top_selection (map Rabs h) K (largest_indices h K).
Proof.
  intros H. unfold largest_indices. apply top_firstn; [apply ranked_desc|apply ranked_perm|]. now rewrite map_length.
Qed.
(** *** sums over selections *)
Lemma isum_indicator n I f : NoDup I -> (forall i, In i I -> (i < n)%nat) ->
  isum I f = rsum n (fun i => if mem i I then f i else 0).
Proof.
  unfold isum. induction I as [|a I IH]; intros ND H; cbn [map rlsum].
  - simpl. now rewrite rsum_0.
  - inversion ND as [|? ? Hni ND']; subst. rewrite IH by (auto; intros; apply H; now right).
    transitivity (rsum n (fun i => (if (i =? a)%nat then f i else 0) + (if mem i I then f i else 0))).
    + rewrite rsum_add. f_equal. symmetry. rewrite (@rsum_single n a); [now rewrite Nat.eqb_refl|apply H; now left|].
      intros i _ Hi. destruct (Nat.eqb_spec i a); congruence.
    + apply rsum_ext. intros i Hi. unfold mem. cbn [existsb]. fold (mem i I).
      destruct (Nat.eqb_spec i a) as [->|]; simpl; [|ring].
      destruct (mem a I) eqn:E; [apply mem_In in E; contradiction|ring].
Qed.
Lemma count_indicator n I : NoDup I -> (forall i, In i I -> (i < n)%nat) ->
  rsum n (fun i => if mem i I then 1 else 0) = INR (length I).
Proof.
  intros. rewrite <- (@isum_indicator n I (fun _ => 1)) by auto. unfold isum. clear.
  induction I as [|a I IH]; [reflexivity|]. cbn [map rlsum]. rewrite IH. cbn [length]. rewrite S_INR. ring.
Qed.
(** exchange argument: no set of at most K positions has a larger sum than a top selection *)
Lemma top_sum a K I T : (forall i, 0 <= a@i) -> top_selection a K I -> NoDup T -> (forall i, In i T -> (i < length a)%nat) ->
  (length T <= K)%nat -> isum T (fun i => a@i) <= isum I (fun i => a@i).
Proof.
  intros Ha (ND & HL & HB & HT) NT TB LT.
  rewrite !(@isum_indicator (length a)) by auto.
  assert (Hc : exists c, 0 <= c /\ (forall i, In i I -> c <= a@i) /\ (forall j, (j < length a)%nat -> ~ In j I -> a@j <= c)).
  { (* c is the largest unselected entry, or 0 *)
    set (U := filter (fun j => negb (mem j I)) (seq 0 (length a))).
    destruct U as [|u0 U0] eqn:EU.
    - exists 0. split; [lra|]. split; [auto|]. intros j Hj Hn. exfalso.
      assert (In j U) by (unfold U; apply filter_In; split; [apply in_seq; lia|]; apply mem_nIn in Hn; now rewrite Hn).
      rewrite EU in H. inversion H.
    - set (l := map (fun j => a@j) U). assert (Hl : l <> []) by (unfold l; rewrite EU; discriminate).
      destruct (vmax_spec Hl) as [V1 V2]. apply in_map_iff in V1 as [j [Ej Hj]].
      assert (HjU := Hj). unfold U in Hj. apply filter_In in Hj as [Hj1 Hj2]. apply in_seq in Hj1.
      apply negb_true_iff, mem_nIn in Hj2. exists (vmax l). rewrite <- Ej. split; [auto|]. split.
      + intros i Hi. apply HT; auto. lia.
      + intros k Hk Hn. rewrite Ej. apply V2. unfold l. apply in_map_iff. exists k. split; auto.
        unfold U. apply filter_In. split; [apply in_seq; lia|]. apply mem_nIn in Hn. now rewrite Hn. }
  destruct Hc as [c [C0 [C1 C2]]].
  assert (S1 : rsum (length a) (fun i => ((if mem i T then 1 else 0) - (if mem i I then 1 else 0)) * (a@i - c)) <= 0).
  { apply Rle_trans with (rsum (length a) (fun _ => 0)); [|rewrite rsum_0; lra]. apply rsum_le. intros i Hi.
    destruct (mem i I) eqn:E.
    - apply mem_In in E. pose proof (C1 i E). destruct (mem i T); lra.
    - apply mem_nIn in E. pose proof (C2 i Hi E). destruct (mem i T); lra. }
  assert (S2 : rsum (length a) (fun i => ((if mem i T then 1 else 0) - (if mem i I then 1 else 0)) * (a@i - c)) =
    rsum (length a) (fun i => if mem i T then a@i else 0) - rsum (length a) (fun i => if mem i I then a@i else 0)
    - c * (rsum (length a) (fun i => if mem i T then 1 else 0) - rsum (length a) (fun i => if mem i I then 1 else 0))).
  { rewrite <- !rsum_sub, <- rsum_mul_l, <- rsum_sub. apply rsum_ext. intros i _. destruct (mem i T), (mem i I); ring. }
  rewrite S2 in S1. rewrite !count_indicator in S1 by auto.
  assert (INR (length T) <= INR (length I)) by (apply le_INR; lia).
  assert (0 <= c * (INR (length I) - INR (length T))) by (apply Rmult_le_pos; lra). lra.
Qed.

(** *** best K-term approximation *)
Lemma keep_len h I : length (keep h I) = length h. Proof. unfold keep. apply tab_length. Qed.
Lemma keep_nth h I i : (i < length h)%nat -> (keep h I)@i = if mem i I then h@i else 0.
Proof. intros. unfold keep. now rewrite nth_tab. Qed.
Lemma top_sq h K I : top_selection (map Rabs h) K I -> top_selection (map (fun t => t * t) h) K I.
Proof.
  intros (ND & HL & HB & HT). rewrite map_length in *. repeat split; auto; [now rewrite map_length|].
  rewrite map_length. intros i j Hi Hj Hn. specialize (HT i j Hi Hj Hn).
  rewrite !map_nth0 in * by (try apply Rabs_R0; ring). rewrite <- (Rabs_right (h@j * h@j)), <- (Rabs_right (h@i * h@i)) by (pose proof (Rle_0_sqr (h@i)); pose proof (Rle_0_sqr (h@j)); unfold Rsqr in *; lra).
  rewrite !Rabs_mult. apply Rmult_le_compat; auto; apply Rabs_pos.
Qed.
Lemma best_k_term h K I z : top_selection (map Rabs h) K I -> sparse K z -> length z = length h ->
  nrm2 (rsub h (keep h I)) <= nrm2 (rsub h z).
Proof.
  intros HT [T0 [LT HZ]] Lz.
  set (n := length h). set (T := filter (fun i => (i <? n)%nat) (nodup Nat.eq_dec T0)).
  assert (NT : NoDup T) by (apply NoDup_filter, NoDup_nodup).
  assert (TB : forall i, In i T -> (i < n)%nat) by (intros i Hi; apply filter_In in Hi as [_ Hi]; now apply Nat.ltb_lt).
  assert (LT' : (length T <= K)%nat).
  { assert (length T <= length (nodup Nat.eq_dec T0))%nat.
    { unfold T. clear. induction (nodup Nat.eq_dec T0) as [|a l IH]; simpl; auto. destruct (a <? n)%nat; simpl; lia. }
    assert (length (nodup Nat.eq_dec T0) <= length T0)%nat.
    { apply NoDup_incl_length; [apply NoDup_nodup|]. intros i Hi. now apply nodup_In in Hi. }
    lia. }
  assert (ZT : forall i, (i < n)%nat -> ~ In i T -> z@i = 0).
  { intros i Hi Hn. apply HZ. intros C. apply Hn. apply filter_In. split; [now apply nodup_In|now apply Nat.ltb_lt]. }
  pose proof (top_sq h HT) as HS. set (a := map (fun t => t * t) h) in *.
  assert (La : length a = n) by apply map_length.
  assert (Ai : forall i, a@i = h@i * h@i).
  { intros i. unfold a. apply (map_nth0 (fun t => t * t)). ring. }
  assert (Ap : forall i, 0 <= a@i) by (intros i; rewrite Ai; apply Rle_0_sqr).
  pose proof (@top_sum a K I T Ap HS NT ltac:(rewrite La; auto) LT') as Q.
  destruct HS as (ND & HL & HB & _). rewrite La in HB.
  rewrite !(@isum_indicator n) in Q by auto.
  assert (E : nrm2 (rsub h (keep h I)) = rsum n (fun i => a@i) - rsum n (fun i => if mem i I then a@i else 0)).
  { unfold nrm2. rewrite (@rdot_sum n) by (rewrite rsub_len, keep_len; unfold n; lia).
    rewrite <- rsum_sub. apply rsum_ext. intros i Hi. rewrite rsub_nth by (now rewrite keep_len). rewrite keep_nth, Ai by auto. destruct (mem i I); ring. }
  rewrite E.
  assert (F : rsum n (fun i => a@i) - rsum n (fun i => if mem i T then a@i else 0) <= nrm2 (rsub h z)); [|lra].
  unfold nrm2. rewrite (@rdot_sum n) by (rewrite rsub_len; unfold n; lia).
  rewrite <- rsum_sub. apply rsum_le. intros i Hi. rewrite rsub_nth, Ai by lia.
  destruct (mem i T) eqn:M.
  - pose proof (Rle_0_sqr (h@i - z@i)). unfold Rsqr in *. lra.
  - apply mem_nIn in M. rewrite (ZT i Hi M). lra.
Qed.
Lemma keep_sparse h K I : length I = K -> sparse K (keep h I).
Proof.
  intros H. exists I. split; [lia|]. intros i Hi. destruct (Nat.lt_ge_cases i (length h)).
  - rewrite keep_nth by auto. apply mem_nIn in Hi. now rewrite Hi.
  - apply nth_overflow. rewrite keep_len. lia.
Qed.
(** *** sums of sorted entries *)
Lemma sorted_top_sum a K : isum (firstn K (rev (argsort a))) (fun i => a@i) = rlsum (firstn K (rev (rsort a))).
Proof.
  unfold isum. f_equal. rewrite <- firstn_map. f_equal. change (map (fun i => a@i) (rev (argsort a))) with (gather a (rev (argsort a))).
  now rewrite gather_rev, argsort_gather.
Qed.
Lemma sorted_top a K : (K <= length a)%nat -> top_selection a K (firstn K (rev (argsort a))).
Proof. intros. apply top_firstn; auto using ranked_desc, ranked_perm. Qed.
Lemma abs_max_spec h : h <> [] -> (abs_max_idx h < length h)%nat /\ forall i, Rabs (h@i) <= Rabs (h@(abs_max_idx h)).
Proof.
  intros H. unfold abs_max_idx. destruct (@argmax_spec (map Rabs h)) as [H1 H2]; [destruct h; easy|].
  rewrite map_length in *. split; auto. intros i. destruct (Nat.lt_ge_cases i (length h)) as [Hi|Hi].
  - specialize (H2 i Hi). now rewrite !map_nth0 in H2 by apply Rabs_R0.
  - rewrite (nth_overflow h) by lia. rewrite Rabs_R0. apply Rabs_pos.
Qed.
