From Coq Require Import List Arith Bool Lia Reals Lra Psatz Permutation.
From Verif Require Import Scalar Vec Loop RVec RMat XReal OptSpec OptModel OptProofs OptProofs2 OptProofs3 SortedL1Model.
Import ListNotations.
Set Implicit Arguments.
Local Open Scope R_scope.

(** *** argsort, gather, scatter *)
Lemma ins_idx_perm x i l : Permutation (ins_idx x i l) (i :: l).
Proof.
  induction l as [|j l IH]; simpl; auto. destruct (Rleb (x@i) (x@j)); auto.
  apply perm_trans with (j :: i :: l); [now constructor|apply perm_swap].
Qed.
Lemma argsort_perm x : Permutation (argsort x) (seq 0 (length x)).
Proof.
  unfold argsort. induction (seq 0 (length x)) as [|i l IH]; simpl; auto.
  rewrite ins_idx_perm. now constructor.
Qed.
Lemma ins_idx_gather x i l : gather x (ins_idx x i l) = rinsert (x@i) (gather x l).
Proof.
  induction l as [|j l IH]; simpl; auto. destruct (Rleb (x@i) (x@j)); simpl; auto. now rewrite IH.
Qed.
Lemma argsort_gather x : gather x (argsort x) = rsort x.
Proof.
  assert (H : forall l, gather x (fold_right (ins_idx x) [] l) = rsort (gather x l)).
  { induction l as [|i l IH]; simpl; auto. rewrite ins_idx_gather, IH. auto. }
  unfold argsort. rewrite H. f_equal. unfold gather.
  change (map (fun i => x@i) (seq 0 (length x))) with (tab (length x) (fun i => x@i)). apply tab_nth.
Qed.
Lemma gather_len y idx : length (gather y idx) = length idx. Proof. apply map_length. Qed.
Lemma gather_rev y idx : gather y (rev idx) = rev (gather y idx). Proof. apply map_rev. Qed.
Lemma gather_perm y idx : Permutation idx (seq 0 (length y)) -> Permutation (gather y idx) y.
Proof.
  intros H. apply (Permutation_map (fun i => y@i)) in H. unfold gather. rewrite H.
  change (map (fun i => y@i) (seq 0 (length y))) with (tab (length y) (fun i => y@i)). now rewrite tab_nth.
Qed.
Lemma gather_scatter n idx x : NoDup idx -> (forall i, In i idx -> (i < n)%nat) -> length idx = length x ->
  gather (scatter n idx x) idx = x.
Proof.
  intros ND Hb HL. unfold gather, scatter.
  assert (H : forall l y, NoDup l -> length l = length y -> map (scatter_get l y) l = y).
  { clear. induction l as [|i l IH]; intros [|a y] ND HL; try discriminate HL; simpl; auto.
    rewrite Nat.eqb_refl. f_equal. inversion ND as [|? ? Hni ND']; subst.
    transitivity (map (scatter_get l y) l); [|apply IH; auto; simpl in HL; lia].
    apply map_ext_in. intros j Hj. destruct (Nat.eqb_spec i j); [subst; contradiction|auto]. }
  transitivity (map (scatter_get idx x) idx); [|auto]. apply map_ext_in. intros i Hi. apply nth_tab. auto.
Qed.

(** two sorted permutations are equal *)
Lemma ascending_perm_eq : forall l l', ascending l -> ascending l' -> Permutation l l' -> l = l'.
Proof.
  induction l as [|a l IH]; intros l' H H' P.
  - apply Permutation_nil in P. auto.
  - destruct l' as [|b l']; [apply Permutation_sym, Permutation_nil in P; discriminate|].
    apply ascending_inv in H. apply ascending_inv in H'. destruct H as [H1 H2], H' as [H1' H2'].
    assert (a = b).
    { assert (Ha : In a (b :: l')) by (apply (Permutation_in _ P); now left).
      assert (Hb : In b (a :: l)) by (apply (Permutation_in _ (Permutation_sym P)); now left).
      destruct Ha as [|Ha], Hb as [|Hb]; auto. specialize (H2 _ Hb). specialize (H2' _ Ha). lra. }
    subst b. f_equal. apply IH; auto. now apply Permutation_cons_inv in P.
Qed.
Lemma rsort_perm_eq l l' : Permutation l l' -> rsort l = rsort l'.
Proof. intros P. apply ascending_perm_eq; auto using rsort_asc. rewrite !rsort_perm. auto. Qed.

(** *** rearrangement *)
Lemma desc_cons_inv a l : descending (a :: l) -> descending l /\ (forall i, (i < length l)%nat -> l@i <= a).
Proof.
  intros H. split; [intros i j Hij Hj; apply (H (S i) (S j)); simpl; lia|].
  intros i Hi. apply (H 0%nat (S i)); simpl; lia.
Qed.
(** insertion into a descending list *)
Fixpoint dinsert (a : R) (l : vec) : vec :=
  match l with [] => [a] | b :: l' => if Rleb b a then a :: l else b :: dinsert a l' end.
Fixpoint dsort (l : vec) : vec := match l with [] => [] | a :: l => dinsert a (dsort l) end.
Lemma dinsert_perm a l : Permutation (dinsert a l) (a :: l).
Proof.
  induction l as [|b l IH]; simpl; auto. destruct (Rleb b a); auto.
  apply perm_trans with (b :: a :: l); [now constructor|apply perm_swap].
Qed.
Lemma dsort_perm l : Permutation (dsort l) l.
Proof. induction l as [|a l IH]; simpl; auto. rewrite dinsert_perm. now constructor. Qed.
Lemma desc_cons a l : descending l -> (forall b, In b l -> b <= a) -> descending (a :: l).
Proof.
  intros H1 H2 [|i] [|j] Hij Hj; simpl in *; try lia; try lra.
  - apply H2, nth_In. lia.
  - apply H1; lia.
Qed.
Lemma desc_inv_in a l : descending (a :: l) -> forall b, In b l -> b <= a.
Proof. intros H b Hb. destruct (In_nth _ _ 0 Hb) as [i [Hi <-]]. apply (H 0%nat (S i)); simpl; lia. Qed.
Lemma dinsert_desc a l : descending l -> descending (dinsert a l).
Proof.
  induction l as [|b l IH]; simpl; intros H.
  - intros [|i] [|j] Hij Hj; simpl in *; try lia; lra.
  - destruct (Rleb_spec b a) as [Hab|Hab].
    + apply desc_cons; auto. intros c [<-|Hc]; auto. apply (desc_inv_in H) in Hc. lra.
    + pose proof (desc_inv_in H) as H2. apply desc_cons_inv in H. destruct H as [H1 _]. apply desc_cons; auto.
      intros c Hc. apply (Permutation_in _ (dinsert_perm a l)) in Hc. destruct Hc as [<-|Hc]; auto. lra.
Qed.
Lemma dsort_desc l : descending (dsort l).
Proof. induction l as [|a l IH]; simpl; [intros i j Hij Hj; simpl in Hj; lia|]. now apply dinsert_desc. Qed.
Lemma rev_asc l : descending l -> ascending (rev l).
Proof.
  intros H i j Hij Hj. rewrite rev_length in Hj.
  assert (E : forall k, (k < length l)%nat -> (rev l)@k = l@(length l - S k)) by (intros; now apply rev_nth).
  rewrite !E by lia. apply H; lia.
Qed.
Lemma dsort_rsort l : dsort l = rev (rsort l).
Proof.
  rewrite <- (rev_involutive (dsort l)). f_equal. apply ascending_perm_eq.
  - apply rev_asc, dsort_desc.
  - apply rsort_asc.
  - rewrite <- Permutation_rev, dsort_perm, rsort_perm. auto.
Qed.
Lemma rearr_insert a l : forall y, descending y -> length y = S (length l) ->
  rdot (a :: l) y <= rdot (dinsert a l) y.
Proof.
  induction l as [|b l IH]; intros [|y0 [|y1 y]] Hy HL; try discriminate HL; simpl dinsert; try lra.
  destruct (Rleb_spec b a) as [H|H]; [lra|].
  assert (H01 : y1 <= y0) by (apply (Hy 0%nat 1%nat); simpl; lia).
  apply desc_cons_inv in Hy. destruct Hy as [Hy _].
  specialize (IH (y1 :: y) Hy ltac:(simpl in *; lia)). simpl rdot in *. nra.
Qed.
Lemma dsort_len l : length (dsort l) = length l. Proof. apply Permutation_length, dsort_perm. Qed.
Lemma rearrangement l : forall y, descending y -> length y = length l -> rdot l y <= rdot (dsort l) y.
Proof.
  induction l as [|a l IH]; intros [|y0 y] Hy HL; try discriminate HL; simpl dsort; [simpl; lra|].
  apply Rle_trans with (rdot (a :: dsort l) (y0 :: y)).
  - simpl. pose proof (desc_cons_inv Hy) as [Hy' _]. specialize (IH y Hy' ltac:(simpl in *; lia)). lra.
  - apply rearr_insert; auto. simpl in *. rewrite dsort_len. lia.
Qed.

(** *** segments *)
Lemma seg_ids_from_len p k l : length (seg_ids_from p k l) = length l.
Proof. revert p k; induction l as [|a l IH]; intros; simpl; auto. Qed.
Lemma seg_ids_length x : length (seg_ids x) = length x.
Proof. destruct x as [|a l]; simpl; auto. now rewrite seg_ids_from_len. Qed.
Lemma seg_from_step p k l i : (S i < length l)%nat ->
  nth (S i) (seg_ids_from p k l) 0%nat = if Rltb (l@i) (l@(S i)) then nth i (seg_ids_from p k l) 0%nat else S (nth i (seg_ids_from p k l) 0%nat).
Proof.
  revert p k i; induction l as [|a l IH]; intros p k i Hi; simpl in Hi; [lia|].
  destruct l as [|b l]; [simpl in Hi; lia|]. destruct i as [|i].
  - simpl. reflexivity.
  - specialize (IH a (if Rltb p a then k else S k) i ltac:(simpl in *; lia)). exact IH.
Qed.
Lemma seg_ids_step (x : vec) i : (S i < length x)%nat ->
  nth (S i) (seg_ids x) 0%nat = if Rltb (x@i) (x@(S i)) then nth i (seg_ids x) 0%nat else S (nth i (seg_ids x) 0%nat).
Proof.
  intros Hi. destruct x as [|a l]; [simpl in Hi; lia|].
  destruct i as [|i].
  - destruct l as [|b l]; [simpl in Hi; lia|]. reflexivity.
  - cbn [seg_ids]. change (nth (S (S i)) (0%nat :: seg_ids_from a 0 l) 0%nat) with (nth (S i) (seg_ids_from a 0 l) 0%nat).
    change (nth (S i) (0%nat :: seg_ids_from a 0 l) 0%nat) with (nth i (seg_ids_from a 0 l) 0%nat).
    change ((a :: l)@(S i)) with (l@i). change ((a :: l)@(S (S i))) with (l@(S i)). apply seg_from_step. simpl in Hi. lia.
Qed.
Section Segments.
  Variable x : vec.
  Let n := length x.
  Let id (i : nat) : nat := nth i (seg_ids x) 0%nat.
  Lemma seg_ids_len : length (seg_ids x) = n.
  Proof. apply seg_ids_length. Qed.
  Lemma id_step i : (S i < n)%nat -> id (S i) = if Rltb (x@i) (x@(S i)) then id i else S (id i).
  Proof. apply seg_ids_step. Qed.
  Lemma id_mono i j : (i <= j)%nat -> (j < n)%nat -> (id i <= id j)%nat.
  Proof.
    induction 1 as [|j H IH]; intros Hj; [lia|]. rewrite id_step by auto.
    specialize (IH ltac:(lia)). destruct (Rltb _ _); lia.
  Qed.
  (** the run of equal ids around i *)
  Lemma run_exists i : (i < n)%nat -> exists s e, (s <= i < e)%nat /\ (e <= n)%nat /\
    (forall j, (j < n)%nat -> (id j = id i <-> s <= j < e)%nat).
  Proof.
    intros Hi.
    assert (H : forall m, (m <= n)%nat -> (i < m)%nat -> exists s e, (s <= i < e)%nat /\ (e <= m)%nat /\
      (forall j, (j < m)%nat -> (id j = id i <-> s <= j < e)%nat)).
    { induction m as [|m IH]; intros Hm Him; [lia|].
      destruct (Nat.eq_dec i m) as [->|Hne].
      - (* least index with the same id *)
        assert (L : forall k, (k <= m)%nat -> exists s, (s <= m)%nat /\ (m - k <= s)%nat /\ (forall j, (m - k <= j <= m)%nat -> (id j = id m <-> s <= j)%nat)).
        { induction k as [|k IHk]; intros Hk.
          - exists m. split; [lia|]. split; [lia|]. intros j Hj. assert (j = m) by lia. subst. lia.
          - destruct (IHk ltac:(lia)) as [s [H1 [H2 H3]]].
            destruct (Nat.eq_dec (id (m - S k)) (id m)) as [E|E].
            + exists (m - S k)%nat. split; [lia|]. split; [lia|]. intros j Hj. split; [lia|]. intros _.
              pose proof (id_mono (proj1 Hj) ltac:(lia)). pose proof (@id_mono j m ltac:(lia) ltac:(lia)). lia.
            + exists s. split; [lia|]. split; [lia|]. intros j Hj.
              destruct (Nat.eq_dec j (m - S k)) as [->|]; [split; [intros; contradiction|]|apply H3; lia].
              intros Hs. exfalso. lia. }
        destruct (L m (Nat.le_refl m)) as [s [H1 [H2 H3]]]. exists s, (S m). split; [lia|]. split; [lia|].
        intros j Hj. rewrite H3 by lia. lia.
      - destruct (IH ltac:(lia) ltac:(lia)) as [s [e [H1 [H2 H3]]]].
        destruct (Nat.eq_dec (id m) (id i)) as [E|E].
        + assert (e = m).
          { destruct (Nat.eq_dec e m); auto. exfalso.
            assert (id e <> id i) by (rewrite H3 by lia; lia).
            pose proof (@id_mono i e ltac:(lia) ltac:(lia)). pose proof (@id_mono e m ltac:(lia) ltac:(lia)). lia. }
          subst e. exists s, (S m). split; [lia|]. split; [lia|]. intros j Hj.
          destruct (Nat.eq_dec j m) as [->|]; [split; [lia|auto]|]. rewrite H3 by lia. lia.
        + exists s, e. split; [lia|]. split; [lia|]. intros j Hj.
          destruct (Nat.eq_dec j m) as [->|]; [split; [intros; contradiction|lia]|]. apply H3; lia. }
    destruct (H n (Nat.le_refl n) Hi) as [s [e H']]. exists s, e. exact H'.
  Qed.
  Lemma segment_sum_eq f ids k : length f = length ids ->
    segment_sum f ids k = rsum (length f) (fun i => if (nth i ids 0 =? k)%nat then f@i else 0).
  Proof.
    revert ids; induction f as [|a f IH]; intros [|i ids] HL; try discriminate HL; simpl length; auto.
    rewrite rsum_S_l. cbn [segment_sum nth]. rewrite IH by (simpl in HL; lia). reflexivity.
  Qed.
  Lemma segment_run f i s e : length f = n -> (s <= i < e)%nat -> (e <= n)%nat ->
    (forall j, (j < n)%nat -> (id j = id i <-> s <= j < e)%nat) ->
    segment_sum f (seg_ids x) (id i) = rsum (e - s) (fun j => f@(s + j)).
  Proof.
    intros Hf H1 H2 H3. rewrite segment_sum_eq by (rewrite seg_ids_len; auto). rewrite Hf.
    replace n with (s + ((e - s) + (n - e)))%nat by lia. rewrite !rsum_split.
    rewrite (rsum_0' (n := s)). 2:{ intros j Hj. destruct (Nat.eqb_spec (nth j (seg_ids x) 0%nat) (id i)) as [E|E]; auto. apply H3 in E; lia. }
    rewrite (rsum_0' (n := n - e)). 2:{ intros j Hj. destruct (Nat.eqb_spec (nth (s + (e - s + j)) (seg_ids x) 0%nat) (id i)) as [E|E]; auto. apply H3 in E; lia. }
    rewrite Rplus_0_l, Rplus_0_r. apply rsum_ext. intros j Hj.
    destruct (Nat.eqb_spec (nth (s + j) (seg_ids x) 0%nat) (id i)) as [E|E]; auto. exfalso. apply E. apply H3; lia.
  Qed.
  (** the averaging map *)
  Definition avg (f : vec) : vec :=
    map (fun k => segment_sum f (seg_ids x) k / segment_sum (map (fun _ => 1) x) (seg_ids x) k) (seg_ids x).
  Lemma avg_len f : length (avg f) = n. Proof. unfold avg. rewrite map_length. apply seg_ids_len. Qed.
  Lemma avg_nth f i s e : length f = n -> (s <= i < e)%nat -> (e <= n)%nat ->
    (forall j, (j < n)%nat -> (id j = id i <-> s <= j < e)%nat) ->
    (avg f)@i = rsum (e - s) (fun j => f@(s + j)) / INR (e - s).
  Proof.
    intros Hf H1 H2 H3. unfold avg.
    set (h := fun k => segment_sum f (seg_ids x) k / segment_sum (map (fun _ => 1) x) (seg_ids x) k).
    rewrite nth_indep with (d' := h 0%nat) by (rewrite map_length, seg_ids_len; lia).
    rewrite (map_nth h). unfold h. fold (id i). rewrite !(@segment_run _ i s e) by (auto; rewrite map_length; auto).
    f_equal. rewrite (rsum_ext _ (fun _ => 1)); [rewrite rsum_const; ring|].
    intros j Hj. rewrite nth_indep with (d' := 1) by (rewrite map_length; unfold n in *; lia).
    rewrite (map_nth (fun _ => 1) x 0 (s + j)%nat). auto.
  Qed.
  (** within a run x increases *)
  Lemma run_incr i s e : (s <= i < e)%nat -> (e <= n)%nat ->
    (forall j, (j < n)%nat -> (id j = id i <-> s <= j < e)%nat) ->
    forall j k, (s <= j)%nat -> (j <= k)%nat -> (k < e)%nat -> x@j <= x@k.
  Proof.
    intros H1 H2 H3 j k Hj Hjk. induction Hjk as [|k Hjk IH]; intros Hk; [lra|].
    specialize (IH ltac:(lia)). pose proof (@id_step k ltac:(lia)) as E.
    assert (id (S k) = id i) by (apply H3; lia). assert (id k = id i) by (apply H3; lia).
    destruct (Rltb_spec (x@k) (x@(S k))); [lra|lia].
  Qed.
  (** at the border of two runs x does not increase *)
  Lemma border i : (S i < n)%nat -> id (S i) <> id i -> x@(S i) <= x@i.
  Proof. intros Hi H. rewrite id_step in H by auto. destruct (Rltb_spec (x@i) (x@(S i))); [tauto|lra]. Qed.

  Let A (k : nat) := rsum k (fun j => x@j - (avg x)@j).
  (** prefix sums of the change *)
  Lemma A_step k s e : (s <= k < e)%nat -> (e <= n)%nat ->
    (forall j, (j < n)%nat -> (id j = id k <-> s <= j < e)%nat) ->
    A (S k) = A s + rsum (S k - s) (fun j => x@(s + j) - rsum (e - s) (fun j => x@(s + j)) / INR (e - s)).
  Proof.
    intros H1 H2 H3. unfold A. replace (S k) with (s + (S k - s))%nat at 1 by lia. rewrite rsum_split. f_equal.
    apply rsum_ext. intros j Hj. f_equal. apply (@avg_nth x (s + j)%nat s e); auto; try lia.
    intros j' Hj'. assert (E : id (s + j) = id k) by (apply H3; lia). rewrite E. auto.
  Qed.
  Lemma mean_zero e s : (s < e)%nat -> rsum (e - s) (fun j => x@(s + j) - rsum (e - s) (fun j => x@(s + j)) / INR (e - s)) = 0.
  Proof.
    intros H. rewrite rsum_sub, rsum_const. field. apply not_0_INR. lia.
  Qed.
  Lemma A_border k : (k <= n)%nat -> (k = 0%nat \/ k = n \/ id k <> id (k - 1)) -> A k = 0.
  Proof.
    induction k as [k IH] using lt_wf_ind. intros Hk Hb. destruct k as [|k]; [reflexivity|].
    destruct (@run_exists k ltac:(lia)) as [s [e [H1 [H2 H3]]]].
    assert (e = S k).
    { destruct (Nat.eq_dec e (S k)); auto. exfalso. assert (E : id (S k) = id k) by (apply H3; lia).
      destruct Hb as [Hb|[Hb|Hb]]; [lia|lia|]. replace (S k - 1)%nat with k in Hb by lia. contradiction. }
    subst e. rewrite (@A_step k s (S k)) by auto. rewrite mean_zero by lia. rewrite (IH s); [ring|lia|lia|].
    destruct s as [|s]; [auto|]. right. right. replace (S s - 1)%nat with s by lia.
    assert (id (S s) = id k) by (apply H3; lia). assert (id s <> id k) by (rewrite H3 by lia; lia). congruence.
  Qed.
  Lemma A_nonpos k : (k <= n)%nat -> A k <= 0.
  Proof.
    intros Hk. destruct k as [|k]; [unfold A; simpl; lra|].
    destruct (@run_exists k ltac:(lia)) as [s [e [H1 [H2 H3]]]].
    rewrite (@A_step k s e) by auto.
    assert (A s = 0).
    { apply A_border; [lia|]. destruct s as [|s]; [auto|]. right. right. replace (S s - 1)%nat with s by lia.
      assert (id (S s) = id k) by (apply H3; lia). assert (id s <> id k) by (rewrite H3 by lia; lia). congruence. }
    rewrite H. set (m := rsum (e - s) (fun j => x@(s + j)) / INR (e - s)).
    pose proof (@mean_zero e s ltac:(lia)) as Hz. fold m in Hz.
    destruct (Rle_lt_dec (x@k) m) as [Hle|Hlt].
    - assert (rsum (S k - s) (fun j => x@(s + j) - m) <= rsum (S k - s) (fun _ => 0)); [|rewrite rsum_0 in *; lra].
      apply rsum_le. intros j Hj. assert (x@(s + j) <= x@k) by (apply (@run_incr k s e); auto; lia). lra.
    - replace (e - s)%nat with ((S k - s) + (e - S k))%nat in Hz by lia. rewrite rsum_split in Hz.
      assert (0 <= rsum (e - S k) (fun i => x@(s + (S k - s + i)) - m)); [|lra].
      apply rsum_pos. intros j Hj. assert (x@k <= x@(s + (S k - s + j))) by (apply (@run_incr k s e); auto; lia). lra.
  Qed.
  Lemma avg_le_max k : (S k < n)%nat -> id (S k) <> id k -> (avg x)@k <= x@k /\ x@(S k) <= (avg x)@(S k).
  Proof.
    intros Hk Hne. split.
    - destruct (@run_exists k ltac:(lia)) as [s [e [H1 [H2 H3]]]]. rewrite (@avg_nth x k s e) by auto.
      assert (e = S k). { destruct (Nat.eq_dec e (S k)); auto. exfalso. apply Hne. apply H3; lia. } subst e.
      assert (Hp : 0 < INR (S k - s)) by (apply lt_0_INR; lia).
      apply Rmult_le_reg_r with (INR (S k - s)); [auto|]. unfold Rdiv. rewrite Rmult_assoc, Rinv_l, Rmult_1_r by lra.
      rewrite Rmult_comm, <- rsum_const. apply rsum_le. intros j Hj. apply (@run_incr k s (S k)); auto; lia.
    - destruct (@run_exists (S k) ltac:(lia)) as [s [e [H1 [H2 H3]]]]. rewrite (@avg_nth x (S k) s e) by auto.
      assert (s = S k). { destruct (Nat.eq_dec s (S k)); auto. exfalso. apply Hne. symmetry. apply H3; lia. } subst s.
      assert (Hp : 0 < INR (e - S k)) by (apply lt_0_INR; lia).
      apply Rmult_le_reg_r with (INR (e - S k)); [auto|]. unfold Rdiv. rewrite Rmult_assoc, Rinv_l, Rmult_1_r by lra.
      rewrite Rmult_comm, <- rsum_const. apply rsum_le. intros j Hj. apply (@run_incr (S k) (S k) e); auto; lia.
  Qed.
  Lemma avg_same k : (S k < n)%nat -> id (S k) = id k -> (avg x)@(S k) = (avg x)@k.
  Proof.
    intros Hk E. destruct (@run_exists k ltac:(lia)) as [s [e [H1 [H2 H3]]]].
    assert (s <= S k < e)%nat by (apply H3; auto; lia).
    rewrite (@avg_nth x k s e) by auto. apply (@avg_nth x (S k) s e); auto. rewrite E. auto.
  Qed.

  (** invariant: x is reachable from w by averaging *)
  Definition kkt (w x : vec) : Prop :=
    length w = length x /\
    (forall k, (k <= length x)%nat -> rsum k (fun j => w@j - x@j) <= 0) /\
    rsum (length x) (fun j => w@j - x@j) = 0 /\
    (forall k, (S k < length x)%nat -> x@(S k) < x@k -> rsum (S k) (fun j => w@j - x@j) = 0).
  Lemma kkt_step w : kkt w x -> kkt w (avg x).
  Proof.
    intros [H0 [H1 [H2 H3]]]. unfold kkt in *. fold n in H0, H1, H2, H3. rewrite avg_len.
    assert (E : forall k, rsum k (fun j => w@j - (avg x)@j) = rsum k (fun j => w@j - x@j) + A k).
    { intros k. unfold A. rewrite <- rsum_add. apply rsum_ext. intros j _. ring. }
    split; [auto|]. split; [|split].
    - intros k Hk. rewrite E. specialize (H1 k Hk). pose proof (A_nonpos Hk). lra.
    - rewrite E, H2, (@A_border n) by auto. ring.
    - intros k Hk Hlt. rewrite E. destruct (Nat.eq_dec (id (S k)) (id k)) as [Ei|Ei].
      + rewrite (avg_same Hk Ei) in Hlt. lra.
      + rewrite A_border by (try lia; right; right; replace (S k - 1)%nat with k by lia; auto).
        rewrite Rplus_0_r. apply H3; auto. destruct (avg_le_max Hk Ei). pose proof (border Hk Ei). lra.
  Qed.
End Segments.

Lemma avg_sub x y l : length y = length x -> length l = length x -> avg x (rsub y l) = rsub (avg x y) (avg x l).
Proof.
  intros Hy Hl. apply vec_eq; [rewrite rsub_len, !avg_len; lia|]. rewrite avg_len. intros i Hi.
  rewrite rsub_nth by (rewrite !avg_len; auto).
  destruct (@run_exists x i Hi) as [s [e [H1 [H2 H3]]]].
  rewrite !(@avg_nth x _ i s e) by (auto; vl).
  assert (Hp : INR (e - s) <> 0) by (apply not_0_INR; lia).
  rewrite (rsum_ext (fun j => (rsub y l)@(s + j)) (fun j => y@(s + j) - l@(s + j))) by (intros; apply rsub_nth; congruence).
  rewrite rsum_sub. field. auto.
Qed.
Lemma nonincr_spec x : is_nonincreasing x = true -> descending x.
Proof.
  intros H. assert (Hs : forall i, (S i < length x)%nat -> x@(S i) <= x@i).
  { revert H. induction x as [|a x IH]; intros H i Hi; simpl in Hi; [lia|].
    destruct x as [|b x]; [simpl in Hi; lia|]. simpl in H. apply andb_true_iff in H. destruct H as [H1 H2].
    destruct i as [|i]; [simpl; revert H1; destruct (Rleb_spec b a); [auto|discriminate]|].
    apply (IH H2 i). simpl in *; lia. }
  intros i j Hij. induction Hij as [|j Hij IH]; intros Hj; [lra|]. specialize (Hs j Hj). specialize (IH ltac:(lia)). lra.
Qed.

(** *** the loop *)
Lemma loop_kkt fuel y l y' l' : length y = length l ->
  while_ is_not_nonincreasing (fun s => Some (prox_ordered_l1_b s)) fuel (y, l) = Done (y', l') ->
  kkt (rsub y l) (rsub y' l') /\ descending (rsub y' l') /\ length y' = length y /\ length l' = length y.
Proof.
  intros HL H.
  set (P := fun s : vec * vec => kkt (rsub y l) (rsub (fst s) (snd s)) /\ length (fst s) = length y /\ length (snd s) = length y).
  destruct (@while_inv _ is_not_nonincreasing (fun s => Some (prox_ordered_l1_b s)) P) with (3 := H) as [[H1 [H2 H3]] H4].
  - intros [a b] s' [K [La Lb]] _ E. simpl in K, La, Lb. injection E as <-.
    set (x := rsub a b) in *. assert (Hx : length x = length y) by (unfold x; vl).
    unfold P. cbn [fst snd]. change (map (fun k => segment_sum a (seg_ids x) k / _) _) with (avg x a).
    change (map (fun k => segment_sum b (seg_ids x) k / _) _) with (avg x b).
    rewrite <- avg_sub by congruence. rewrite !avg_len. split; [|auto]. fold x. now apply kkt_step.
  - unfold P. simpl. split; [|auto]. unfold kkt. split; [auto|].
    assert (E0 : forall k, rsum k (fun j => (rsub y l)@j - (rsub y l)@j) = 0) by (intros; apply rsum_0'; intros; ring).
    split; [intros; rewrite E0; lra|]. split; intros; apply E0.
  - simpl in H1, H2, H3. split; [auto|]. split; [|auto]. apply nonincr_spec.
    simpl in H4. now apply negb_false_iff in H4.
Qed.

(** *** projection on the cone of nonincreasing nonnegative vectors *)
Lemma abel n d v : rsum (S n) (fun i => d i * v i) =
  rsum n (fun k => rsum (S k) d * (v k - v (S k))) + rsum (S n) d * v n.
Proof.
  induction n as [|n IH]; [simpl; ring|]. cbn [rsum] in *. rewrite IH. ring.
Qed.
Definition pos_part (x : vec) : vec := map (fun a => if Rltb 0 a then a else 0) x.
Lemma pos_part_nth x i : (pos_part x)@i = Rmax 0 (x@i).
Proof.
  unfold pos_part. set (h := fun a => if Rltb 0 a then a else 0).
  assert (E : h 0 = 0) by (unfold h; destruct (Rltb_spec 0 0); auto). rewrite <- E at 1. rewrite (map_nth h). unfold h.
  destruct (Rltb_spec 0 (x@i)); [rewrite Rmax_right|rewrite Rmax_left]; lra.
Qed.
Lemma pos_part_len x : length (pos_part x) = length x. Proof. apply map_length. Qed.
Global Hint Rewrite pos_part_len : rlen.
Lemma kkt_vi w x v : kkt w x -> descending x -> length v = length x -> descending v -> nonneg v ->
  rdot (rsub w (pos_part x)) (rsub v (pos_part x)) <= 0.
Proof.
  intros [H0 [H1 [H2 H3]]] Hx Hv Dv Nv. remember (length x) as n eqn:En.
  set (d := fun j => w@j - x@j). 
  assert (E1 : rsum n (fun i => d i * v@i) <= 0).
  { destruct n as [|m]; [simpl; lra|]. rewrite abel. fold d in H2. rewrite H2.
    assert (rsum m (fun k => rsum (S k) d * (v@k - v@(S k))) <= rsum m (fun _ => 0)); [|rewrite rsum_0 in *; lra].
    apply rsum_le. intros k Hk. assert (rsum (S k) d <= 0) by (apply H1; lia).
    assert (v@(S k) <= v@k) by (apply Dv; lia). nra. }
  assert (E2 : rsum n (fun i => d i * (pos_part x)@i) = 0).
  { destruct n as [|m]; [simpl; lra|]. rewrite abel. fold d in H2. rewrite H2.
    rewrite rsum_0'; [ring|]. intros k Hk. rewrite !pos_part_nth.
    assert (Hk' : x@(S k) <= x@k) by (apply Hx; lia).
    destruct (Rlt_le_dec (x@(S k)) (x@k)) as [Hlt|Hle].
    - unfold d. rewrite H3 by (auto; lia). ring.
    - replace (x@(S k)) with (x@k) by lra. ring. }
  rewrite (rdot_sum (n := n)) by vl.
  assert (E3 : rsum n (fun i => (rsub w (pos_part x))@i * (rsub v (pos_part x))@i) =
    (rsum n (fun i => d i * v@i) - rsum n (fun i => d i * (pos_part x)@i)) + rsum n (fun i => (x@i - (pos_part x)@i) * (v@i - (pos_part x)@i))).
  { rewrite <- rsum_sub, <- rsum_add. apply rsum_ext. intros i Hi. rewrite !rsub_nth by vl. unfold d. ring. }
  rewrite E3, E2. assert (rsum n (fun i => (x@i - (pos_part x)@i) * (v@i - (pos_part x)@i)) <= rsum n (fun _ => 0)); [|rewrite rsum_0 in *; lra].
  apply rsum_le. intros i Hi. rewrite pos_part_nth. specialize (Nv i ltac:(lia)). unfold Rmax. destruct (Rle_dec 0 (x@i)); nra.
Qed.

(** *** index permutations *)
Section Idx.
  Variables (n : nat) (idx : list nat).
  Hypothesis Hidx : Permutation idx (seq 0 n).
  Lemma idx_len : length idx = n. Proof. rewrite (Permutation_length Hidx). apply seq_length. Qed.
  Lemma idx_nodup : NoDup idx.
  Proof. apply (Permutation_NoDup (Permutation_sym Hidx)), seq_NoDup. Qed.
  Lemma idx_lt i : In i idx -> (i < n)%nat.
  Proof. intros H. apply (Permutation_in _ Hidx) in H. apply in_seq in H. lia. Qed.
  Lemma sum_idx f : rlsum (map f idx) = rsum n f.
  Proof.
    rewrite (rlsum_perm (Permutation_map f Hidx)). change (map f (seq 0 n)) with (tab n f).
    rewrite (rlsum_sum (n := n)) by apply tab_length. apply rsum_ext. intros i Hi. now apply nth_tab.
  Qed.
  Lemma gather_dot a b : length a = n -> length b = n -> rdot (gather a idx) (gather b idx) = rdot a b.
  Proof.
    intros Ha Hb. rewrite (rdot_sum (n := n) a b) by auto. rewrite <- sum_idx. unfold gather. clear Hidx.
    induction idx as [|i l IH]; simpl; auto. rewrite IH. auto.
  Qed.
  Lemma gather_nth a k : (k < n)%nat -> (gather a idx)@k = a@(nth k idx 0%nat).
  Proof.
    intros Hk. unfold gather. rewrite nth_indep with (d' := a@0) by (rewrite map_length, idx_len; auto).
    apply (map_nth (fun i => a@i)).
  Qed.
End Idx.
Arguments idx_len {n idx}.
Arguments idx_nodup {n idx}.
Arguments idx_lt {n idx} _ {i}.
Arguments gather_dot {n idx}.
Arguments gather_nth {n idx}.
Definition sidx (x : vec) : list nat := rev (argsort x).
Lemma sidx_perm x : Permutation (sidx x) (seq 0 (length x)).
Proof. unfold sidx. rewrite <- Permutation_rev. apply argsort_perm. Qed.
Lemma sidx_gather x : gather x (sidx x) = dsort x.
Proof. unfold sidx. rewrite gather_rev, argsort_gather. symmetry. apply dsort_rsort. Qed.
Lemma dsort_perm_eq l l' : Permutation l l' -> dsort l = dsort l'.
Proof. intros H. rewrite !dsort_rsort. f_equal. now apply rsort_perm_eq. Qed.
Lemma dsort_id l : descending l -> dsort l = l.
Proof.
  intros H. rewrite dsort_rsort. rewrite <- (rev_involutive l) at 2. f_equal.
  apply ascending_perm_eq; [apply rsort_asc|now apply rev_asc|]. rewrite rsort_perm. apply Permutation_rev.
Qed.

(** *** the norm *)
Definition rabs (x : vec) : vec := map Rabs x.
Lemma rabs_len x : length (rabs x) = length x. Proof. apply map_length. Qed.
Global Hint Rewrite rabs_len dsort_len : rlen.
Lemma rabs_nth x i : (rabs x)@i = Rabs (x@i).
Proof. unfold rabs. rewrite <- Rabs_R0 at 1. apply map_nth. Qed.
Lemma rlsum_rmul x y : rlsum (rmul x y) = rdot x y.
Proof. revert y; induction x as [|a x IH]; intros [|b y]; simpl; auto. change (zipw Rmult x y) with (rmul x y). now rewrite IH. Qed.
Lemma owl1_eq lam v : owl1_func lam v = rdot lam (dsort (rabs v)).
Proof. unfold owl1_func. rewrite rlsum_rmul, dsort_rsort. auto. Qed.
Lemma rdot_mono a x y : nonneg a -> length x = length a -> length y = length a ->
  (forall i, (i < length a)%nat -> x@i <= y@i) -> rdot a x <= rdot a y.
Proof.
  intros Ha Hx Hy H. rewrite !(rdot_sum (n := length a)) by auto. apply rsum_le. intros i Hi.
  specialize (Ha i Hi). specialize (H i Hi). nra.
Qed.
Lemma owl1_convex n lam : length lam = n -> descending lam -> nonneg lam -> convex n (owl1_func lam).
Proof.
  intros Hl Dl Nl x y s Hx Hy Hs. rewrite !owl1_eq.
  set (m := radd (rscale (1 - s) x) (rscale s y)). assert (Hm : length m = n) by (unfold m; vl).
  pose proof (sidx_perm (rabs m)) as Hp. replace (length (rabs m)) with n in Hp by vl.
  rewrite <- (sidx_gather (rabs m)). set (idx := sidx (rabs m)) in *. pose proof (idx_len Hp) as Li.
  assert (B : forall v, length v = n -> rdot lam (gather (rabs v) idx) <= rdot lam (dsort (rabs v))).
  { intros v Hv. rewrite (@dsort_perm_eq (rabs v) (gather (rabs v) idx)).
    - rewrite (rdot_sym lam), (rdot_sym lam). apply rearrangement; auto. rewrite gather_len. congruence.
    - apply Permutation_sym, gather_perm. now replace (length (rabs v)) with n by vl. }
  pose proof (B x Hx) as Bx. pose proof (B y Hy) as By.
  apply Rle_trans with (rdot lam (radd (rscale (1 - s) (gather (rabs x) idx)) (rscale s (gather (rabs y) idx)))).
  - apply rdot_mono; auto; try (repeat (rewrite ?radd_len, ?rscale_len, ?gather_len); lia).
    intros i Hi. rewrite radd_nth by (rewrite !rscale_len, !gather_len; auto). rewrite !rscale_nth.
    rewrite !(gather_nth Hp) by lia. rewrite !rabs_nth. unfold m. rewrite radd_nth, !rscale_nth by vl.
    set (j := nth i idx 0%nat). eapply Rle_trans; [apply Rabs_triang|]. rewrite !Rabs_mult.
    rewrite (Rabs_right (1 - s)), (Rabs_right s) by lra. lra.
  - rewrite rdot_add_r by (rewrite !rscale_len, !gather_len; auto). rewrite !rdot_scale_r. nra.
Qed.

(** *** correctness of a finished call *)
Lemma sign_abs a : sign a * Rabs a = a.
Proof.
  unfold sign. destruct (Rltb_spec 0 a); [rewrite Rabs_right; lra|].
  destruct (Rltb_spec a 0); [rewrite Rabs_left; lra|]. replace a with 0 by lra. ring.
Qed.
Lemma sorted_min fuel y0 l z : length l = length y0 -> descending l -> nonneg l ->
  prox_ordered_l1_a fuel y0 l = Done z ->
  length z = length y0 /\
  (forall v, length v = length y0 -> prox_obj (owl1_func l) 1 y0 z <= prox_obj (owl1_func l) 1 y0 v) /\
  (forall i j, (i < length y0)%nat -> (j < length y0)%nat -> Rabs (y0@i) < Rabs (y0@j) -> Rabs (z@i) <= Rabs (z@j)).
Proof.
  intros Hl Dl Nl. unfold prox_ordered_l1_a. cbv zeta. set (n := length y0) in *.
  fold (rabs y0). fold (sidx (rabs y0)). rewrite sidx_gather.
  set (idx := sidx (rabs y0)). set (y := dsort (rabs y0)).
  match goal with |- context [while_ ?c ?b ?f ?s] => destruct (while_ c b f s) as [[y' l']| |] eqn:EW; try discriminate end.
  fold (pos_part (rsub y' l')). intros E. injection E as E. symmetry in E.
  assert (Hy : length y = n) by (unfold y; vl).
  apply loop_kkt in EW; [|congruence]. destruct EW as [K [D [Ly Ll]]].
  set (xh := rsub y' l') in *. set (xp := pos_part xh) in *.
  assert (Hxh : length xh = n) by (unfold xh; vl). assert (Hxp : length xp = n) by (unfold xp; vl).
  pose proof (sidx_perm (rabs y0)) as Hp. replace (length (rabs y0)) with n in Hp by vl. fold idx in Hp.
  assert (Hgy : gather (rabs y0) idx = y) by apply sidx_gather.
  assert (Dy : descending y) by apply dsort_desc.
  assert (Ny : nonneg y).
  { intros i Hi. rewrite <- Hgy. rewrite (gather_nth Hp) by lia. rewrite rabs_nth. apply Rabs_pos. }
  assert (Dxp : descending xp).
  { intros i j Hij Hj. unfold xp. rewrite !pos_part_nth. pose proof (D i j Hij ltac:(lia)).
    apply Rle_max_compat_l. auto. }
  assert (Nxp : nonneg xp) by (intros i Hi; unfold xp; rewrite pos_part_nth; apply Rmax_l).
  set (G := fun u : vec => rdot l u + / 2 * nrm2 (rsub u y)).
  assert (HG : forall v, length v = n -> descending v -> nonneg v -> G xp <= G v).
  { intros v Hv Dv Nv. pose proof (@kkt_vi (rsub y l) xh v K D ltac:(congruence) Dv Nv) as V. fold xp in V.
    assert (E' : G v - G xp = - rdot (rsub (rsub y l) xp) (rsub v xp) + / 2 * nrm2 (rsub v xp)).
    { unfold G, nrm2. rewrite !rdot_sub_l, !rdot_sub_r by vl. rewrite (rdot_sym v y), (rdot_sym xp y), (rdot_sym v xp). field. }
    pose proof (nrm2_pos (rsub v xp)). lra. }
  (* lower bound *)
  assert (Low : forall v, length v = n -> G (dsort (rabs v)) <= prox_obj (owl1_func l) 1 y0 v).
  { intros v Hv. unfold prox_obj, G. rewrite owl1_eq. rewrite Rmult_1_l.
    assert (Hpv : Permutation idx (seq 0 (length (rabs v)))) by (now replace (length (rabs v)) with n by vl).
    assert (E1 : rdot (dsort (rabs v)) (dsort (rabs v)) = rdot v v).
    { rewrite <- sidx_gather. rewrite (gather_dot (sidx_perm (rabs v))) by vl.
      rewrite !(rdot_sum (n := n)) by vl. apply rsum_ext. intros i Hi. rewrite rabs_nth. now rewrite <- Rabs_mult, Rabs_right by nra. }
    assert (E2 : rdot y y = rdot y0 y0).
    { rewrite <- Hgy. rewrite (gather_dot Hp) by vl.
      rewrite !(rdot_sum (n := n)) by vl. apply rsum_ext. intros i Hi. rewrite rabs_nth. now rewrite <- Rabs_mult, Rabs_right by nra. }
    assert (E3 : rdot v y0 <= rdot (dsort (rabs v)) y).
    { apply Rle_trans with (rdot (rabs v) (rabs y0)).
      - rewrite !(rdot_sum (n := n)) by vl. apply rsum_le. intros i Hi. rewrite !rabs_nth, <- Rabs_mult. apply Rle_abs.
      - rewrite <- (gather_dot Hp) by vl. rewrite Hgy.
        rewrite (@dsort_perm_eq (rabs v) (gather (rabs v) idx)) by (apply Permutation_sym, gather_perm; auto).
        apply rearrangement; auto. rewrite gather_len, (idx_len Hp). auto. }
    unfold nrm2. rewrite !rdot_sub_l, !rdot_sub_r by vl. rewrite (rdot_sym y0 v), (rdot_sym y (dsort _)). lra. }
  (* the returned point *)
  set (s := scatter n idx xp) in *.
  assert (Hs : length s = n) by apply tab_length.
  assert (Hgs : gather s idx = xp).
  { apply gather_scatter; [apply (idx_nodup Hp)|intros i; apply (idx_lt Hp)|rewrite (idx_len Hp); auto]. }
  assert (Hsn : forall i, (i < n)%nat -> 0 <= s@i).
  { intros i Hi. destruct (In_nth idx i 0%nat) as [k [Hk Ek]].
    { apply (Permutation_in _ (Permutation_sym Hp)), in_seq. lia. }
    rewrite (idx_len Hp) in Hk. rewrite <- Ek, <- (gather_nth Hp) by auto. rewrite Hgs. apply Nxp. lia. }
  assert (Hsg : length (map sign y0) = n) by apply map_length.
  assert (Hz : length z = n) by (rewrite E, rmul_len; lia). split; [exact Hz|].
  assert (Hzi : forall i, (i < n)%nat -> z@i = sign (y0@i) * s@i).
  { intros i Hi. rewrite E, rmul_nth by congruence. f_equal.
    rewrite nth_indep with (d' := sign 0) by (rewrite Hsg; auto). apply map_nth. }
  set (u := gather (rabs z) idx).
  assert (Hu : length u = n) by (unfold u; rewrite gather_len; apply (idx_len Hp)).
  assert (Hui : forall i, (i < n)%nat -> u@i = if Rltb 0 (y@i) then xp@i else 0).
  { intros i Hi. unfold u. rewrite (gather_nth Hp) by auto. rewrite <- Hgy, (gather_nth Hp), !rabs_nth by auto.
    rewrite <- Hgs, (gather_nth Hp) by auto. set (j := nth i idx 0%nat).
    assert (Hj : (j < n)%nat) by (apply (idx_lt Hp), nth_In; rewrite (idx_len Hp); auto).
    rewrite (Hzi j Hj). pose proof (Hsn j Hj). unfold sign.
    destruct (Rltb_spec 0 (y0@j)); [|destruct (Rltb_spec (y0@j) 0)].
    - rewrite (Rabs_right (y0@j)) by lra. destruct (Rltb_spec 0 (y0@j)); [|lra]. rewrite Rabs_right by lra. ring.
    - rewrite (Rabs_left (y0@j)) by lra. destruct (Rltb_spec 0 (- y0@j)); [|lra]. rewrite Rabs_left1 by lra. ring.
    - replace (y0@j) with 0 by lra. rewrite Rabs_R0. destruct (Rltb_spec 0 0); [lra|]. rewrite Rmult_0_l. apply Rabs_R0. }
  assert (Nu : nonneg u).
  { intros i Hi. rewrite Hui by lia. destruct (Rltb 0 (y@i)); [|lra]. apply Nxp. lia. }
  assert (Du : descending u).
  { intros i j Hij Hj. rewrite !Hui by lia. pose proof (Dxp i j Hij ltac:(lia)). pose proof (Dy i j Hij ltac:(lia)).
    pose proof (Nxp i ltac:(lia)). destruct (Rltb_spec 0 (y@j)), (Rltb_spec 0 (y@i)); lra. }
  assert (Gu : G u <= G xp).
  { unfold G. assert (rdot l u <= rdot l xp).
    { apply rdot_mono; auto; try congruence. intros i Hi. rewrite Hui by lia. pose proof (Nxp i ltac:(lia)). destruct (Rltb 0 (y@i)); lra. }
    assert (nrm2 (rsub u y) <= nrm2 (rsub xp y)).
    { unfold nrm2. rewrite !(rdot_sum (n := n)) by vl. apply rsum_le. intros i Hi. rewrite !rsub_nth by vl. rewrite Hui by auto.
      pose proof (Ny i ltac:(lia)). destruct (Rltb_spec 0 (y@i)); [lra|]. replace (y@i) with 0 by lra. nra. }
    lra. }
  assert (Fz : prox_obj (owl1_func l) 1 y0 z = G u).
  { unfold prox_obj, G. rewrite owl1_eq, Rmult_1_l.
    rewrite (@dsort_perm_eq (rabs z) u). 2:{ apply Permutation_sym, gather_perm. now replace (length (rabs z)) with n by vl. }
    rewrite (dsort_id Du). f_equal. f_equal. unfold nrm2.
    assert (Ed : rsub u y = gather (rsub (rabs z) (rabs y0)) idx).
    { apply vec_eq; [rewrite gather_len, (idx_len Hp); vl|]. intros i Hi. assert (Hi' : (i < n)%nat) by (revert Hi; vl).
      rewrite rsub_nth by vl. rewrite (gather_nth Hp) by auto. rewrite rsub_nth by vl. rewrite <- Hgy. unfold u.
      now rewrite !(gather_nth Hp) by auto. }
    rewrite Ed, (gather_dot Hp) by vl. rewrite !(rdot_sum (n := n)) by vl. apply rsum_ext. intros i Hi. rewrite !rsub_nth by vl.
    rewrite !rabs_nth, (Hzi i Hi). pose proof (Hsn i Hi). unfold sign.
    destruct (Rltb_spec 0 (y0@i)); [|destruct (Rltb_spec (y0@i) 0)].
    - rewrite (Rabs_right (y0@i)), (Rabs_right (1 * _)) by lra. ring.
    - rewrite (Rabs_left (y0@i)), (Rabs_left1 (-1 * _)) by lra. ring.
    - replace (y0@i) with 0 by lra. rewrite Rmult_0_l, Rabs_R0. ring. }
  split.
  2:{ intros i j Hi Hj Hij.
      assert (Hinv : forall i, (i < n)%nat -> exists k, (k < n)%nat /\ nth k idx 0%nat = i).
      { intros a Ha. destruct (In_nth idx a 0%nat) as [k [Hk Ek]].
        - apply (Permutation_in _ (Permutation_sym Hp)), in_seq. lia.
        - exists k. rewrite (idx_len Hp) in Hk. auto. }
      destruct (Hinv i Hi) as [k [Hk Ek]]. destruct (Hinv j Hj) as [k' [Hk' Ek']].
      assert (Yk : y@k = Rabs (y0@i)) by (rewrite <- Hgy, (gather_nth Hp), rabs_nth, Ek by auto; auto).
      assert (Yk' : y@k' = Rabs (y0@j)) by (rewrite <- Hgy, (gather_nth Hp), rabs_nth, Ek' by auto; auto).
      assert (Uk : u@k = Rabs (z@i)) by (unfold u; rewrite (gather_nth Hp), rabs_nth, Ek by auto; auto).
      assert (Uk' : u@k' = Rabs (z@j)) by (unfold u; rewrite (gather_nth Hp), rabs_nth, Ek' by auto; auto).
      rewrite <- Uk, <- Uk'. destruct (Nat.le_gt_cases k k') as [H|H].
      - exfalso. pose proof (Dy k k' H ltac:(lia)). lra.
      - apply (Du k' k); lia. }
  intros v Hv. rewrite Fz. apply Rle_trans with (G xp); [auto|].
  apply Rle_trans with (G (dsort (rabs v))); [|auto].
  apply HG; [vl|apply dsort_desc|].
  intros i Hi. rewrite dsort_len in Hi. rewrite <- sidx_gather, (gather_nth (sidx_perm (rabs v))) by auto.
  rewrite rabs_nth. apply Rabs_pos.
Qed.
Lemma owl1_scale t lam v : owl1_func (rscale t lam) v = t * owl1_func lam v.
Proof. rewrite !owl1_eq. apply rdot_scale_l. Qed.
Lemma prox_owl1_min fuel lam x t z : 0 <= t -> length lam = length x -> descending lam -> nonneg lam ->
  prox_owl1 fuel lam x t = Done z -> strong (length x) everywhere (owl1_func lam) t x z /\
  forall i j, (i < length x)%nat -> (j < length x)%nat -> Rabs (x@i) < Rabs (x@j) -> Rabs (z@i) <= Rabs (z@j).
Proof.
  intros Ht Hl Dl Nl H. unfold prox_owl1 in H. apply sorted_min in H.
  - destruct H as [Hz [Hmin Hord]]. split; [|auto]. apply convex_strong; auto; [now apply owl1_convex|].
    intros v Hv. specialize (Hmin v Hv). unfold prox_obj in *. rewrite !owl1_scale in Hmin. lra.
  - now rewrite rscale_len.
  - intros i j Hij Hj. rewrite rscale_len in Hj. rewrite !rscale_nth. specialize (Dl i j Hij Hj). nra.
  - intros i Hi. rewrite rscale_len in Hi. rewrite rscale_nth. specialize (Nl i Hi). nra.
Qed.

(** *** a call that does not finish *)
Lemma while_cycle (St : Type) (c : St -> bool) (b : St -> option St) (P : St -> Prop) :
  (forall s, P s -> c s = true /\ exists s', b s = Some s' /\ P s') ->
  forall fuel s, P s -> while_ c b fuel s = Fuel.
Proof.
  intros H. induction fuel as [|f IH]; intros s Hs; simpl; destruct (H s Hs) as [-> [s' [E Hs']]]; auto.
  rewrite E. auto.
Qed.
Ltac decide_R := repeat match goal with
  | |- context [Rltb ?a ?b] => destruct (Rltb_spec a b); [|try (exfalso; lra)]; try (exfalso; lra)
  | |- context [Rleb ?a ?b] => destruct (Rleb_spec a b); [|try (exfalso; lra)]; try (exfalso; lra)
  end.
Ltac lsplit := repeat match goal with
  | |- pair _ _ = pair _ _ => f_equal
  | |- cons _ _ = cons _ _ => f_equal
  end; try reflexivity; field.
Definition stuck (s : vec * vec) : Prop :=
  (exists a b p q, s = ([a; a; b; b], [p; p; q; q]) /\ a - p < b - q) \/
  (exists a b c p q r, s = ([a; c; c; b], [p; r; r; q]) /\ a - p < c - r < b - q).
Lemma stuck_step s : stuck s -> is_not_nonincreasing s = true /\ exists s', Some (prox_ordered_l1_b s) = Some s' /\ stuck s'.
Proof.
  intros [[a [b [p [q [-> H]]]]]|[a [b [c [p [q [r [-> H]]]]]]]].
  - split.
    + cbn -[Rleb Rminus]. decide_R; reflexivity.
    + eexists. split; [reflexivity|]. right. exists a, b, ((a + b) / 2), p, q, ((p + q) / 2).
      split; [|lra]. cbn -[Rltb Rminus Rplus Rdiv]. decide_R; cbn -[Rminus Rplus Rdiv]. lsplit.
  - split.
    + cbn -[Rleb Rminus]. decide_R; reflexivity.
    + eexists. split; [reflexivity|]. left. exists ((a + c) / 2), ((c + b) / 2), ((p + r) / 2), ((r + q) / 2).
      split; [|lra]. cbn -[Rltb Rminus Rplus Rdiv]. decide_R; cbn -[Rminus Rplus Rdiv]; lsplit.
Qed.
Lemma sorted_diverges fuel : prox_owl1 fuel [7; 5; 3; 1] [7; 7; 4; 4] 1 = Fuel.
Proof.
  unfold prox_owl1, prox_ordered_l1_a. fold (rabs [7; 7; 4; 4]). fold (sidx (rabs [7; 7; 4; 4])). rewrite sidx_gather.
  assert (E : dsort (rabs [7; 7; 4; 4]) = [7; 7; 4; 4]).
  { unfold rabs. simpl map. rewrite !(Rabs_right) by lra. simpl. repeat (decide_R; simpl). reflexivity. }
  rewrite E. rewrite (@while_cycle _ _ _ (fun s => stuck s \/ s = ([7; 7; 4; 4], rscale 1 [7; 5; 3; 1]))); auto.
  intros s [H| ->].
  - destruct (stuck_step H) as [H1 [s' [H2 H3]]]. split; [auto|]. exists s'. auto.
  - split.
    + cbn -[Rleb Rminus Rmult]. decide_R; reflexivity.
    + eexists. split; [reflexivity|]. left. left. exists 7, 4, 6, 2. split; [|lra].
      cbn -[Rltb Rminus Rplus Rdiv Rmult]. decide_R; cbn -[Rminus Rplus Rdiv Rmult]; lsplit.
Qed.
