From Coq Require Import List Arith Bool ZArith Lia Reals Lra Permutation Sorted.
From Verif Require Import Vec RVec RMat Loop KMeansModel KMeansProofs ClusterModel ClusterSpec.
Import ListNotations.
Set Implicit Arguments.

(** *** natural sums *)
Lemma nsum_app a b : nsum (a ++ b) = nsum a + nsum b.
Proof. induction a; simpl; lia. Qed.
Lemma nsum_map_ext A (f g : A -> nat) l : (forall x, In x l -> f x = g x) -> nsum (map f l) = nsum (map g l).
Proof. intros H. f_equal. apply map_ext_in. auto. Qed.
Lemma nsum_map_0 A (f : A -> nat) l : (forall x, In x l -> f x = 0) -> nsum (map f l) = 0.
Proof. induction l as [|a l IH]; simpl; intros H; auto. rewrite (H a) by auto. rewrite IH; auto. Qed.
Lemma nsum_map_add A (f g : A -> nat) l : nsum (map (fun x => f x + g x) l) = nsum (map f l) + nsum (map g l).
Proof. induction l as [|a l IH]; simpl; auto. rewrite IH. lia. Qed.
Lemma nsum_exchange A B (f : A -> B -> nat) l m :
  nsum (map (fun x => nsum (map (f x) m)) l) = nsum (map (fun y => nsum (map (fun x => f x y) l)) m).
Proof.
  induction l as [|a l IH]; simpl; [now rewrite nsum_map_0|]. rewrite IH, <- nsum_map_add. reflexivity.
Qed.
Lemma nsum_single l i0 (f : nat -> nat) : NoDup l -> In i0 l -> (forall i, In i l -> i <> i0 -> f i = 0) -> nsum (map f l) = f i0.
Proof.
  induction l as [|a l IH]; simpl; intros N Hi H; [easy|]. inversion N; subst.
  destruct Hi as [->|Hi].
  - rewrite nsum_map_0; [lia|]. intros i Hl. apply H; auto. intros ->. auto.
  - rewrite (H a) by (auto; intros ->; auto). rewrite IH; auto.
Qed.
Lemma filter_length_nsum A (f : A -> bool) l : length (filter f l) = nsum (map (fun x => if f x then 1 else 0) l).
Proof. induction l as [|a l IH]; simpl; auto. destruct (f a); simpl; lia. Qed.

(** *** sizes and labels *)
Lemma filter_app_len (f : nat -> bool) a b : length (filter f (a ++ b)) = length (filter f a) + length (filter f b).
Proof. rewrite filter_app, app_length. auto. Qed.
Lemma filter_repeat_eq c s k : length (filter (Nat.eqb c) (repeat k s)) = if Nat.eqb c k then s else 0.
Proof. induction s as [|s IH]; simpl; [now destruct (c =? k)|]. destruct (c =? k) eqn:E; simpl; rewrite IH; auto. Qed.
Lemma labels_count sizes : forall k c, length (filter (Nat.eqb c) (labels_from k sizes)) =
  if (k <=? c) then nth (c - k) sizes 0 else 0.
Proof.
  induction sizes as [|s sizes IH]; intros k c; simpl.
  - destruct (k <=? c); auto. destruct (c - k); auto.
  - rewrite filter_app_len, filter_repeat_eq, IH. destruct (Nat.eqb_spec c k) as [->|].
    + rewrite Nat.leb_refl, Nat.sub_diag. destruct (Nat.leb_spec (S k) k); [lia|]. lia.
    + destruct (Nat.leb_spec (S k) c).
      * destruct (Nat.leb_spec k c); [|lia]. replace (c - k) with (S (c - S k)) by lia. reflexivity.
      * destruct (Nat.leb_spec k c); [lia|]. reflexivity.
Qed.
Lemma list_map_nth A (l : list A) d : map (fun i => nth i l d) (seq 0 (length l)) = l.
Proof.
  apply nth_ext with (d := d) (d' := d); [now rewrite map_length, seq_length|].
  intros i Hi. rewrite map_length, seq_length in Hi. rewrite (nth_map_lt _ _ _ 0) by now rewrite seq_length.
  now rewrite seq_nth.
Qed.
Lemma sizes_labels sizes : sizes_from_labels (labels_from_sizes sizes) (length sizes) = sizes.
Proof.
  unfold sizes_from_labels, labels_from_sizes. etransitivity; [|apply (list_map_nth sizes 0)].
  apply map_ext. intros c. rewrite labels_count. simpl. now rewrite Nat.sub_0_r.
Qed.
Lemma labels_from_len sizes : forall k, length (labels_from k sizes) = nsum sizes.
Proof. induction sizes as [|s l IH]; intros k; simpl; auto. rewrite app_length, repeat_length, IH. auto. Qed.
Lemma sizes_sum labels k : (forall l, In l labels -> l < k) -> nsum (sizes_from_labels labels k) = length labels.
Proof.
  intros H. unfold sizes_from_labels.
  rewrite (nsum_map_ext _ (fun c => nsum (map (fun x => if Nat.eqb c x then 1 else 0) labels))) by (intros; apply filter_length_nsum).
  rewrite nsum_exchange. induction labels as [|a l IH]; simpl; auto.
  rewrite IH by (intros; apply H; now right).
  rewrite (@nsum_single (seq 0 k) a (fun x => if x =? a then 1 else 0)); [now rewrite Nat.eqb_refl|apply seq_NoDup|apply in_seq; specialize (H a (or_introl eq_refl)); lia|].
  intros i _ Ne. destruct (Nat.eqb_spec i a); congruence.
Qed.
Lemma cumsum_from_nth l : forall acc i, i < length l -> nth i (cumsum_from acc l) 0 = acc + nsum (firstn (S i) l).
Proof.
  induction l as [|a l IH]; intros acc i Hi; [simpl in *; lia|]. destruct i; cbn [cumsum_from nth]; [simpl; lia|].
  rewrite IH by (simpl in Hi; lia). simpl. lia.
Qed.
Lemma cumsum_from_len l : forall acc, length (cumsum_from acc l) = length l.
Proof. induction l; simpl; auto. Qed.
Lemma removelast_len A (l : list A) : length (removelast l) = length l - 1.
Proof. induction l as [|a [|b l] IH]; auto. simpl in *. lia. Qed.
Lemma removelast_nth A (l : list A) d : forall i, S i < length l -> nth i (removelast l) d = nth i l d.
Proof.
  induction l as [|a [|b l] IH]; intros i Hi; simpl in Hi; try lia.
  destruct i; [reflexivity|]. change (nth i (removelast (b :: l)) d = nth i (b :: l) d). apply IH. simpl. lia.
Qed.
Lemma starts_len sizes : length (fst (start_end_indices sizes)) = length sizes.
Proof.
  unfold start_end_indices, cumsum. cbn [fst]. destruct sizes as [|s sizes]; [reflexivity|].
  unfold vec_shift_right. destruct (cumsum_from 0 (s :: sizes)) eqn:E; [discriminate|].
  rewrite <- E. cbn [length]. rewrite removelast_len, cumsum_from_len. simpl. lia.
Qed.
Lemma starts_nth sizes i : i < length sizes -> nth i (fst (start_end_indices sizes)) 0 = nsum (firstn i sizes).
Proof.
  intros Hi. unfold start_end_indices, cumsum. cbn [fst]. destruct sizes as [|s sizes]; [simpl in Hi; lia|].
  unfold vec_shift_right. destruct (cumsum_from 0 (s :: sizes)) as [|x0 l0] eqn:E; [discriminate|].
  destruct i as [|i]; [reflexivity|]. cbn [nth]. rewrite <- E.
  rewrite removelast_nth by (rewrite cumsum_from_len; lia). rewrite cumsum_from_nth by lia. reflexivity.
Qed.
Lemma ends_nth sizes i : i < length sizes -> nth i (snd (start_end_indices sizes)) 0 = nsum (firstn i sizes) + nth i sizes 0.
Proof.
  intros Hi. transitivity (nth i (zipw Nat.add (fst (start_end_indices sizes)) sizes) 0); [reflexivity|].
  rewrite (nth_zipw _ _ _ _ 0 0) by (rewrite ?starts_len; auto). now rewrite starts_nth.
Qed.
Lemma nsum_firstn_S l i : i < length l -> nsum (firstn (S i) l) = nsum (firstn i l) + nth i l 0.
Proof.
  revert i. induction l as [|a l IH]; intros i Hi; simpl in Hi; [lia|]. destruct i; simpl; [lia|].
  specialize (IH i ltac:(lia)). simpl in IH. lia.
Qed.
Lemma labels_block sizes : forall k i x, i < length sizes -> nsum (firstn i sizes) <= x < nsum (firstn (S i) sizes) ->
  nth x (labels_from k sizes) 0 = k + i.
Proof.
  induction sizes as [|s sizes IH]; intros k i x Hi Hx; [simpl in Hi; lia|]. cbn [labels_from].
  destruct i as [|i].
  - simpl in Hx. rewrite app_nth1 by (rewrite repeat_length; lia). rewrite Nat.add_0_r. 
    rewrite (nth_indep _ 0 k) by (rewrite repeat_length; lia). apply List.nth_repeat.
  - simpl in Hi. change (nsum (firstn (S i) (s :: sizes))) with (s + nsum (firstn i sizes)) in Hx.
    change (nsum (firstn (S (S i)) (s :: sizes))) with (s + nsum (firstn (S i) sizes)) in Hx.
    rewrite app_nth2 by (rewrite repeat_length; lia). rewrite repeat_length.
    rewrite (IH (S k) i) by lia. lia.
Qed.

(** *** blocks *)
Lemma zdiff_sum : forall l n, l <> [] -> zsum (block_lens_from_start_locs l n) = (n - hd 0 l)%Z.
Proof.
  assert (A : forall x y, zsum (x ++ y) = (zsum x + zsum y)%Z) by (induction x; intros; simpl; [|rewrite IHx]; lia).
  unfold block_lens_from_start_locs. induction l as [|a l IH]; intros n Hl; [easy|]. destruct l as [|b l].
  - simpl. lia.
  - specialize (IH n ltac:(easy)). rewrite A in *. cbn [zdiff hd zsum] in *. 
    change (last (a :: b :: l) 0)%Z with (last (b :: l) 0)%Z. lia.
Qed.
Lemma zdiff_arith b : forall c s, zdiff (map (fun i => (Z.of_nat i * b)%Z) (seq s (S c))) = repeat b c.
Proof.
  induction c as [|c IH]; intros s; [reflexivity|].
  change (seq s (S (S c))) with (s :: S s :: seq (S (S s)) c). cbn [map].
  cbn [zdiff repeat]. f_equal; [lia|]. change ((Z.of_nat (S s) * b)%Z :: map (fun i => (Z.of_nat i * b)%Z) (seq (S (S s)) c)) with (map (fun i => (Z.of_nat i * b)%Z) (seq (S s) (S c))) . apply IH.
Qed.
Lemma last_seq_map b c s : last (map (fun i => (Z.of_nat i * b)%Z) (seq s (S c))) 0%Z = (Z.of_nat (s + c) * b)%Z.
Proof.
  revert s. induction c as [|c IH]; intros s; [simpl; f_equal; lia|].
  change (seq s (S (S c))) with (s :: seq (S s) (S c)). cbn [map].
  specialize (IH (S s)). destruct (map _ (seq (S s) (S c))) eqn:E; [discriminate|].
  change (last (z :: l) 0%Z = (Z.of_nat (s + S c) * b)%Z). rewrite IH. f_equal. lia.
Qed.
Lemma block_lens_uniform n b : (0 < b)%Z -> (b <= n)%Z ->
  block_lens_from_start_locs (start_locations n b) n = repeat b (Z.to_nat (n / b) - 1) ++ [(b + n mod b)%Z].
Proof.
  intros Hb Hn. assert (Hq : (1 <= n / b)%Z) by (apply Z.div_le_lower_bound; lia).
  unfold start_locations, block_lens_from_start_locs.
  destruct (Z.to_nat (n / b)) as [|c] eqn:E; [lia|].
  rewrite zdiff_arith, last_seq_map. replace (S c - 1) with c by lia. f_equal. f_equal.
  pose proof (Z.div_mod n b ltac:(lia)). assert (n / b = Z.of_nat c + 1)%Z by lia. simpl. nia.
Qed.

Lemma start_nth n b i : i < Z.to_nat (n / b) -> nth i (start_locations n b) 0%Z = (Z.of_nat i * b)%Z.
Proof.
  intros H. unfold start_locations. rewrite (nth_indep _ 0%Z (Z.of_nat 0 * b)%Z) by now rewrite map_length, seq_length.
  rewrite (map_nth (fun i => (Z.of_nat i * b)%Z)), seq_nth by auto. reflexivity.
Qed.
Lemma end_nth n b i : i < Z.to_nat (n / b) -> nth i (end_locations n b) 0%Z = (Z.of_nat i * b + b - 1)%Z.
Proof.
  intros H. unfold end_locations. rewrite (nth_indep _ 0%Z (0 + b - 1)%Z)
    by (unfold start_locations; now rewrite !map_length, seq_length).
  rewrite (map_nth (fun s => (s + b - 1)%Z)), start_nth by auto. reflexivity.
Qed.
Lemma blocks_cover n b : (0 < b)%Z -> (0 <= n)%Z ->
  length (start_locations n b) = Z.to_nat (n / b) /\ length (end_locations n b) = Z.to_nat (n / b) /\
  (forall i, i < Z.to_nat (n / b) ->
     (0 <= nth i (start_locations n b) 0%Z)%Z /\ (nth i (end_locations n b) 0%Z < n)%Z) /\
  forall x, (0 <= x < n - n mod b)%Z -> exists i, i < Z.to_nat (n / b) /\
    (nth i (start_locations n b) 0%Z <= x <= nth i (end_locations n b) 0%Z)%Z /\
    forall j, j < Z.to_nat (n / b) ->
      (nth j (start_locations n b) 0%Z <= x <= nth j (end_locations n b) 0%Z)%Z -> j = i.
Proof.
  intros Hb Hn. assert (Hq : (0 <= n / b)%Z) by (apply Z.div_pos; lia).
  pose proof (Z.div_mod n b ltac:(lia)) as HD. pose proof (Z.mod_pos_bound n b Hb) as HM.
  split; [unfold start_locations; now rewrite map_length, seq_length|].
  split; [unfold end_locations, start_locations; now rewrite !map_length, seq_length|]. split.
  - intros i Hi. rewrite start_nth, end_nth by auto. assert (Z.of_nat i + 1 <= n / b)%Z by lia. nia.
  - intros x Hx. pose proof (Z.div_mod x b ltac:(lia)) as XD. pose proof (Z.mod_pos_bound x b Hb) as XM.
    assert (HX0 : (0 <= x / b)%Z) by (apply Z.div_pos; lia).
    assert (HX1 : (x / b < n / b)%Z) by (apply Z.div_lt_upper_bound; nia).
    exists (Z.to_nat (x / b)). split; [lia|]. split.
    + rewrite start_nth, end_nth by lia. rewrite Z2Nat.id by lia. nia.
    + intros j Hj. rewrite start_nth, end_nth by lia. intros Hxj.
      assert (x / b = Z.of_nat j)%Z; [|lia]. symmetry. apply Z.div_unique with (x - Z.of_nat j * b)%Z; lia.
Qed.

(** *** unique *)
Lemma insert_In x y l : In y (insert_unique x l) <-> y = x \/ In y l.
Proof.
  induction l as [|a l IH]; simpl; [intuition|].
  destruct (Z.ltb_spec x a); [simpl; intuition|]. destruct (Z.eqb_spec x a) as [->|]; [simpl; intuition|].
  simpl. rewrite IH. intuition.
Qed.
Lemma insert_sorted x l : StronglySorted Z.lt l -> StronglySorted Z.lt (insert_unique x l).
Proof.
  induction 1 as [|a l H IH F]; simpl; [repeat constructor|].
  destruct (Z.ltb_spec x a).
  - constructor; [constructor; auto|]. constructor; auto. eapply Forall_impl; [|exact F]. simpl. lia.
  - destruct (Z.eqb_spec x a); [constructor; auto|]. constructor; auto.
    apply Forall_forall. intros y Hy. apply insert_In in Hy. destruct Hy as [->|Hy]; [lia|].
    rewrite Forall_forall in F. auto.
Qed.
Lemma unique_sorted l : StronglySorted Z.lt (unique l).
Proof. induction l; simpl; [constructor|]. now apply insert_sorted. Qed.
Lemma unique_In x l : In x (unique l) <-> In x l.
Proof. induction l as [|a l IH]; simpl; [tauto|]. rewrite insert_In, IH. intuition. Qed.
Lemma unique_NoDup l : NoDup (unique l).
Proof.
  pose proof (unique_sorted l) as H. induction H as [|a m H IH F]; constructor; auto.
  intros Hi. rewrite Forall_forall in F. specialize (F a Hi). lia.
Qed.
Lemma unique_len l : length (unique l) = distinct l.
Proof.
  unfold distinct. apply Nat.le_antisymm; apply NoDup_incl_length.
  - apply unique_NoDup.
  - intros x Hx. apply nodup_In. exact (proj1 (unique_In x l) Hx).
  - apply NoDup_nodup.
  - intros x Hx. apply unique_In. exact (proj1 (nodup_In _ _ _) Hx).
Qed.

Lemma perm_bound n cols i : Permutation cols (seq 0 n) -> i < n -> nth i cols 0 < n.
  Proof.
    intros P Hi. assert (length cols = n) by (rewrite (Permutation_length P); apply seq_length).
    assert (In (nth i cols 0) (seq 0 n)) by (eapply Permutation_in; [exact P|]; apply nth_In; lia).
    apply in_seq in H0. lia.
  Qed.
Lemma perm_inj n cols i j : Permutation cols (seq 0 n) -> i < n -> j < n -> nth i cols 0 = nth j cols 0 -> i = j.
  Proof.
    intros P Hi Hj E. assert (length cols = n) by (rewrite (Permutation_length P); apply seq_length).
    assert (NoDup cols) by (apply (Permutation_NoDup (Permutation_sym P)), seq_NoDup).
    eapply NoDup_nth; eauto; lia.
  Qed.
Lemma perm_surj n cols j : Permutation cols (seq 0 n) -> j < n -> exists i, i < n /\ nth i cols 0 = j.
  Proof.
    intros P Hj. assert (length cols = n) by (rewrite (Permutation_length P); apply seq_length).
    assert (In j cols) by (eapply Permutation_in; [apply Permutation_sym; exact P|apply in_seq; lia]).
    apply (In_nth _ _ 0) in H0. destruct H0 as [i [Hi E]]. exists i. split; auto; lia.
  Qed.

Lemma missed_agree A (eqb : A -> A -> bool) (eq_dec : forall x y : A, {x = y} + {x <> y}) (eqb_spec : forall x y, reflect (x = y) (eqb x y)) t m : length t = length m -> num_missed eqb t m + agreements eq_dec t m = length t.
  Proof.
    unfold num_missed. revert m. induction t as [|a t IH]; intros [|b m] H; simpl in *; try lia.
    specialize (IH m ltac:(lia)). destruct (eqb_spec a b); destruct (eq_dec a b); simpl; try congruence; lia.
  Qed.


(** *** relabelling by an assignment *)
Section Relabel.
  Variable A : Type.
  Variable eqb : A -> A -> bool.
  Variable eq_dec : forall x y : A, {x = y} + {x <> y}.
  Hypothesis eqb_spec : forall x y, reflect (x = y) (eqb x y).
  Variable d0 : A.
  Variables (n : nat) (l1 l2 : list A).
  Hypothesis N1 : NoDup l1.
  Hypothesis N2 : NoDup l2.
  Hypothesis L1 : length l1 = n.
  Hypothesis L2 : length l2 = n.

  Lemma agreements_pairs : forall t m, agreements eq_dec t m = length (filter (fun tp => eqb (fst tp) (snd tp)) (combine t m)).
  Proof.
    induction t as [|a t IH]; intros [|b m]; simpl; auto. rewrite IH.
    destruct (eqb_spec a b); destruct (eq_dec a b); simpl; congruence.
  Qed.
  (** cols[i] is the place in l2 of the label renamed to l1[i] *)
  Definition matches (f : A -> A) (cols : list nat) : Prop :=
    forall i, i < n -> f (nth (nth i cols 0) l2 d0) = nth i l1 d0.

  Lemma joint_nsum t p a b : joint_count eqb t p a b = nsum (map (fun tp => if eqb (fst tp) a && eqb (snd tp) b then 1 else 0) (combine t p)).
  Proof. apply filter_length_nsum. Qed.

  Lemma value_agree f cols t p : Permutation cols (seq 0 n) -> matches f cols -> (forall x, In x p -> In x l2) ->
    nsum (map (fun i => joint_count eqb t p (nth i l1 d0) (nth (nth i cols 0) l2 d0)) (seq 0 n)) =
    agreements eq_dec t (map f p).
  Proof.
    intros P M Hp.
    rewrite (nsum_map_ext _ (fun i => nsum (map (fun tp => if eqb (fst tp) (nth i l1 d0) && eqb (snd tp) (nth (nth i cols 0) l2 d0) then 1 else 0) (combine t p))))
      by (intros; apply joint_nsum).
    rewrite nsum_exchange. revert p Hp. induction t as [|a t IH]; intros [|b p] Hp; auto.
    cbn [combine map nsum fst snd agreements]. rewrite IH by (intros; apply Hp; now right). f_equal.
    assert (Hb : In b l2) by (apply Hp; now left). apply (In_nth _ _ d0) in Hb. destruct Hb as [j [Hj Eb]].
    destruct (perm_surj P (j := j) ltac:(lia)) as [i0 [Hi0 Ei0]].
    rewrite (@nsum_single (seq 0 n) i0 (fun x => if eqb a (nth x l1 d0) && eqb b (nth (nth x cols 0) l2 d0) then 1 else 0)).
    - rewrite Ei0, Eb, <- (M i0 Hi0), Ei0, Eb. destruct (eqb_spec b b); [|congruence]. rewrite andb_true_r.
      destruct (eqb_spec a (f b)), (eq_dec a (f b)); congruence.
    - apply seq_NoDup.
    - apply in_seq; lia.
    - intros i Hi Ne. apply in_seq in Hi. destruct (eqb_spec b (nth (nth i cols 0) l2 d0)) as [E|]; [|now rewrite andb_false_r].
      exfalso. apply Ne. apply (perm_inj P); try lia. rewrite Ei0.
      eapply NoDup_nth; [exact N2| | |]; [rewrite L2; apply perm_bound; auto; lia|exact Hj|]. rewrite <- E. now symmetry.
  Qed.

  Lemma choice_list m (Q : nat -> nat -> Prop) : (forall i, i < m -> exists j, Q i j) ->
    exists cols, length cols = m /\ forall i, i < m -> Q i (nth i cols 0).
  Proof.
    induction m as [|m IH]; intros H; [exists []; split; [auto|lia]|].
    destruct IH as [cols [L Hc]]; [intros; apply H; lia|]. destruct (H m ltac:(lia)) as [j Hj].
    exists (cols ++ [j]). split; [rewrite app_length; simpl; lia|]. intros i Hi.
    destruct (Nat.eq_dec i m) as [->|].
    - rewrite app_nth2 by lia. rewrite L, Nat.sub_diag. exact Hj.
    - rewrite app_nth1 by lia. apply Hc. lia.
  Qed.
  (** every one-to-one renaming of l2 to l1 comes from a permutation *)
  Lemma relabel_cols f : (forall a, In a l2 -> In (f a) l1) -> (forall a b, In a l2 -> In b l2 -> f a = f b -> a = b) ->
    exists cols, Permutation cols (seq 0 n) /\ matches f cols.
  Proof.
    intros Hin Hinj.
    assert (ND : NoDup (map f l2)).
    { clear -N2 Hinj. induction l2 as [|a l IH]; simpl; [constructor|]. inversion N2; subst. constructor.
      - intros Hc. apply in_map_iff in Hc. destruct Hc as [b [E Hb]]. apply H1.
        rewrite <- (Hinj b a) by (simpl; auto). exact Hb.
      - apply IH; auto. intros x y Hx Hy. apply Hinj; simpl; auto. }
    assert (Inc : incl l1 (map f l2)).
    { apply NoDup_length_incl; auto; [rewrite map_length; lia|]. intros x Hx. apply in_map_iff in Hx.
      destruct Hx as [a [<- Ha]]. auto. }
    destruct (@choice_list n (fun i j => j < n /\ f (nth j l2 d0) = nth i l1 d0)) as [cols [Lc Hc]].
    { intros i Hi. assert (Hx : In (nth i l1 d0) (map f l2)) by (apply Inc, nth_In; lia).
      apply in_map_iff in Hx. destruct Hx as [a [E Ha]]. apply (In_nth _ _ d0) in Ha. destruct Ha as [j [Hj Ej]].
      exists j. split; [lia|]. now rewrite Ej. }
    exists cols. split; [|intros i Hi; apply Hc; auto].
    apply NoDup_Permutation_bis.
    - apply (NoDup_nth cols 0). intros i j Hi Hj E. rewrite Lc in *.
      destruct (Hc i Hi) as [_ Ei], (Hc j Hj) as [_ Ej]. eapply NoDup_nth; [exact N1| | |]; [lia|lia|].
      rewrite <- Ei, <- Ej, E. reflexivity.
    - rewrite seq_length. lia.
    - intros x Hx. apply (In_nth _ _ 0) in Hx. destruct Hx as [i [Hi <-]]. rewrite Lc in Hi. apply in_seq.
      destruct (Hc i Hi). lia.
  Qed.

  (** the update loop computes the renaming of its permutation *)
  Definition cols_map (cols : list nat) (b : A) : A :=
    match find (fun i => eqb b (nth (nth i cols 0) l2 d0)) (seq 0 n) with Some i => nth i l1 d0 | None => d0 end.
  Lemma cols_map_spec cols i : Permutation cols (seq 0 n) -> i < n -> cols_map cols (nth (nth i cols 0) l2 d0) = nth i l1 d0.
  Proof.
    intros P Hi. unfold cols_map. destruct (find _ _) as [i'|] eqn:F.
    - apply find_some in F. destruct F as [F1 F2]. apply in_seq in F1.
      destruct (eqb_spec (nth (nth i cols 0) l2 d0) (nth (nth i' cols 0) l2 d0)) as [E|]; [|discriminate].
      assert (nth i cols 0 = nth i' cols 0) by (eapply NoDup_nth; [exact N2| | |exact E]; rewrite L2; apply perm_bound; auto; lia).
      rewrite (perm_inj P Hi (j := i')); auto; lia.
    - exfalso. assert (Hs : In i (seq 0 n)) by (apply in_seq; lia). pose proof (find_none _ _ F i Hs) as E. cbv beta in E.
      destruct (eqb_spec (nth (nth i cols 0) l2 d0) (nth (nth i cols 0) l2 d0)); congruence.
  Qed.
  Lemma set_where_len p old new m : length (set_where eqb p old new m) = Nat.min (length p) (length m).
  Proof. apply zipw_length. Qed.
  Lemma fold_set (old new : nat -> A) p : forall idx m, length m = length p -> NoDup idx ->
    (forall i j, In i idx -> In j idx -> old i = old j -> i = j) ->
    let r := fold_left (fun m i => set_where eqb p (old i) (new i) m) idx m in
    length r = length p /\ forall x, x < length p ->
      (forall i, In i idx -> nth x p d0 = old i -> nth x r d0 = new i) /\
      ((forall i, In i idx -> nth x p d0 <> old i) -> nth x r d0 = nth x m d0).
  Proof.
    induction idx as [|i idx IH]; intros m Hm Nd Inj; cbn [fold_left].
    - cbv zeta. split; [auto|]. intros x Hx. split; [easy|auto].
    - inversion Nd; subst. destruct (IH (set_where eqb p (old i) (new i) m)) as [HL HX].
      + rewrite set_where_len. lia.
      + auto.
      + intros a b Ha Hb. apply Inj; now right.
      + cbv zeta in *. split; [exact HL|]. intros x Hx. destruct (HX x Hx) as [X1 X2].
        assert (SW : nth x (set_where eqb p (old i) (new i) m) d0 = if eqb (nth x p d0) (old i) then new i else nth x m d0).
        { unfold set_where. apply (nth_zipw (fun q v => if eqb q (old i) then new i else v)); lia. }
        split.
        * intros j [->|Hj] E; [|now apply X1]. rewrite X2.
          -- rewrite SW. destruct (eqb_spec (nth x p d0) (old j)); congruence.
          -- intros j' Hj' E'. assert (j = j') by (apply Inj; [now left|now right|congruence]). subst. auto.
        * intros Hno. rewrite X2 by (intros j Hj; apply Hno; now right). rewrite SW.
          destruct (eqb_spec (nth x p d0) (old i)) as [E|]; auto. exfalso. apply (Hno i); [now left|auto].
  Qed.
  Lemma fold_set_map cols p z0 : Permutation cols (seq 0 n) -> (forall x, In x p -> In x l2) ->
    fold_left (fun m i => set_where eqb p (nth (nth i cols 0) l2 d0) (nth i l1 d0) m) (seq 0 n) (repeat z0 (length p)) =
    map (cols_map cols) p.
  Proof.
    intros P Hp. destruct (@fold_set (fun i => nth (nth i cols 0) l2 d0) (fun i => nth i l1 d0) p (seq 0 n) (repeat z0 (length p))) as [HL HX].
    - apply repeat_length.
    - apply seq_NoDup.
    - intros i j Hi Hj E. apply in_seq in Hi, Hj. apply (perm_inj P); try lia.
      eapply NoDup_nth; [exact N2| | |exact E]; rewrite L2; apply perm_bound; auto; lia.
    - cbv zeta in *. apply nth_ext with (d := d0) (d' := d0); [rewrite HL, map_length; auto|].
      intros x Hx. rewrite HL in Hx. rewrite (nth_map_lt _ _ _ d0) by auto.
      assert (Hb : In (nth x p d0) l2) by (apply Hp, nth_In; auto). apply (In_nth _ _ d0) in Hb.
      destruct Hb as [j [Hj Ej]]. destruct (perm_surj P (j := j) ltac:(lia)) as [i [Hi Ei]].
      destruct (HX x Hx) as [X1 _]. rewrite (X1 i); [|apply in_seq; lia|congruence].
      rewrite <- Ej, <- Ei. symmetry. now apply cols_map_spec.
  Qed.
  (** conclusion: a table whose entries are the joint counts *)
  Lemma relabel_opt G t p cols z0 : length G = n ->
    (forall i j, i < n -> j < n -> nth j (nth i G []) 0 = joint_count eqb t p (nth i l1 d0) (nth j l2 d0)) ->
    optimal_assignment G cols -> (forall x, In x p -> In x l2) ->
    let mapped := fold_left (fun m i => set_where eqb p (nth (nth i cols 0) l2 d0) (nth i l1 d0) m) (seq 0 n) (repeat z0 (length p)) in
    (exists f, relabelling f l2 l1 /\ mapped = map f p) /\
    forall f, relabelling f l2 l1 -> agreements eq_dec t (map f p) <= agreements eq_dec t mapped.
  Proof.
    intros HG Hent [P Opt] Hp. rewrite HG in *. cbv zeta. rewrite fold_set_map by auto.
    assert (V : forall c, Permutation c (seq 0 n) -> forall f, matches f c -> assignment_value G c = agreements eq_dec t (map f p)).
    { intros c Pc f Mf. unfold assignment_value. rewrite HG. rewrite <- (@value_agree f c t p Pc Mf Hp).
      apply nsum_map_ext. intros i Hi. apply in_seq in Hi. apply Hent; [lia|]. apply perm_bound; auto; lia. }
    assert (M : matches (cols_map cols) cols) by (intros i Hi; apply cols_map_spec; auto).
    split.
    - exists (cols_map cols). split; [|reflexivity]. split.
      + intros a Ha. apply (In_nth _ _ d0) in Ha. destruct Ha as [j [Hj <-]].
        destruct (perm_surj P (j := j) ltac:(lia)) as [i [Hi <-]]. rewrite cols_map_spec by auto. apply nth_In. lia.
      + intros a b Ha Hb. apply (In_nth _ _ d0) in Ha, Hb. destruct Ha as [j [Hj <-]], Hb as [j' [Hj' <-]].
        destruct (perm_surj P (j := j) ltac:(lia)) as [i [Hi <-]], (perm_surj P (j := j') ltac:(lia)) as [i' [Hi' <-]].
        rewrite !cols_map_spec by auto. intros E. apply (NoDup_nth l1 d0) in E; auto; try lia. now subst.
    - intros f [F1 F2]. destruct (@relabel_cols f F1 F2) as [c [Pc Mc]].
      rewrite <- (V c Pc f Mc), <- (V cols P _ M). now apply Opt.
  Qed.
End Relabel.

(** an optimal assignment always exists *)
Lemma nsum_le_bound l B : (forall x, In x l -> x <= B) -> nsum l <= length l * B.
Proof. induction l as [|a l IH]; simpl; intros H; auto. specialize (IH (fun x Hx => H x (or_intror Hx))). pose proof (H a (or_introl eq_refl)). lia. Qed.
Lemma assignment_exists G : exists cols, optimal_assignment G cols.
Proof.
  set (n := length G).
  assert (HB : exists B, forall cols, Permutation cols (seq 0 n) -> assignment_value G cols <= B).
  { set (m := fold_right Nat.max 0 (map (fold_right Nat.max 0) G)). exists (n * m). intros cols P.
    unfold assignment_value. eapply Nat.le_trans; [apply nsum_le_bound with (B := m)|rewrite map_length, seq_length; auto].
    intros x Hx. apply in_map_iff in Hx. destruct Hx as [i [<- Hi]]. apply in_seq in Hi.
    assert (F : forall l j, nth j l 0 <= fold_right Nat.max 0 l).
    { induction l as [|a l IH]; intros [|j]; simpl; try lia. specialize (IH j). lia. }
    eapply Nat.le_trans; [apply F|]. unfold m. rewrite <- (@map_nth (list nat) nat (fold_right Nat.max 0) G [] i). apply F. }
  destruct HB as [B HB].
  assert (HD : forall d cols, Permutation cols (seq 0 n) -> B - assignment_value G cols <= d -> exists c, optimal_assignment G c).
  { induction d as [|d IH]; intros cols P Hd.
    - exists cols. split; auto. intros c Pc. specialize (HB c Pc). lia.
    - destruct (Classical_Prop.classic (exists c, Permutation c (seq 0 n) /\ assignment_value G cols < assignment_value G c)) as [[c [Pc Lt]]|No].
      + apply (IH c Pc). pose proof (HB c Pc). lia.
      + exists cols. split; auto. intros c Pc. destruct (Nat.le_gt_cases (assignment_value G c) (assignment_value G cols)); auto.
        exfalso. apply No. eauto. }
  apply (HD (B - assignment_value G (seq 0 n)) (seq 0 n)); auto.
Qed.

(** *** best_map *)
Lemma G_ent t p i j : i < Nat.max (length (unique t)) (length (unique p)) -> j < Nat.max (length (unique t)) (length (unique p)) ->
  nth j (nth i (best_map_G t p) []) 0 = if Nat.ltb i (length (unique t)) && Nat.ltb j (length (unique p)) then joint_count Z.eqb t p (nth i (unique t) 0%Z) (nth j (unique p) 0%Z) else 0.
Proof.
  intros Hi Hj. unfold best_map_G. cbv zeta. rewrite (nth_map_lt _ _ _ 0) by (rewrite seq_length; auto).
  rewrite (nth_map_lt _ _ _ 0) by (rewrite seq_length; auto). rewrite !seq_nth by auto. reflexivity.
Qed.
Lemma fold_left_ext_in A B (f g : A -> B -> A) l : (forall a b, In b l -> f a b = g a b) -> forall a, fold_left f l a = fold_left g l a.
Proof. induction l as [|b l IH]; simpl; intros H a; auto. rewrite H by auto. apply IH. auto. Qed.
Lemma jget_lt l i : i < length l -> jget l i = nth i l 0%Z.
Proof. intros. unfold jget. now rewrite Nat.min_l by lia. Qed.

Lemma best_map_opt lsa t p : length t = length p -> distinct t = distinct p -> optimal_assignment (best_map_G t p) (lsa (best_map_G t p)) ->
  exists mapped cols, best_map lsa t p = Some (mapped, cols) /\
  (exists f, relabelling f p t /\ mapped = map f p) /\
  forall f, relabelling f p t -> agreements Z.eq_dec t (map f p) <= agreements Z.eq_dec t mapped.
Proof.
  intros HL HD HO. unfold best_map. rewrite HL, Nat.eqb_refl. cbn [negb]. cbv zeta.
  set (cols := lsa (best_map_G t p)) in *. set (n := length (unique p)).
  assert (E1 : length (unique t) = n) by (unfold n; rewrite !unique_len; auto).
  assert (EG : length (best_map_G t p) = n) by (unfold best_map_G; cbv zeta; rewrite map_length, seq_length; lia).
  pose proof HO as [P _]. rewrite EG in P.
  eexists _, _. split; [reflexivity|].
  rewrite (@fold_left_ext_in _ _ _ (fun m i => set_where Z.eqb p (nth (nth i cols 0) (unique p) 0%Z) (nth i (unique t) 0%Z) m)).
  2:{ intros m i Hi. apply in_seq in Hi. assert (Hi2 : i < n) by lia. pose proof (perm_bound P Hi2) as Hb. rewrite !jget_lt; [reflexivity|lia|exact Hb]. }
  destruct (@relabel_opt Z Z.eqb Z.eq_dec Z.eqb_spec 0%Z n (unique t) (unique p) (unique_NoDup t) (unique_NoDup p) E1 eq_refl (best_map_G t p) t p cols 0%Z EG) as [[f [[F1 F2] Fm]] Fo]; auto.
  - intros i j Hi Hj. rewrite G_ent by lia. rewrite (proj2 (Nat.ltb_lt i _)), (proj2 (Nat.ltb_lt j _)) by lia. reflexivity.
  - intros x. apply unique_In.
  - cbv zeta in *. fold n. split.
    + exists f. split; [split|exact Fm].
      * intros a Ha. apply unique_In, F1, unique_In. auto.
      * intros a b Ha Hb. apply F2; apply unique_In; auto.
    + intros g [G1 G2]. apply Fo. split.
      * intros a Ha. apply unique_In, G1, unique_In; auto.
      * intros a b Ha Hb. apply G2; apply unique_In; auto.
Qed.
Lemma best_map_k_opt lsa t p k : length t = length p -> (forall x, In x p -> x < k) ->
  optimal_assignment (best_map_k_G t p k) (lsa (best_map_k_G t p k)) ->
  exists mapped cols, best_map_k lsa t p k = Some (mapped, cols) /\
  (exists f, relabelling f (seq 0 k) (seq 0 k) /\ mapped = map f p) /\
  forall f, relabelling f (seq 0 k) (seq 0 k) -> agreements Nat.eq_dec t (map f p) <= agreements Nat.eq_dec t mapped.
Proof.
  intros HL Hp HO. unfold best_map_k. rewrite HL, Nat.eqb_refl. cbn [negb]. cbv zeta.
  set (cols := lsa (best_map_k_G t p k)) in *.
  assert (EG : length (best_map_k_G t p k) = k) by (unfold best_map_k_G; rewrite map_length, seq_length; lia).
  pose proof HO as [P _]. rewrite EG in P.
  eexists _, _. split; [reflexivity|].
  rewrite (@fold_left_ext_in _ _ _ (fun m i => set_where Nat.eqb p (nth (nth i cols 0) (seq 0 k) 0) (nth i (seq 0 k) 0) m)).
  2:{ intros m i Hi. apply in_seq in Hi. rewrite !seq_nth; [auto|lia|]. apply (perm_bound P). lia. }
  apply (@relabel_opt nat Nat.eqb Nat.eq_dec Nat.eqb_spec 0 k (seq 0 k) (seq 0 k) (seq_NoDup k 0) (seq_NoDup k 0) (seq_length k 0) (seq_length k 0) (best_map_k_G t p k) t p cols 0 EG); auto.
  - intros i j Hi Hj. unfold best_map_k_G. rewrite (nth_map_lt _ _ _ 0) by (rewrite seq_length; auto).
    rewrite (nth_map_lt _ _ _ 0) by (rewrite seq_length; auto). now rewrite !seq_nth by auto.
  - intros x Hx. apply in_seq. specialize (Hp x Hx). lia.
Qed.
Lemma agree_le A eq_dec (t : list A) : forall m, agreements eq_dec t m <= length t.
Proof. induction t as [|a t IH]; intros [|b m]; simpl; try lia. specialize (IH m). destruct (eq_dec a b); lia. Qed.
Lemma agree_self A eq_dec (t : list A) : agreements eq_dec t t = length t.
Proof. induction t as [|a t IH]; simpl; auto. destruct (eq_dec a a); [lia|congruence]. Qed.
(** a relabelled truth is recognised *)
Lemma distinct_map f t : (forall a b, In a t -> In b t -> f a = f b -> a = b) -> distinct (map f t) = distinct t.
Proof.
  intros Inj. unfold distinct. rewrite <- (map_length f (nodup Z.eq_dec t)).
  apply Nat.le_antisymm; apply NoDup_incl_length.
  - apply NoDup_nodup.
  - intros x Hx. apply nodup_In in Hx. apply in_map_iff in Hx. destruct Hx as [a [<- Ha]]. apply in_map, nodup_In; auto.
  - assert (Hi : forall a b, In a (nodup Z.eq_dec t) -> In b (nodup Z.eq_dec t) -> f a = f b -> a = b) by (intros a b Ha Hb; apply Inj; eapply nodup_In; eauto).
    pose proof (NoDup_nodup Z.eq_dec t) as N. clear Inj. induction (nodup Z.eq_dec t) as [|a l IH]; simpl; constructor.
    + inversion N; subst. intros Hc. apply in_map_iff in Hc. destruct Hc as [b [E Hb]]. apply H1. rewrite <- (Hi b a); simpl; auto.
    + inversion N; subst. apply IH; auto. intros x y Hx Hy. apply Hi; simpl; auto.
  - intros x Hx. apply in_map_iff in Hx. destruct Hx as [a [<- Ha]]. apply nodup_In, in_map. eapply nodup_In; eauto.
Qed.
Definition inv_on (f : Z -> Z) (t : list Z) (b : Z) : Z :=
  match find (fun a => Z.eqb (f a) b) t with Some a => a | None => 0%Z end.
Lemma inv_on_spec f t a : (forall a b, In a t -> In b t -> f a = f b -> a = b) -> In a t -> inv_on f t (f a) = a.
Proof.
  intros Inj Ha. unfold inv_on. destruct (find _ t) as [b|] eqn:F.
  - apply find_some in F. destruct F as [Hb E]. apply Z.eqb_eq in E. auto.
  - exfalso. pose proof (find_none _ _ F a Ha) as E. simpl in E. rewrite Z.eqb_refl in E. discriminate.
Qed.
Lemma error_zero lsa t f : (forall a b, In a t -> In b t -> f a = f b -> a = b) -> 
  optimal_assignment (best_map_G t (map f t)) (lsa (best_map_G t (map f t))) ->
  clustering_error lsa t (map f t) = Some (0, 0%R).
Proof.
  intros Inj HO. destruct (@best_map_opt lsa t (map f t)) as [m [cols [E [[g [Hg Eg]] Hopt]]]]; auto.
  { now rewrite map_length. } { symmetry. now apply distinct_map. }
  unfold clustering_error. rewrite E.
  assert (Hinv : map (inv_on f t) (map f t) = t).
  { rewrite map_map. etransitivity; [|apply map_id]. apply map_ext_in. intros a Ha. now apply inv_on_spec. }
  assert (A : agreements Z.eq_dec t m = length t).
  { apply Nat.le_antisymm; [apply agree_le|]. rewrite <- (agree_self Z.eq_dec t) at 1. rewrite <- Hinv at 2. apply Hopt. split.
    - intros b Hb. apply in_map_iff in Hb. destruct Hb as [a [<- Ha]]. now rewrite inv_on_spec.
    - intros b b' Hb Hb'. apply in_map_iff in Hb, Hb'. destruct Hb as [a [<- Ha]], Hb' as [a' [<- Ha']].
      rewrite !inv_on_spec by auto. congruence. }
  assert (Lm : length t = length m) by (rewrite Eg, !map_length; auto).
  pose proof (@missed_agree Z Z.eqb Z.eq_dec Z.eqb_spec t m Lm). replace (num_missed Z.eqb t m) with 0 by lia.
  do 2 f_equal. simpl. unfold Rdiv. now rewrite Rmult_0_l.
Qed.
Lemma error_bounds lsa t p : length t = length p -> distinct t = distinct p -> (0 < length t) ->
  optimal_assignment (best_map_G t p) (lsa (best_map_G t p)) ->
  exists missed err, clustering_error lsa t p = Some (missed, err) /\ (0 <= err <= 1)%R /\ (err * INR (length t) = INR missed)%R /\
    (exists f, relabelling f p t /\ missed + agreements Z.eq_dec t (map f p) = length t) /\
    forall f, relabelling f p t -> missed + agreements Z.eq_dec t (map f p) <= length t.
Proof.
  intros HL HD Hpos HO. destruct (@best_map_opt lsa t p HL HD HO) as [m [cols [E [[g [Hg Eg]] Hopt]]]].
  unfold clustering_error. rewrite E. eexists _, _. split; [reflexivity|].
  assert (Lm : length t = length m) by (rewrite Eg, map_length; auto).
  pose proof (@missed_agree Z Z.eqb Z.eq_dec Z.eqb_spec t m Lm) as MA.
  assert (P : (0 < INR (length t))%R) by (apply lt_0_INR; auto).
  assert (Q : (INR (num_missed Z.eqb t m) <= INR (length t))%R) by (apply le_INR; lia).
  pose proof (pos_INR (num_missed Z.eqb t m)) as Q0. split; [split|split; [|split]].
  - apply Rmult_le_pos; auto. left. now apply Rinv_0_lt_compat.
  - apply Rmult_le_reg_r with (INR (length t)); auto. unfold Rdiv. rewrite Rmult_assoc, Rinv_l by lra. lra.
  - unfold Rdiv. rewrite Rmult_assoc, Rinv_l by lra. ring.
  - exists g. split; auto. rewrite <- Eg. lia.
  - intros f Hf. specialize (Hopt f Hf). lia.
Qed.
Lemma error_k_bounds lsa t p k : length t = length p -> (0 < length t) -> (forall x, In x p -> x < k) ->
  optimal_assignment (best_map_k_G t p k) (lsa (best_map_k_G t p k)) ->
  exists missed err, clustering_error_k lsa t p k = Some (missed, err) /\ (0 <= err <= 1)%R /\ (err * INR (length t) = INR missed)%R /\
    (exists f, relabelling f (seq 0 k) (seq 0 k) /\ missed + agreements Nat.eq_dec t (map f p) = length t) /\
    forall f, relabelling f (seq 0 k) (seq 0 k) -> missed + agreements Nat.eq_dec t (map f p) <= length t.
Proof.
  intros HL Hpos HD HO. destruct (@best_map_k_opt lsa t p k HL HD HO) as [m [cols [E [[g [Hg Eg]] Hopt]]]].
  unfold clustering_error_k. rewrite E. eexists _, _. split; [reflexivity|].
  assert (Lm : length t = length m) by (rewrite Eg, map_length; auto).
  pose proof (@missed_agree nat Nat.eqb Nat.eq_dec Nat.eqb_spec t m Lm) as MA.
  assert (P : (0 < INR (length t))%R) by (apply lt_0_INR; auto).
  assert (Q : (INR (num_missed Nat.eqb t m) <= INR (length t))%R) by (apply le_INR; lia).
  pose proof (pos_INR (num_missed Nat.eqb t m)) as Q0. split; [split|split; [|split]].
  - apply Rmult_le_pos; auto. left. now apply Rinv_0_lt_compat.
  - apply Rmult_le_reg_r with (INR (length t)); auto. unfold Rdiv. rewrite Rmult_assoc, Rinv_l by lra. lra.
  - unfold Rdiv. rewrite Rmult_assoc, Rinv_l by lra. ring.
  - exists g. split; auto. rewrite <- Eg. lia.
  - intros f Hf. specialize (Hopt f Hf). lia.
Qed.
