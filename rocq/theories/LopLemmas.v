(** Index lemmas for the list functions used in LopModel. *)
From Coq Require Import List Arith Bool Lia Reals.
From Verif Require Import Scalar Vec LopSpec LopModel.
Import ListNotations.
Set Implicit Arguments.

Ltac bcase := repeat match goal with
  | |- context [?a <? ?b] => destruct (Nat.ltb_spec a b)
  | |- context [?a <=? ?b] => destruct (Nat.leb_spec a b)
  | |- context [?a =? ?b] => destruct (Nat.eqb_spec a b)
  end; simpl andb; cbv iota.

Section L.
  Variable K : scalar.
  Add Field KfieldL : (s_field K).
  Local Open Scope scal_scope.
  Notation vec := (list K).
  Notation "x @ i" := (nth i x s0) (at level 5, i at level 4).

  Lemma nth_over (x : vec) i : length x <= i -> x@i = s0.
  Proof. apply nth_overflow. Qed.

  Lemma jdiff_length (x : vec) : length (jdiff x) = (length x - 1)%nat.
  Proof. unfold jdiff. destruct x as [|a x]; [reflexivity|]. rewrite zipw_length. cbn [length tl]. lia. Qed.

  Lemma nth_tl (x : vec) i : (tl x)@i = x@(S i).
  Proof. destruct x; simpl; [destruct i; reflexivity | reflexivity]. Qed.

  Lemma jdiff_nth (x : vec) i : S i < length x -> (jdiff x)@i = x@(S i) - x@i.
  Proof.
    intros H. unfold jdiff. rewrite nth_zipw with (da:=s0) (db:=s0).
    - now rewrite nth_tl.
    - lia.
    - destruct x; simpl in *; lia.
  Qed.

  Lemma slice_length s l (x : vec) : length (slice s l x) = Nat.min l (length x - s).
  Proof. unfold slice. len. Qed.

  Lemma slice_nth s l (x : vec) i : (slice s l x)@i = if i <? l then x@(s + i) else s0.
  Proof.
    unfold slice. destruct (Nat.ltb_spec i l).
    - rewrite nth_firstn by lia. now rewrite nth_skipn.
    - apply nth_over. len.
  Qed.

  Lemma firstn_nth l (x : vec) i : (firstn l x)@i = if i <? l then x@i else s0.
  Proof.
    destruct (Nat.ltb_spec i l).
    - now rewrite nth_firstn by lia.
    - apply nth_over. len.
  Qed.

  Lemma skipn_nth l (x : vec) i : (skipn l x)@i = x@(l + i).
  Proof. apply nth_skipn. Qed.

  Lemma jpad_length b a (x : vec) : length (jpad b a x) = (b + length x + a)%nat.
  Proof. unfold jpad, vzero. len. Qed.

  Lemma app_nth (x y : vec) i : (x ++ y)@i = if i <? length x then x@i else y@(i - length x).
  Proof. apply nth_app. Qed.

  Lemma jpad_nth b a (x : vec) i : (jpad b a x)@i = if i <? b then s0 else x@(i - b).
  Proof.
    unfold jpad. rewrite app_nth, vzero_length. bcase; [apply vzero_nth|].
    rewrite app_nth. bcase; [reflexivity|]. rewrite vzero_nth. symmetry. apply nth_over. lia.
  Qed.

  Lemma set_at_length i v (x : vec) : length (set_at i v x) = length x.
  Proof. revert i; induction x as [|a x IH]; intros [|i]; simpl; auto. Qed.

  Lemma set_at_nth i v (x : vec) j :
    (set_at i v x)@j = if (j =? i) && (i <? length x) then v else x@j.
  Proof.
    revert i j; induction x as [|a x IH]; intros i j.
    - destruct i; simpl; rewrite andb_false_r; reflexivity.
    - destruct i as [|i]; destruct j as [|j]; simpl; auto.
      rewrite IH. reflexivity.
  Qed.

  Lemma cumsum_from_length acc (x : vec) : length (cumsum_from acc x) = length x.
  Proof. revert acc; induction x as [|a x IH]; simpl; intros; auto. Qed.
  Lemma cumsum_length (x : vec) : length (cumsum x) = length x.
  Proof. apply cumsum_from_length. Qed.

  Lemma cumsum_from_nth acc (x : vec) i :
    i < length x -> (cumsum_from acc x)@i = acc + Sum (S i) (fun j => x@j).
  Proof.
    revert acc i; induction x as [|a x IH]; intros acc i H; simpl in H; [lia|].
    destruct i as [|i].
    - simpl; ring.
    - change ((cumsum_from acc (a :: x))@(S i)) with ((cumsum_from (acc + a) x)@i).
      rewrite IH by lia. rewrite (Sum_S_l K (S i) (fun j => (a :: x)@j)). cbn [nth]. ring.
  Qed.

  Lemma cumsum_nth (x : vec) i : i < length x -> (cumsum x)@i = Sum (S i) (fun j => x@j).
  Proof. intros H. unfold cumsum. rewrite cumsum_from_nth by auto. ring. Qed.

  Lemma add_slice_length s (v y : vec) : s + length v <= length y ->
    length (add_slice s v y) = length y.
  Proof. intros H. unfold add_slice, vadd. len. Qed.

  Lemma add_slice_nth s (v y : vec) i : s + length v <= length y ->
    (add_slice s v y)@i = y@i + (if s <=? i then v@(i - s) else s0).
  Proof.
    intros H. unfold add_slice.
    assert (Hl : length (firstn (length v) (skipn s y)) = length v) by len.
    rewrite app_nth. replace (length (firstn s y)) with s by len.
    destruct (Nat.ltb_spec i s).
    - rewrite firstn_nth. bcase; try lia. ring.
    - rewrite app_nth. rewrite (vadd_length K) with (n:=length v) by auto.
      bcase; try lia.
      + rewrite vadd_nth by auto. rewrite firstn_nth. bcase; try lia.
        rewrite skipn_nth. replace (s + (i - s))%nat with i by lia. ring.
      + rewrite skipn_nth. rewrite (nth_over v) by lia.
        replace (s + length v + (i - s - length v))%nat with i by lia. ring.
  Qed.

  Lemma inner_add_slice s (v y z : vec) :
    length z = length y -> s + length v <= length y ->
    inner (add_slice s v y) z = inner y z + inner v (slice s (length v) z).
  Proof.
    intros Hz H. set (N := length y) in *.
    rewrite (@inner_Sum K N (add_slice s v y) z); [|apply add_slice_length; auto|auto].
    rewrite (Sum_ext K _ (fun i => star (y@i) * z@i +
        (if s <=? i then star (v@(i-s)) * z@i else s0))).
    2:{ intros i Hi. rewrite add_slice_nth by auto. rewrite star_add. bcase.
        - ring. - rewrite star_0. ring. }
    rewrite Sum_add. rewrite <- (@inner_Sum K N) by auto. f_equal.
    rewrite (@inner_Sum K (length v)) by (auto; rewrite slice_length; lia).
    replace N with (s + (N - s))%nat by lia. rewrite Sum_split.
    rewrite Sum_0'. 2:{ intros i Hi. bcase; auto; lia. }
    replace (N - s)%nat with (length v + (N - s - length v))%nat by lia.
    rewrite Sum_split.
    rewrite (@Sum_0' K (N - s - length v)).
    2:{ intros i Hi. bcase; auto. rewrite (nth_over v) by lia. rewrite star_0. ring. }
    transitivity (Sum (length v) (fun i => if s <=? s + i then star v@(s+i-s) * z@(s+i) else s0)); [ring|].
    apply Sum_ext. intros i Hi. rewrite slice_nth. bcase; try lia.
    now replace (s + i - s)%nat with i by lia.
  Qed.

  Lemma conv_full_length (x h : vec) : length (conv_full x h) = (length x + length h - 1)%nat.
  Proof. unfold conv_full. len. Qed.

  Lemma xcorr_padded_length (x f : vec) : length (xcorr_padded x f) = (length x + length f - 1)%nat.
  Proof. unfold xcorr_padded. len. Qed.

  (** picking the unique index solving k + a = t *)
  Lemma Sum_pick n a t (c : nat -> K) :
    Sum n (fun k => if k + a =? t then c k else s0)
    = if (a <=? t) && (t - a <? n) then c (t - a)%nat else s0.
  Proof.
    destruct (Nat.leb_spec a t); simpl.
    - destruct (Nat.ltb_spec (t - a) n).
      + rewrite (Sum_single K (k:=(t-a)%nat)); auto.
        * bcase; auto; lia.
        * intros i Hi Hne. bcase; auto; lia.
      + apply Sum_0'. intros i Hi. bcase; auto; lia.
    - apply Sum_0'. intros i Hi. bcase; auto; lia.
  Qed.

  (** double sum over i + j = t *)
  Lemma conv_double (x h : vec) t :
    Sum (length x) (fun j => if j <=? t then x@j * h@(t - j) else s0)
    = Sum (length x) (fun j => Sum (length h) (fun i => if i + j =? t then x@j * h@i else s0)).
  Proof.
    apply Sum_ext. intros j Hj. rewrite Sum_pick. bcase; auto.
    rewrite (nth_over h) by lia. ring.
  Qed.

  Lemma conv_full_nth (x h : vec) t : t < length x + length h - 1 ->
    (conv_full x h)@t =
    Sum (length x) (fun j => Sum (length h) (fun i => if i + j =? t then x@j * h@i else s0)).
  Proof. intros H. unfold conv_full. rewrite nth_tab by auto. apply conv_double. Qed.

  (** jax's padded correlation, as a sum over i + (m-1) <= ... *)
  Lemma xcorr_padded_nth (x f : vec) t : t < length x + length f - 1 ->
    (xcorr_padded x f)@t =
    Sum (length x) (fun j => Sum (length f) (fun i =>
       if (length f - 1 - i) + j =? t then x@j * f@i else s0)).
  Proof.
    intros H. unfold xcorr_padded. rewrite nth_tab by auto.
    rewrite Sum_exchange. apply Sum_ext. intros i Hi.
    rewrite jpad_nth.
    rewrite (Sum_ext K _ (fun j => if j + (length f - 1 - i) =? t then x@j * f@i else s0)).
    2:{ intros j Hj. now rewrite Nat.add_comm. }
    rewrite (Sum_pick (length x) (length f - 1 - i) t (fun j => x@j * f@i)).
    bcase; try lia; try ring; try (rewrite (nth_over x) by lia; ring).
    replace (t + i - (length f - 1))%nat with (t - (length f - 1 - i))%nat by lia. ring.
  Qed.

  (** inner products against picked sums are what remains of adjointness *)
  Lemma scatter_length I (vs x : vec) : length (scatter I vs x) = length x.
  Proof.
    unfold scatter. revert x. generalize (combine I vs). intros l.
    induction l as [|p l IH]; intros x; simpl; auto. rewrite IH. apply set_at_length.
  Qed.

  Lemma gather_length (x : vec) I : length (gather x I) = length I.
  Proof. unfold gather. len. Qed.

  Lemma inner_set_at (z x : vec) i v : length z = length x -> i < length x ->
    inner z (set_at i v x) = inner z x + star (z@i) * (v - x@i).
  Proof.
    revert z i; induction x as [|a x IH]; intros [|b z] i Hl Hi; simpl in *; try lia.
    destruct i as [|i]; simpl.
    - ring.
    - rewrite IH by lia. ring.
  Qed.

  Lemma inner_scatter I : forall (vs acc x : vec) n,
    NoDup I -> (forall i, In i I -> i < n) -> length vs = length I ->
    length acc = n -> length x = n -> (forall i, In i I -> acc@i = s0) ->
    inner x (scatter I vs acc) = inner x acc + inner (gather x I) vs.
  Proof.
    induction I as [|i I IH]; intros vs acc x n Hnd Hr Hv Ha Hx Hz.
    - unfold scatter, gather; simpl. ring.
    - destruct vs as [|v vs]; [discriminate|].
      unfold scatter. cbn [combine fold_left fst snd].
      fold (scatter I vs (set_at i v acc)).
      inversion Hnd as [|? ? Hni Hnd']; subst.
      rewrite (IH vs (set_at i v acc) x (length acc)); auto.
      + rewrite inner_set_at by (try lia; apply Hr; now left).
        rewrite (Hz i) by now left. simpl. fold (gather x I). ring.
      + intros j Hj. apply Hr; now right.
      + apply set_at_length.
      + intros j Hj. rewrite set_at_nth. destruct (Nat.eqb_spec j i) as [->|]; [contradiction|].
        simpl. apply Hz; now right.
  Qed.

  Lemma scatter_nth_notin I : forall (vs x : vec) j, ~ In j I -> (scatter I vs x)@j = x@j.
  Proof.
    induction I as [|i I IH]; intros vs x j Hj; [reflexivity|].
    destruct vs as [|v vs]; [reflexivity|].
    unfold scatter. cbn [combine fold_left fst snd]. fold (scatter I vs (set_at i v x)).
    rewrite IH by (intro; apply Hj; now right). rewrite set_at_nth.
    destruct (Nat.eqb_spec j i) as [->|]; [exfalso; apply Hj; now left | reflexivity].
  Qed.

  Lemma scatter_nth_in I : forall (vs x : vec) p, NoDup I -> p < length I -> length vs = length I ->
    (forall i, In i I -> i < length x) ->
    (scatter I vs x)@(nth p I 0) = vs@p.
  Proof.
    induction I as [|i I IH]; intros vs x p Hnd Hp Hv Hr; [simpl in Hp; lia|].
    destruct vs as [|v vs]; [discriminate|]. inversion Hnd as [|? ? Hni Hnd']; subst.
    unfold scatter. cbn [combine fold_left fst snd]. fold (scatter I vs (set_at i v x)).
    destruct p as [|p]; cbn [nth].
    - rewrite scatter_nth_notin by auto. rewrite set_at_nth, Nat.eqb_refl.
      assert (i < length x) by (apply Hr; now left). bcase; auto; lia.
    - apply IH; auto; simpl in *; try lia. intros k Hk. rewrite set_at_length. apply Hr; now right.
  Qed.

  (** linear algebra on lists *)
  Lemma dotu_add_r (r x y : vec) : length x = length y -> dotu r (vadd x y) = dotu r x + dotu r y.
  Proof.
    revert x y; induction r as [|a r IH]; intros [|b x] [|c y] H; simpl in *; try discriminate; try ring.
    fold (vadd x y). rewrite IH by lia. ring.
  Qed.
  Lemma dotu_scale_r c (r x : vec) : dotu r (vscale c x) = c * dotu r x.
  Proof.
    revert x; induction r as [|a r IH]; intros [|b x]; simpl; try ring.
    fold (vscale c x). rewrite IH. ring.
  Qed.

  Lemma vecmat_length n y (A : list vec) :
    (forall r, In r A -> length r = n) -> length (vecmat n y A) = n.
  Proof.
    revert y; induction A as [|r A IH]; intros [|b y] H; simpl; try apply vzero_length.
    fold (vecmat n y A). apply vadd_length.
    - rewrite vscale_length. apply H; now left.
    - apply IH. intros; apply H; now right.
  Qed.

  Lemma dotu_zero_l n (y : vec) : dotu (vzero n) y = s0.
  Proof. revert y; induction n as [|n IH]; intros [|b y]; simpl; auto. fold (@vzero K n). rewrite IH. ring. Qed.

  Lemma dotu_vecmat n (A : list vec) : forall y x,
    (forall r, In r A -> length r = n) -> length y = length A -> length x = n ->
    dotu (matvec A x) y = dotu x (vecmat n y A).
  Proof.
    induction A as [|r A IH]; intros [|b y] x H Hy Hx; simpl in *; try discriminate.
    - change (vecmat n [] []) with (@vzero K n). rewrite (dotu_sym K x), dotu_zero_l. reflexivity.
    - unfold vecmat; simpl. fold (vecmat n y A). fold (matvec A x).
      assert (HA : forall r0, In r0 A -> length r0 = n) by (intros; apply H; now right).
      rewrite (IH y x) by (auto; lia).
      rewrite dotu_add_r by (rewrite vscale_length, (H r), vecmat_length; auto; now left).
      rewrite dotu_scale_r, (dotu_sym K x r). ring.
  Qed.
End L.
