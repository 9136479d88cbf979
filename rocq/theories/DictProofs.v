From Coq Require Import List Arith Bool Lia Reals Lra Permutation.
From Verif Require Import Scalar Vec RVec RMat Loop OptSpec OptModel OptProofs OptProofs2 SortedL1Model SortedL1Proofs SelModel SelSpec SelProofs DictModel DictSpec.
Import ListNotations.
Set Implicit Arguments.
Local Open Scope R_scope.

Lemma ncols_shape m n (A : mat) : shape m n A -> (0 < m)%nat -> ncols A = n.
Proof. intros [H1 H2] H. unfold ncols. destruct A as [|r A]; simpl in *; [lia|]. apply H2. now left. Qed.
Lemma col_len A j : length (col A j) = length A. Proof. apply map_length. Qed.
Lemma col_nth A j i : (col A j)@i = ent A i j.
Proof.
  unfold col, ent. destruct (Nat.lt_ge_cases i (length A)).
  - rewrite nth_indep with (d' := (fun r : vec => r@j) []) by (now rewrite map_length). apply (map_nth (fun r : vec => r@j)).
  - rewrite !nth_overflow; auto; [rewrite nth_overflow by lia; simpl; lia|now rewrite map_length].
Qed.
Lemma unit_pos m n A : unit_atoms m n A -> (0 < n)%nat -> (0 < m)%nat.
Proof.
  intros [[H1 H2] H] Hn. destruct m; [|lia]. apply length_zero_iff_nil in H1. subst. specialize (H 0%nat Hn). cbv in H. lra.
Qed.
Lemma corr_le1 m n A i j : unit_atoms m n A -> (i < n)%nat -> (j < n)%nat -> corr A i j <= 1.
Proof.
  intros [_ H] Hi Hj. unfold corr. pose proof (cauchy (col A i) (col A j)) as C. unfold nrm in C.
  fold (nrm2 (col A i)) in C. fold (nrm2 (col A j)) in C. rewrite !H in C by auto. rewrite sqrt_1 in C. lra.
Qed.
Lemma corr_self m n A i : unit_atoms m n A -> (i < n)%nat -> corr A i i = 1.
Proof. intros [_ H] Hi. unfold corr. fold (nrm2 (col A i)). rewrite H by auto. apply Rabs_R1. Qed.
Lemma corr_sym A i j : corr A i j = corr A j i. Proof. unfold corr. now rewrite rdot_sym. Qed.
Lemma tab2_ent n p f i j : (i < n)%nat -> (j < p)%nat -> ent (tab n (fun i => tab p (f i))) i j = f i j.
Proof. intros. unfold ent. rewrite nth_tab by auto. now rewrite nth_tab. Qed.
Lemma gram_ent m n A i j : shape m n A -> (0 < m)%nat -> (i < n)%nat -> (j < n)%nat ->
  ent (gram A) i j = rdot (col A i) (col A j).
Proof. intros S Hm Hi Hj. unfold gram. rewrite (ncols_shape S Hm). now apply tab2_ent. Qed.
Lemma flat_argmax n p (f : nat -> nat -> R) : (0 < n)%nat -> (0 < p)%nat ->
  let G := tab n (fun i => tab p (f i)) in
  let k := argmax (concat G) in
  (k / p < n)%nat /\ (k mod p < p)%nat /\ forall i j, (i < n)%nat -> (j < p)%nat -> f i j <= f (k / p)%nat (k mod p).
Proof.
  intros Hn Hp G k.
  assert (HG : forall r, In r G -> length r = p).
  { intros r Hr. unfold G, tab in Hr. apply in_map_iff in Hr as [i [<- _]]. apply tab_length. }
  assert (LG : length G = n) by apply tab_length.
  assert (LC : length (concat G) = (n * p)%nat) by (rewrite (@concat_len _ p), LG; auto).
  assert (NE : concat G <> []) by (intros E; rewrite E in LC; simpl in LC; nia).
  destruct (argmax_spec NE) as [K1 K2]. fold k in K1, K2. rewrite LC in K1, K2.
  assert (B1 : (k / p < n)%nat) by (apply Nat.div_lt_upper_bound; lia).
  assert (B2 : (k mod p < p)%nat) by (apply Nat.mod_upper_bound; lia).
  assert (E : forall q, (q < n * p)%nat -> (concat G)@q = f (q / p)%nat (q mod p)).
  { intros q Hq. rewrite (@nth_concat _ p) by (rewrite ?LG; auto). unfold G.
    rewrite nth_tab by (apply Nat.div_lt_upper_bound; lia). apply nth_tab. apply Nat.mod_upper_bound. lia. }
  split; [auto|]. split; [auto|]. intros i j Hi Hj.
  assert (Q : (p * i + j < n * p)%nat) by nia.
  specialize (K2 (p * i + j)%nat Q). rewrite !E in K2 by auto.
  assert (D : ((p * i + j) / p = i)%nat) by (symmetry; apply (Nat.div_unique _ _ i j); auto).
  assert (M : ((p * i + j) mod p = j)%nat) by (symmetry; apply (Nat.mod_unique _ _ i j); auto).
  rewrite D, M in K2. exact K2.
Qed.
Lemma gram_coh_spec n G : (0 < n)%nat -> length G = n ->
  let r := gram_coherence G in
  (fst (snd r) < n)%nat /\ (snd (snd r) < n)%nat /\
  fst r = (if (fst (snd r) =? snd (snd r))%nat then 0 else Rabs (ent G (fst (snd r)) (snd (snd r)))) /\
  0 <= fst r /\ forall i j, (i < n)%nat -> (j < n)%nat -> i <> j -> Rabs (ent G i j) <= fst r.
Proof.
  intros Hn HG. unfold gram_coherence. rewrite HG. cbn [fst snd].
  set (f := fun i j => if (i =? j)%nat then 0 else Rabs (ent G i j)).
  destruct (@flat_argmax n n f Hn Hn) as [B1 [B2 B3]]. unfold unravel. cbn [fst snd].
  change (tab n (fun i => tab n (fun j => if (i =? j)%nat then 0 else Rabs (ent G i j)))) with (tab n (fun i => tab n (f i))) in *.
  set (k := argmax (concat (tab n (fun i => tab n (f i))))) in *.
  rewrite tab2_ent by auto. repeat split; auto.
  - pose proof (B3 0%nat 0%nat Hn Hn) as Q. unfold f in Q at 1. simpl in Q. exact Q.
  - intros i j Hi Hj Hne. pose proof (B3 i j Hi Hj) as Q. unfold f in Q at 1. destruct (Nat.eqb_spec i j); [contradiction|auto].
Qed.
Section Coh.
  Variables (m n : nat) (A : mat).
  Hypothesis HA : shape m n A.
  Hypothesis Hm : (0 < m)%nat.
  Lemma gram_len : length (gram A) = n. Proof. unfold gram. rewrite tab_length. eapply ncols_shape; eauto. Qed.
  Lemma coherence_ge i j : (i < n)%nat -> (j < n)%nat -> i <> j -> corr A i j <= coherence A.
  Proof.
    intros Hi Hj Hne. destruct (@gram_coh_spec n (gram A) ltac:(lia) gram_len) as [_ [_ [_ [_ H]]]].
    specialize (H i j Hi Hj Hne). rewrite (gram_ent HA Hm Hi Hj) in H. exact H.
  Qed.
  Lemma coherence_pos : (0 < n)%nat -> 0 <= coherence A.
  Proof. intros Hn. now destruct (@gram_coh_spec n (gram A) Hn gram_len) as [_ [_ [_ [H _]]]]. Qed.
  Lemma coherence_attained : (2 <= n)%nat -> exists i j, (i < n)%nat /\ (j < n)%nat /\ i <> j /\ corr A i j = coherence A.
  Proof.
    intros Hn. destruct (@gram_coh_spec n (gram A) ltac:(lia) gram_len) as [B1 [B2 [B3 [B4 B5]]]].
    fold (coherence_with_index A) in *. fold (coherence A) in *.
    destruct (Nat.eqb_spec (fst (snd (coherence_with_index A))) (snd (snd (coherence_with_index A)))) as [E|E].
    - exists 0%nat, 1%nat. repeat split; try lia. pose proof (@coherence_ge 0 1 ltac:(lia) ltac:(lia) ltac:(lia)).
      change (fst (coherence_with_index A)) with (coherence A) in B3. rewrite B3 in *. apply Rle_antisym; auto. apply Rabs_pos.
    - exists (fst (snd (coherence_with_index A))), (snd (snd (coherence_with_index A))). repeat split; auto.
      change (fst (coherence_with_index A)) with (coherence A) in B3. rewrite B3. rewrite (gram_ent HA Hm) by auto. reflexivity.
  Qed.
  Lemma coherence_index : (0 < n)%nat -> 0 < coherence A ->
    let (i, j) := snd (coherence_with_index A) in (i < n)%nat /\ (j < n)%nat /\ i <> j /\ corr A i j = coherence A.
  Proof.
    intros Hn HP. destruct (@gram_coh_spec n (gram A) ltac:(lia) gram_len) as [B1 [B2 [B3 [B4 B5]]]].
    fold (coherence_with_index A) in *. unfold coherence in *. destruct (coherence_with_index A) as [v [i j]]. cbn [fst snd] in *.
    destruct (Nat.eqb_spec i j) as [E|E]; [lra|]. repeat split; auto. rewrite B3, (gram_ent HA Hm) by auto. reflexivity.
  Qed.
End Coh.
(** *** Babel function *)
Lemma cumsum_from_len l : forall acc, length (cumsum_from acc l) = length l.
Proof. induction l as [|a l IH]; intros; simpl; auto. Qed.
Lemma cumsum_from_nth l : forall acc p, (p < length l)%nat -> (cumsum_from acc l)@p = acc + rlsum (firstn (S p) l).
Proof.
  induction l as [|a l IH]; intros acc p Hp; simpl in Hp; [lia|]. destruct p as [|p]; cbn [cumsum_from nth].
  - simpl. ring.
  - rewrite IH by lia. cbn [firstn rlsum]. ring.
Qed.
Section Babel.
  Variables (m n : nat) (A : mat).
  Hypothesis HA : unit_atoms m n A.
  Let row i := tab n (fun j => corr A i j).
  (** the sum kept for atom i and p others *)
  Let best i p := rlsum (firstn p (tl (rev (rsort (row i))))).
  Lemma row_len i : length (row i) = n. Proof. apply tab_length. Qed.
  Lemma row_nth i j : (j < n)%nat -> (row i)@j = corr A i j. Proof. intros. unfold row. now rewrite nth_tab. Qed.
  Lemma row_pos i j : 0 <= (row i)@j.
  Proof. destruct (Nat.lt_ge_cases j n); [rewrite row_nth by auto; apply Rabs_pos|]. rewrite nth_overflow by (rewrite row_len; auto). lra. Qed.
  Lemma row_max i : (i < n)%nat -> exists l, rev (rsort (row i)) = 1 :: l.
  Proof.
    intros Hi. assert (P : Permutation (rev (rsort (row i))) (row i)) by (rewrite <- Permutation_rev; apply rsort_perm).
    assert (D : descending (rev (rsort (row i)))) by apply rev_desc, rsort_asc.
    assert (L : length (rev (rsort (row i))) = n) by (rewrite (Permutation_length P); apply row_len).
    destruct (rev (rsort (row i))) as [|a l] eqn:E; [simpl in L; lia|]. exists l. f_equal.
    assert (In a (row i)) by (apply (Permutation_in _ P); now left).
    apply (In_nth _ _ 0) in H as [j [Hj Ej]]. rewrite row_len in Hj. rewrite row_nth in Ej by auto.
    pose proof (corr_le1 HA Hi Hj).
    assert (I1 : In 1 (a :: l)).
    { apply (Permutation_in _ (Permutation_sym P)). rewrite <- (corr_self HA Hi), <- row_nth by auto. apply nth_In. now rewrite row_len. }
    apply (In_nth _ _ 0) in I1 as [q [Hq Eq]]. pose proof (D 0%nat q ltac:(lia) Hq) as Q. rewrite Eq in Q. simpl in Q. lra.
  Qed.
  Lemma best_top i p : (i < n)%nat -> 1 + best i p = isum (firstn (S p) (rev (argsort (row i)))) (fun j => (row i)@j).
  Proof. intros Hi. rewrite sorted_top_sum. unfold best. destruct (row_max Hi) as [l ->]. reflexivity. Qed.
  Lemma isum_ext I f g : (forall i, In i I -> f i = g i) -> isum I f = isum I g.
  Proof. intros H. unfold isum. f_equal. now apply map_ext_in. Qed.
  Lemma best_upper i p T : (i < n)%nat -> (S p <= n)%nat -> NoDup T -> length T = p -> (forall j, In j T -> (j < n)%nat /\ j <> i) ->
    isum T (fun j => corr A i j) <= best i p.
  Proof.
    intros Hi Hp ND LT HT.
    pose proof (@top_sum (row i) (S p) (firstn (S p) (rev (argsort (row i)))) (i :: T)) as Q.
    rewrite row_len in Q. rewrite <- best_top in Q by auto.
    assert (E : isum (i :: T) (fun j => (row i)@j) = 1 + isum T (fun j => corr A i j)).
    { unfold isum at 1. cbn [map rlsum]. rewrite row_nth, (corr_self HA) by auto. f_equal. apply isum_ext. intros j Hj. apply row_nth. now apply HT. }
    rewrite E in Q. enough (1 + isum T (fun j => corr A i j) <= 1 + best i p) by lra. apply Q; auto using row_pos.
    - apply sorted_top. now rewrite row_len.
    - constructor; auto. intros C. now destruct (HT _ C).
    - intros j [<-|Hj]; auto. now apply HT.
    - simpl. lia.
  Qed.
  Lemma isum_perm I J f : Permutation I J -> isum I f = isum J f.
  Proof. intros P. unfold isum. apply (Permutation_map f) in P. induction P; cbn [rlsum]; lra. Qed.
  Lemma best_attained i p : (i < n)%nat -> (S p <= n)%nat ->
    exists T, NoDup T /\ length T = p /\ (forall j, In j T -> (j < n)%nat /\ j <> i) /\ isum T (fun j => corr A i j) = best i p.
  Proof.
    intros Hi Hp. set (I := firstn (S p) (rev (argsort (row i)))).
    assert (TI : top_selection (row i) (S p) I) by (apply sorted_top; now rewrite row_len).
    destruct TI as (ND & HL & HB & HT). rewrite row_len in *.
    pose proof (@best_top i p Hi) as B. fold I in B.
    assert (Ex : exists k T, Permutation I (k :: T) /\ corr A i k = 1 /\ ~ In i T).
    { destruct (in_dec Nat.eq_dec i I) as [C|C].
      - destruct (in_split _ _ C) as [l1 [l2 E]]. exists i, (l1 ++ l2). split; [rewrite E; apply Permutation_sym, Permutation_middle|].
        split; [now apply (corr_self HA)|]. rewrite E in ND. now apply NoDup_remove_2 in ND.
      - destruct I as [|k T] eqn:EI; [simpl in HL; lia|]. exists k, T. split; auto. split; [|intros X; apply C; now right].
        assert (Bk : (k < n)%nat) by (apply HB; now left).
        pose proof (HT k i ltac:(now left) Hi C) as Q. rewrite !row_nth in Q by auto. rewrite (corr_self HA Hi) in Q.
        pose proof (corr_le1 HA Hi Bk). lra. }
    destruct Ex as [k [T [P [C1 NI]]]]. exists T.
    assert (ND' : NoDup (k :: T)) by (apply (Permutation_NoDup P); auto). inversion ND' as [|? ? Hk NT]; subst.
    assert (BT : forall j, In j (k :: T) -> (j < n)%nat) by (intros j Hj; apply HB, (Permutation_in _ (Permutation_sym P)); auto).
    repeat split; auto.
    - apply Permutation_length in P. simpl in P. lia.
    - apply BT. now right.
    - intros ->. contradiction.
    - rewrite (isum_perm _ P) in B. unfold isum in B. cbn [map rlsum] in B. rewrite row_nth, C1 in B by (apply BT; now left).
      assert (E : isum T (fun j => (row i)@j) = isum T (fun j => corr A i j)) by (apply isum_ext; intros j Hj; apply row_nth, BT; now right).
      unfold isum in *. lra.
  Qed.
  Lemma babel_eq p : (S p <= n - 1)%nat -> (babel A)@p = vmax (map (fun i => best i (S p)) (seq 0 n)).
  Proof.
    intros Hp. assert (Hm : (0 < m)%nat) by (apply (unit_pos HA); lia).
    assert (NC : ncols A = n) by (apply (ncols_shape (proj1 HA) Hm)).
    unfold babel. rewrite NC, nth_tab by lia. f_equal. rewrite !map_map. unfold gram. rewrite NC.
    change (tab n (fun i => tab n (fun j => rdot (col A i) (col A j)))) with (map (fun i => tab n (fun j => rdot (col A i) (col A j))) (seq 0 n)).
    rewrite map_map. apply map_ext_in. intros i Hi. apply in_seq in Hi.
    assert (E : map Rabs (tab n (fun j => rdot (col A i) (col A j))) = row i) by (unfold row, tab; rewrite map_map; reflexivity).
    rewrite E. unfold best. destruct (@row_max i ltac:(lia)) as [l El].
    assert (Ll : S (length l) = n).
    { transitivity (length (rev (rsort (row i)))); [now rewrite El|]. rewrite rev_length, rsort_len. apply row_len. }
    rewrite El. cbn [tl]. rewrite cumsum_from_nth by lia. ring.
  Qed.
  Lemma best_in p : (0 < n)%nat -> map (fun i => best i p) (seq 0 n) <> [].
  Proof. destruct n; [lia|]. discriminate. Qed.
  (** no atom has a larger total correlation with p others *)
  Lemma babel_upper p i T : (1 <= p <= n - 1)%nat -> (i < n)%nat -> NoDup T -> length T = p -> (forall j, In j T -> (j < n)%nat /\ j <> i) ->
    isum T (fun j => corr A i j) <= (babel A)@(p - 1).
  Proof.
    intros Hp Hi ND LT HT. rewrite babel_eq by lia. replace (S (p - 1)) with p by lia.
    eapply Rle_trans; [apply (@best_upper i p T); auto; lia|].
    apply (vmax_spec (@best_in p ltac:(lia))). apply in_map_iff. exists i. split; auto. apply in_seq. lia.
  Qed.
  Lemma babel_attained p : (1 <= p <= n - 1)%nat -> exists i T, (i < n)%nat /\ NoDup T /\ length T = p /\
    (forall j, In j T -> (j < n)%nat /\ j <> i) /\ isum T (fun j => corr A i j) = (babel A)@(p - 1).
  Proof.
    intros Hp. rewrite babel_eq by lia. replace (S (p - 1)) with p by lia.
    destruct (vmax_spec (@best_in p ltac:(lia))) as [V _]. apply in_map_iff in V as [i [E Hi]]. apply in_seq in Hi.
    destruct (@best_attained i p ltac:(lia) ltac:(lia)) as [T (H1 & H2 & H3 & H4)]. exists i, T. rewrite <- E. repeat split; auto; try lia; now apply H3.
  Qed.
  Lemma isum_const T c : isum T (fun _ => c) = INR (length T) * c.
  Proof. unfold isum. induction T as [|a T IH]; [simpl; ring|]. cbn [map rlsum length]. rewrite IH, S_INR. ring. Qed.
  Lemma isum_le T f g : (forall i, In i T -> f i <= g i) -> isum T f <= isum T g.
  Proof.
    unfold isum. induction T as [|a T IH]; intros H; cbn [map rlsum]; [lra|].
    assert (f a <= g a) by (apply H; now left). assert (rlsum (map f T) <= rlsum (map g T)) by (apply IH; intros; apply H; now right). lra.
  Qed.
  Lemma babel_le p : (1 <= p <= n - 1)%nat -> (babel A)@(p - 1) <= INR p * coherence A.
  Proof.
    intros Hp. destruct (babel_attained Hp) as [i [T (H1 & H2 & H3 & H4 & H5)]]. rewrite <- H5, <- H3, <- isum_const.
    apply isum_le. intros j Hj. destruct (H4 j Hj). apply (@coherence_ge m n); auto; [apply HA|apply (unit_pos HA); lia].
  Qed.
  Lemma babel_1 : (2 <= n)%nat -> (babel A)@0 = coherence A.
  Proof.
    intros Hn. apply Rle_antisym.
    - pose proof (@babel_le 1 ltac:(lia)) as H. simpl in H. lra.
    - destruct (@coherence_attained m n A (proj1 HA)) as (i & j & Hi & Hj & Hne & E); [apply (unit_pos HA); lia|auto|].
      rewrite <- E. pose proof (@babel_upper 1 i [j] ltac:(lia) Hi) as Q. unfold isum in Q. cbn [map rlsum] in Q.
      replace (corr A i j + 0) with (corr A i j) in Q by ring. apply Q; auto.
      + constructor; [easy|constructor].
      + intros k [<-|[]]. auto.
  Qed.
  Lemma babel_mono p : (1 <= p)%nat -> (S p <= n - 1)%nat -> (babel A)@(p - 1) <= (babel A)@p.
  Proof.
    intros Hp Hn. destruct (@babel_attained p ltac:(lia)) as [i [T (H1 & H2 & H3 & H4 & H5)]].
    (* there is another atom not in i :: T *)
    assert (Ex : exists j, (j < n)%nat /\ ~ In j (i :: T)).
    { destruct (Forall_dec (fun j => In j (i :: T)) (fun j => in_dec Nat.eq_dec j (i :: T)) (seq 0 n)) as [F|F].
      - exfalso. rewrite Forall_forall in F.
        pose proof (@NoDup_incl_length _ (seq 0 n) (i :: T) (seq_NoDup _ _) F) as Q. rewrite seq_length in Q. simpl in Q. lia.
      - apply neg_Forall_Exists_neg in F; [|intros j; apply (in_dec Nat.eq_dec j (i :: T))]. apply Exists_exists in F as [j [Hj Hn']].
        apply in_seq in Hj. exists j. split; auto. lia. }
    destruct Ex as [j [Hj Hn']]. rewrite <- H5.
    pose proof (@babel_upper (S p) i (j :: T) ltac:(lia) H1) as Q. replace (S p - 1)%nat with p in Q by lia.
    unfold isum in Q. cbn [map rlsum] in Q.
    assert (0 <= corr A i j) by apply Rabs_pos. unfold isum.
    apply Rle_trans with (corr A i j + rlsum (map (fun j => corr A i j) T)); [lra|].
    apply Q.
    - constructor; auto. intros C. apply Hn'. now right.
    - simpl. lia.
    - intros k [<-|Hk]; [|now apply H4]. split; auto. intros ->. apply Hn'. now left.
  Qed.
End Babel.
