(** Proofs about synthetic sparse data. *)
From Coq Require Import List Arith Bool Reals Permutation Sorted Lia Lra.
From Verif Require Import Scalar Vec RVec RMat Loop SortedL1Model PursuitModel
  PursuitProofs4 SynthModel SynthSpec.
Import ListNotations.
Local Open Scope R_scope.

(** ** Sorting *)
Lemma ninsert_sorted a l :
  StronglySorted lt l -> ~ In a l -> StronglySorted lt (ninsert a l).
Proof.
  induction 1 as [|b l H1 IH H2]; intros HI; cbn [ninsert].
  - repeat constructor.
  - rewrite Forall_forall in H2. destruct (a <=? b)%nat eqn:E.
    + apply Nat.leb_le in E.
      assert (a <> b) by (intros ->; apply HI; left; auto).
      constructor; [constructor; auto; apply Forall_forall; auto|].
      constructor; [lia|]. apply Forall_forall. intros c Hc.
      specialize (H2 c Hc). lia.
    + apply Nat.leb_gt in E. constructor.
      * apply IH. intros H. apply HI. right; auto.
      * apply Forall_forall. intros c Hc.
        apply (Permutation_in _ (ninsert_perm _ _)) in Hc.
        destruct Hc as [<-|Hc]; auto.
Qed.

Lemma nsort_sorted l : NoDup l -> StronglySorted lt (nsort l).
Proof.
  induction 1 as [|a l H1 H2 IH]; cbn; [constructor|].
  apply ninsert_sorted; auto. intros H. apply H1.
  apply (Permutation_in _ (nsort_perm l)); auto.
Qed.

Lemma sorted_nodup l : StronglySorted lt l -> NoDup l.
Proof.
  induction 1 as [|a l H1 IH H2]; constructor; auto.
  intros H. rewrite Forall_forall in H2. specialize (H2 a H). lia.
Qed.

Lemma firstn_in {A} n (l : list A) x : In x (firstn n l) -> In x l.
Proof.
  revert n; induction l as [|a l IH]; intros [|n]; cbn; try tauto.
  intros [H|H]; auto. right; eauto.
Qed.

Lemma firstn_nodup {A} n (l : list A) : NoDup l -> NoDup (firstn n l).
Proof.
  intros H. revert n. induction H as [|a l H1 H2 IH]; intros [|n]; cbn;
    constructor; auto. intros H. apply H1. eapply firstn_in; eauto.
Qed.

Lemma perm_facts D perm : permutation_of D perm ->
  NoDup perm /\ length perm = D /\ forall i, In i perm <-> (i < D)%nat.
Proof.
  intros H. split; [|split].
  - apply (Permutation_NoDup (Permutation_sym H)), seq_NoDup.
  - rewrite (Permutation_length H), seq_length. auto.
  - intros i. split; intros Hi.
    + apply (Permutation_in _ H), in_seq in Hi. lia.
    + apply (Permutation_in _ (Permutation_sym H)), in_seq. lia.
Qed.

Lemma support_facts D K perm : permutation_of D perm ->
  increasing (support perm K) /\
  length (support perm K) = Nat.min K D /\
  (forall i, In i (support perm K) -> (i < D)%nat) /\
  (forall i, In i (support perm K) <-> In i (firstn K perm)).
Proof.
  intros H. destruct (perm_facts _ _ H) as [H1 [H2 H3]]. unfold support.
  split; [apply nsort_sorted, firstn_nodup; auto|].
  split; [rewrite (Permutation_length (nsort_perm _)), firstn_length; lia|].
  assert (HI : forall i, In i (nsort (firstn K perm)) <-> In i (firstn K perm)).
  { intros i. split; apply Permutation_in;
      [|apply Permutation_sym]; apply nsort_perm. }
  split; auto. intros i Hi. apply HI, firstn_in, H3 in Hi. auto.
Qed.

(** ** Assigning rows *)
Lemma set_row_len X i v : length (set_row X i v) = length X.
Proof. unfold set_row. apply tab_length. Qed.

Lemma set_rows_len omega values X :
  length (set_rows X omega values) = length X.
Proof.
  unfold set_rows. generalize (combine omega values) as l. intros l.
  revert X; induction l as [|p l IH]; intros X; cbn; auto.
  rewrite IH. apply set_row_len.
Qed.

Lemma set_row_nth X i v k : (k < length X)%nat ->
  nth k (set_row X i v) [] = if Nat.eqb k i then v else nth k X [].
Proof. intros H. unfold set_row. rewrite nth_tab; auto. Qed.

Lemma set_rows_out omega : forall values X k,
  (k < length X)%nat -> ~ In k omega ->
  nth k (set_rows X omega values) [] = nth k X [].
Proof.
  induction omega as [|i omega IH]; intros [|v values] X k Hk Hn; auto.
  unfold set_rows in *. cbn [combine fold_left fst snd].
  rewrite IH; [|rewrite set_row_len; auto|intros H; apply Hn; right; auto].
  rewrite set_row_nth by auto. destruct (Nat.eqb_spec k i) as [->|]; auto.
  destruct Hn; left; auto.
Qed.

Lemma set_rows_in omega : forall values X j,
  NoDup omega -> length values = length omega ->
  (forall i, In i omega -> (i < length X)%nat) -> (j < length omega)%nat ->
  nth (nth j omega 0%nat) (set_rows X omega values) [] = nth j values [].
Proof.
  induction omega as [|i omega IH]; intros values X j Hd Hl Hr Hj;
    [cbn in Hj; lia|].
  destruct values as [|v values]; [discriminate|].
  apply NoDup_cons_iff in Hd. destruct Hd as [Hd1 Hd2].
  change (set_rows X (i :: omega) (v :: values))
    with (set_rows (set_row X i v) omega values).
  destruct j as [|j]; cbn [nth].
  - rewrite set_rows_out; auto.
    + rewrite set_row_nth by (apply Hr; left; auto).
      rewrite Nat.eqb_refl. auto.
    + rewrite set_row_len. apply Hr; left; auto.
  - apply IH; auto.
    + intros a Ha. rewrite set_row_len. apply Hr; right; auto.
    + cbn in Hj. lia.
Qed.

Lemma set_rows_row omega : forall values X n,
  (forall r, In r X -> length r = n) ->
  (forall r, In r values -> length r = n) ->
  forall r, In r (set_rows X omega values) -> length r = n.
Proof.
  induction omega as [|i omega IH]; intros [|v values] X n HX HV; auto.
  change (set_rows X (i :: omega) (v :: values))
    with (set_rows (set_row X i v) omega values).
  apply IH; [|intros r Hr; apply HV; right; auto].
  intros r Hr. unfold set_row in Hr.
  apply (In_nth _ _ []) in Hr. destruct Hr as [k [Hk <-]].
  rewrite tab_length in Hk. rewrite nth_tab by auto.
  destruct (Nat.eqb k i); [apply HV; left; auto|].
  apply HX, nth_In; auto.
Qed.

Lemma zeros_len D S : length (zeros D S) = D.
Proof. apply repeat_length. Qed.

Lemma zeros_nth D S k : (k < D)%nat -> nth k (zeros D S) [] = rzero S.
Proof. intros H. unfold zeros. apply nth_repeat. auto. Qed.

Lemma squeeze_shape D S X : shape D S X -> sq_shape D S (squeeze D S X).
Proof.
  intros HX. unfold squeeze, sq_shape.
  destruct (Nat.eqb_spec D 1) as [HD|HD], (Nat.eqb_spec S 1) as [HS|HS]; auto.
  - left. split; [auto|split; auto]. apply (shape_row (m := D)); auto; lia.
  - right. split; [auto|split; auto]. rewrite map_length. apply HX.
Qed.

Lemma squeeze_entry D S X i s : shape D S X -> (i < D)%nat -> (s < S)%nat ->
  sq_entry D (squeeze D S X) i s = ent X i s.
Proof.
  intros HX Hi Hs. unfold squeeze, sq_entry.
  destruct (Nat.eqb_spec D 1) as [HD|HD], (Nat.eqb_spec S 1) as [HS|HS]; auto.
  - replace i with 0%nat by lia. replace s with 0%nat by lia. auto.
  - replace i with 0%nat by lia. auto.
  - replace s with 0%nat by lia. unfold ent.
    exact (map_nth (fun r : vec => nth 0 r 0) X [] i).
Qed.

Lemma place_sparse D S K omega values :
  increasing omega -> length omega = K ->
  (forall i, In i omega -> (i < D)%nat) -> shape K S values ->
  exists X, place D S omega values = Some X /\
    row_sparse D S K (squeeze D S X) omega (ent values).
Proof.
  intros Hi Hl Hr [HV1 HV2].
  exists (set_rows (zeros D S) omega values). unfold place.
  replace (length values =? length omega)%nat with true
    by (symmetry; apply Nat.eqb_eq; lia).
  split; auto.
  assert (HX : shape D S (set_rows (zeros D S) omega values)).
  { split; [rewrite set_rows_len; apply zeros_len|].
    apply set_rows_row; auto. intros r H. apply repeat_spec in H. subst r.
    apply rzero_len. }
  split; [apply squeeze_shape; auto|]. split; auto. split; auto. split; auto.
  split.
  - intros i s HiD Hs Hn. rewrite squeeze_entry by auto. unfold ent.
    rewrite set_rows_out; auto.
    + rewrite zeros_nth by auto. unfold rzero. apply nth_repeat_same.
    + rewrite zeros_len. auto.
  - intros j s Hj Hs. rewrite squeeze_entry; auto.
    + unfold ent. rewrite set_rows_in; auto.
      * apply sorted_nodup; auto.
      * lia.
      * intros i H. rewrite zeros_len. auto.
      * lia.
    + apply Hr, nth_In. lia.
Qed.

Lemma place_fail D S omega values :
  length values <> length omega -> length values <> 1%nat ->
  place D S omega values = None.
Proof.
  intros H1 H2. unfold place.
  apply Nat.eqb_neq in H1, H2. rewrite H1, H2. auto.
Qed.

Lemma mmap_shape m n f A : shape m n A -> shape m n (mmap f A).
Proof.
  intros [H1 H2]. unfold mmap. split; [rewrite map_length; auto|].
  intros r Hr. apply in_map_iff in Hr. destruct Hr as [r' [<- Hr]].
  rewrite map_length. auto.
Qed.

Lemma mmap_ent m n f A i j : shape m n A -> (i < m)%nat -> (j < n)%nat ->
  ent (mmap f A) i j = f (ent A i j).
Proof.
  intros HA Hi Hj. unfold ent, mmap.
  rewrite nth_indep with (d' := map f []) by (rewrite map_length; destruct HA; unfold mat, vec in *; lia).
  rewrite (map_nth (map f)).
  rewrite nth_indep with (d' := f 0)
    by (rewrite map_length, (shape_row (m := m) (n := n)); auto).
  rewrite (map_nth f). auto.
Qed.

Lemma zipw_len {A B C} (f : A -> B -> C) l1 : forall l2,
  length (zipw f l1 l2) = Nat.min (length l1) (length l2).
Proof.
  induction l1 as [|a l1 IH]; intros [|b l2]; cbn; auto.
Qed.

Lemma zipw_nth {A B C} (f : A -> B -> C) da db dc l1 : forall l2 i,
  (i < length l1)%nat -> (i < length l2)%nat ->
  nth i (zipw f l1 l2) dc = f (nth i l1 da) (nth i l2 db).
Proof.
  induction l1 as [|a l1 IH]; intros [|b l2] [|i]; cbn; try lia; auto.
  intros H1 H2. apply IH; lia.
Qed.

Lemma mzip_shape m n f A B : shape m n A -> shape m n B ->
  shape m n (mzip f A B).
Proof.
  intros HA HB. unfold mzip. split.
  - rewrite zipw_len. destruct HA, HB. unfold mat, vec in *. lia.
  - intros r Hr. apply (In_nth _ _ []) in Hr. destruct Hr as [k [Hk <-]].
    rewrite zipw_len in Hk. destruct (HA) as [A1 A2], (HB) as [B1 B2].
    rewrite (zipw_nth _ [] []) by (unfold mat, vec in *; lia).
    rewrite zipw_len.
    pose proof (shape_row (i := k) HA ltac:(unfold mat, vec in *; lia)).
    pose proof (shape_row (i := k) HB ltac:(unfold mat, vec in *; lia)).
    unfold mat, vec in *; lia.
Qed.

Lemma mzip_ent m n f A B i j : shape m n A -> shape m n B ->
  (i < m)%nat -> (j < n)%nat ->
  ent (mzip f A B) i j = f (ent A i j) (ent B i j).
Proof.
  intros HA HB Hi Hj. unfold ent, mzip.
  rewrite (zipw_nth _ [] []) by (destruct HA, HB; unfold mat, vec in *; lia).
  apply zipw_nth; rewrite (shape_row (m := m) (n := n)); auto.
Qed.

Lemma row_sparse_ext D S K q omega V W :
  (forall j s, (j < K)%nat -> (s < S)%nat -> V j s = W j s) ->
  row_sparse D S K q omega V -> row_sparse D S K q omega W.
Proof.
  intros H [H1 [H2 [H3 [H4 [H5 H6]]]]].
  split; [auto|split; [auto|split; [auto|split; [auto|split; auto]]]].
  intros j s Hj Hs. rewrite H6; auto.
Qed.

(** ** The generators *)
Lemma normal_ok D K S perm values :
  (K <= D)%nat -> permutation_of D perm -> shape K S values ->
  exists q omega,
    sparse_normal_representations D K S perm values = Some (q, omega) /\
    row_sparse D S K q omega (ent values) /\
    (forall i, In i omega <-> In i (firstn K perm)).
Proof.
  intros HK HP HV. destruct (support_facts D K perm HP) as [H1 [H2 [H3 H4]]].
  destruct (place_sparse D S K (support perm K) values) as [X [E HX]]; auto.
  { rewrite H2. lia. }
  exists (squeeze D S X), (support perm K).
  unfold sparse_normal_representations. rewrite E. auto.
Qed.

Lemma normal_fail D K S perm values :
  (D < K)%nat -> K <> 1%nat -> permutation_of D perm -> shape K S values ->
  sparse_normal_representations D K S perm values = None.
Proof.
  intros HK H1 HP [HV _]. destruct (support_facts D K perm HP) as [_ [H2 _]].
  unfold sparse_normal_representations. rewrite place_fail; auto; lia.
Qed.

Lemma biuniform_ok a b D K S perm u g :
  (K <= D)%nat -> permutation_of D perm -> shape K S u -> shape K S g ->
  exists q omega,
    sparse_biuniform_representations a b D K S perm u g = Some (q, omega) /\
    row_sparse D S K q omega
      (fun j s => sign (ent g j s) * (a + (b - a) * ent u j s)) /\
    (forall i, In i omega <-> In i (firstn K perm)).
Proof.
  intros HK HP HU HG. destruct (support_facts D K perm HP) as [H1 [H2 [H3 H4]]].
  set (V := mzip Rmult (mmap sign g) (mmap (fun t => a + (b - a) * t) u)).
  assert (HV : shape K S V)
    by (apply mzip_shape; apply mmap_shape; auto).
  destruct (place_sparse D S K (support perm K) V) as [X [E HX]]; auto.
  { rewrite H2. lia. }
  exists (squeeze D S X), (support perm K).
  unfold sparse_biuniform_representations. fold V. rewrite E.
  split; auto. split; auto. eapply row_sparse_ext; [|exact HX].
  intros j s Hj Hs. unfold V.
  rewrite (mzip_ent K S) by (auto; apply mmap_shape; auto).
  rewrite !(mmap_ent K S) by auto. auto.
Qed.

Lemma sign_cases r : (0 < r /\ sign r = 1) \/ (r < 0 /\ sign r = -1) \/
  (r = 0 /\ sign r = 0).
Proof.
  unfold sign. destruct (Rltb_spec 0 r), (Rltb_spec r 0); lra.
Qed.

Lemma sign_abs r : r <> 0 -> Rabs (sign r) = 1.
Proof.
  intros H. destruct (sign_cases r) as [[H1 ->]|[[H1 ->]|[H1 ->]]].
  - apply Rabs_R1.
  - rewrite Rabs_left; lra.
  - lra.
Qed.

Lemma biuniform_range a b g u : 0 <= a -> a <= b -> 0 <= u <= 1 -> g <> 0 ->
  a <= Rabs (sign g * (a + (b - a) * u)) <= b.
Proof.
  intros Ha Hb Hu Hg. rewrite Rabs_mult, sign_abs, Rmult_1_l by auto.
  assert (0 <= (b - a) * u) by (apply Rmult_le_pos; lra).
  assert ((b - a) * u <= (b - a) * 1) by (apply Rmult_le_compat_l; lra).
  rewrite Rabs_pos_eq; lra.
Qed.

Lemma spikes_ok N K S perm g :
  (K <= N)%nat -> permutation_of N perm -> shape K S g ->
  exists q omega,
    sparse_spikes N K S perm g = Some (q, omega) /\
    row_sparse N S K q omega (fun j s => sign (ent g j s)) /\
    (forall i, In i omega <-> In i (firstn K perm)).
Proof.
  intros HK HP HG. destruct (support_facts N K perm HP) as [H1 [H2 [H3 H4]]].
  assert (HV : shape K S (mmap sign g)) by (apply mmap_shape; auto).
  destruct (place_sparse N S K (support perm K) (mmap sign g))
    as [X [E HX]]; auto.
  { rewrite H2. lia. }
  exists (squeeze N S X), (support perm K).
  unfold sparse_spikes. rewrite E.
  split; auto. split; auto. eapply row_sparse_ext; [|exact HX].
  intros j s Hj Hs. rewrite (mmap_ent K S) by auto. auto.
Qed.

(** ** Index sets *)
Lemma index_sets_row N K perms s :
  (forall p, In p perms -> permutation_of N p) -> (s < length perms)%nat ->
  selection_of N (Nat.min K N) (nth s (index_sets N K 0 perms) []).
Proof.
  intros HP Hs. unfold index_sets.
  rewrite nth_indep with (d' := firstn K []) by (rewrite map_length; auto).
  rewrite map_nth.
  destruct (perm_facts N (nth s perms [])) as [H1 [H2 H3]];
    [apply HP, nth_In; auto|].
  split; [apply firstn_nodup; auto|].
  split; [rewrite firstn_length; lia|].
  intros b Hb. apply firstn_in, H3 in Hb. auto.
Qed.

Lemma index_sets_axis N K a perms s j :
  (j < Nat.min K N)%nat ->
  nth s (nth j (index_sets N K (S a) perms) []) 0%nat =
  nth j (nth s (index_sets N K 0 perms) []) 0%nat.
Proof.
  intros Hj. unfold index_sets, ntranspose. rewrite nth_tab by auto.
  pose proof (map_nth (fun r : list nat => nth j r 0%nat)
                (map (firstn K) perms) [] s) as H.
  cbv beta in H. rewrite <- H. f_equal. destruct j; auto.
Qed.

(** ** Points orthogonal to a point *)
Lemma ortho_ok n x points :
  length x = n -> nrm x <> 0 -> (forall p, In p points -> length p = n) ->
  exists Q, points_orthogonal_to x points = Some Q /\
    length Q = length points /\
    forall i, (i < length points)%nat ->
      length (nth i Q []) = n /\ rdot (nth i Q []) x = 0 /\
      exists c, nth i points [] = radd (nth i Q []) (rscale c x).
Proof.
  intros Hx Hn HP. unfold points_orthogonal_to.
  destruct (Reqb_spec (nrm x) 0) as [|_]; [contradiction|].
  set (e := rscale (/ nrm x) x).
  exists (zipw (fun p c => rsub p (rscale c e)) points (mv points e)).
  split; [reflexivity|].
  assert (Le : length e = n) by (unfold e; rewrite rscale_len; auto).
  split.
  { rewrite zipw_len, mv_len. apply Nat.min_id. }
  intros i Hi. set (p := nth i points []).
  assert (EQ : nth i (zipw (fun p c => rsub p (rscale c e)) points
                        (mv points e)) [] = rsub p (rscale (rdot p e) e)).
  { rewrite (zipw_nth (fun p c => rsub p (rscale c e)) [] 0);
      [rewrite mv_nth; auto|auto|rewrite mv_len; auto]. }
  rewrite EQ. clear EQ.
  assert (Lp : length p = n) by (apply HP, nth_In; auto).
  assert (Lr : length (rscale (rdot p e) e) = n) by (rewrite rscale_len; auto).
  split; [rewrite rsub_len; lia|]. split.
  - rewrite rdot_sub_l by lia. rewrite rdot_scale_l. unfold e.
    rewrite rdot_scale_r, rdot_scale_l. pose proof (nrm_sq x) as HS.
    unfold nrm2 in HS. rewrite <- HS. field. auto.
  - exists (rdot p e * / nrm x). apply vec_eq.
    + rewrite radd_len, rsub_len, !rscale_len. lia.
    + intros k _. unfold e at 2. unfold e at 2 in Lr.
      rewrite radd_nth, rsub_nth, !rscale_nth by (rewrite ?rsub_len, ?rscale_len in *; lia).
      ring.
Qed.

(** ** Blocks *)
Lemma block_indices_len B blocks :
  length (block_indices B blocks) = (length blocks * B)%nat.
Proof.
  unfold block_indices. induction blocks as [|b l IH]; auto.
  cbn [flat_map length]. rewrite app_length, IH, map_length, seq_length. lia.
Qed.

Lemma block_indices_in B blocks i : (0 < B)%nat ->
  In i (block_indices B blocks) <-> In (i / B)%nat blocks.
Proof.
  intros HB. unfold block_indices. rewrite in_flat_map. split.
  - intros [b [H1 H2]]. apply in_map_iff in H2. destruct H2 as [k [<- H2]].
    apply in_seq in H2.
    replace ((k + B * b) / B)%nat with b; auto.
    apply Nat.div_unique with (r := k); lia.
  - intros H. exists (i / B)%nat. split; auto. apply in_map_iff.
    exists (i mod B)%nat. split.
    + pose proof (Nat.div_mod i B ltac:(lia)). lia.
    + apply in_seq. pose proof (Nat.mod_upper_bound i B ltac:(lia)). lia.
Qed.

Lemma ss_app_lt l1 l2 : StronglySorted lt l1 -> StronglySorted lt l2 ->
  (forall a b, In a l1 -> In b l2 -> (a < b)%nat) ->
  StronglySorted lt (l1 ++ l2).
Proof.
  induction l1 as [|a l1 IH]; cbn; intros H1 H2 H3; auto.
  apply StronglySorted_inv in H1. destruct H1 as [H1 H4].
  constructor.
  - apply IH; auto.
  - apply Forall_app; split; auto. apply Forall_forall. auto.
Qed.

Lemma block_row_sorted B b n a :
  StronglySorted lt (map (fun i => (i + B * b)%nat) (seq a n)).
Proof.
  revert a. induction n as [|n IH]; intros a; cbn; [constructor|].
  constructor; auto. apply Forall_forall. intros y Hy.
  apply in_map_iff in Hy. destruct Hy as [j [<- Hj]]. apply in_seq in Hj. lia.
Qed.

Lemma block_indices_sorted B blocks : increasing blocks ->
  increasing (block_indices B blocks).
Proof.
  unfold increasing, block_indices.
  induction 1 as [|b l H1 IH H2]; cbn [flat_map]; [constructor|].
  apply ss_app_lt; auto.
  - apply block_row_sorted.
  - intros x y Hx Hy. apply in_map_iff in Hx. destruct Hx as [k [<- Hk]].
    apply in_flat_map in Hy. destruct Hy as [c [Hc Hy]].
    apply in_map_iff in Hy. destruct Hy as [k' [<- Hk']].
    apply in_seq in Hk, Hk'. rewrite Forall_forall in H2.
    specialize (H2 c Hc). nia.
Qed.

Lemma block_indices_nth B blocks : forall j i,
  (j < length blocks)%nat -> (i < B)%nat ->
  nth (j * B + i) (block_indices B blocks) 0%nat =
  (B * nth j blocks 0 + i)%nat.
Proof.
  unfold block_indices. induction blocks as [|b l IH]; intros j i Hj Hi;
    [cbn in Hj; lia|].
  cbn [flat_map]. destruct j as [|j].
  - rewrite app_nth1 by (rewrite map_length, seq_length; lia).
    cbn [Nat.mul Nat.add nth].
    rewrite nth_indep with (d' := (0 + B * b)%nat)
      by (rewrite map_length, seq_length; lia).
    rewrite (map_nth (fun i => (i + B * b)%nat)), seq_nth by auto. lia.
  - rewrite app_nth2; rewrite map_length, seq_length; [|nia].
    replace (S j * B + i - B)%nat with (j * B + i)%nat by nia.
    cbn [nth]. apply IH; cbn in Hj; lia.
Qed.

Lemma concat_nth B (A : mat) : forall r i,
  (forall v, In v A -> length v = B) -> (r < length A)%nat -> (i < B)%nat ->
  nth (r * B + i) (concat A) 0 = ent A r i.
Proof.
  induction A as [|v A IH]; intros r i HA Hr Hi; [cbn in Hr; lia|].
  cbn [concat]. assert (Lv : length v = B) by (apply HA; left; auto).
  destruct r as [|r].
  - rewrite app_nth1 by lia. auto.
  - rewrite app_nth2 by nia. rewrite Lv.
    replace (S r * B + i - B)%nat with (r * B + i)%nat by nia.
    rewrite IH; auto. intros w Hw. apply HA; right; auto. cbn in Hr; lia.
Qed.

Lemma reshape_shape S nv A : shape nv S (reshape_T S nv A).
Proof.
  unfold reshape_T. split; [apply tab_length|].
  intros r Hr. apply (In_nth _ _ []) in Hr. destruct Hr as [k [Hk <-]].
  rewrite tab_length in Hk. rewrite nth_tab by auto. apply tab_length.
Qed.

Lemma reshape_ent S K B A j i s : shape (K * S) B A ->
  (j < K)%nat -> (i < B)%nat -> (s < S)%nat ->
  ent (reshape_T S (K * B) A) (j * B + i) s = ent A (s * K + j) i.
Proof.
  intros [H1 H2] Hj Hi Hs. unfold ent at 1, reshape_T.
  assert (j * B + i < K * B)%nat by nia.
  rewrite nth_tab, nth_tab by auto.
  replace (s * (K * B) + (j * B + i))%nat with ((s * K + j) * B + i)%nat by ring.
  apply concat_nth; auto. rewrite H1. nia.
Qed.

Lemma ar1_len b1 b2 l : forall p, length (ar1 b1 b2 p l) = length l.
Proof. induction l as [|c l IH]; intros p; cbn; auto. Qed.

Lemma ar1_nth b1 b2 l : forall p i, (i < length l)%nat ->
  (ar1 b1 b2 p l)@i =
  b1 * (match i with O => p | S k => (ar1 b1 b2 p l)@k end) + b2 * l@i.
Proof.
  induction l as [|c l IH]; intros p i Hi; [cbn in Hi; lia|].
  cbn [ar1]. destruct i as [|i]; [reflexivity|].
  cbn [nth]. rewrite IH by (cbn in Hi; lia).
  destruct i; reflexivity.
Qed.

Lemma ar1_row_ok cor l :
  autoregressive cor l (ar1_row cor (sqrt (1 - cor ^ 2)) l).
Proof.
  unfold autoregressive, ar1_row. destruct l as [|c l].
  - split; [auto|split; auto]. intros i Hi. cbn in Hi. lia.
  - split; [cbn; rewrite ar1_len; auto|]. split; [auto|].
    intros i Hi. cbn [nth]. rewrite ar1_nth by (cbn in Hi; lia).
    destruct i; reflexivity.
Qed.

Lemma ar1_zero l : autoregressive 0 l l.
Proof.
  split; [auto|split; auto]. intros i Hi.
  replace (1 - 0 ^ 2) with 1 by ring. rewrite sqrt_1. ring.
Qed.

Lemma chosen_sorted C K chosen : selection_of C K chosen ->
  increasing (nsort chosen) /\ length (nsort chosen) = K /\
  forall b, In b (nsort chosen) <-> In b chosen.
Proof.
  intros [H1 [H2 H3]]. split; [apply nsort_sorted; auto|].
  split; [rewrite (Permutation_length (nsort_perm _)); auto|].
  intros b. split; apply Permutation_in;
      [|apply Permutation_sym]; apply nsort_perm.
Qed.

Lemma rscale_1 (w : vec) : rscale 1 w = w.
Proof.
  apply vec_eq; [apply rscale_len|]. intros i _. rewrite rscale_nth. ring.
Qed.

Lemma correlate_rows (cor : R) (values : mat) W :
  (if Reqb cor 0 then Some values
   else if Rltb (1 - cor ^ 2) 0 then None
   else Some (map (ar1_row cor (sqrt (1 - cor ^ 2))) values)) = Some W ->
  length W = length values /\
  forall r, (r < length values)%nat ->
    autoregressive cor (nth r values []) (nth r W []).
Proof.
  destruct (Reqb_spec cor 0) as [->|Hc].
  - intros H. injection H as <-. split; auto. intros. apply ar1_zero.
  - destruct (Rltb (1 - cor ^ 2) 0); [discriminate|].
    intros H. injection H as <-. split; [apply map_length|].
    intros r Hr.
    rewrite (nth_indep (map _ _) [] (ar1_row cor (sqrt (1 - cor ^ 2)) []))
      by (rewrite map_length; auto).
    rewrite map_nth. apply ar1_row_ok.
Qed.

Lemma nrm_pos_ne x : nrm x <> 0 -> 0 < nrm x.
Proof. intros H. pose proof (nrm_pos x). lra. Qed.

Lemma normalize_ok A W : normalize_rows A = Some W ->
  length W = length A /\
  forall r, (r < length A)%nat -> exists c, 0 < c /\
    nth r W [] = rscale c (nth r A []) /\ nrm (nth r W []) = 1.
Proof.
  unfold normalize_rows. destruct (forallb _ A) eqn:E; [|discriminate].
  intros H. injection H as <-. split; [apply map_length|].
  intros r Hr. rewrite forallb_forall in E.
  specialize (E (nth r A []) (nth_In _ _ Hr)). apply negb_true_iff in E.
  destruct (Reqb_spec (nrm (nth r A [])) 0) as [|Hn]; [discriminate|].
  pose proof (nrm_pos_ne _ Hn) as HP.
  rewrite (nth_indep (map _ _) [] (rscale (/ nrm []) []))
      by (rewrite map_length; auto).
  rewrite (map_nth (fun r : vec => rscale (/ nrm r) r)).
  exists (/ nrm (nth r A [])). split; [apply Rinv_0_lt_compat; auto|].
  split; auto. rewrite nrm_scale, Rabs_pos_eq.
  - field. auto.
  - left. apply Rinv_0_lt_compat; auto.
Qed.

Ltac mlia := unfold mat, vec in *; lia.

Lemma blocks_ok D K B S cor normalize chosen values q blocks indices :
  selection_of (D / B) K chosen -> shape (K * S) B values ->
  sparse_normal_blocks D K B S cor normalize chosen values
    = Some (q, blocks, indices) ->
  increasing blocks /\ length blocks = K /\
  (forall b, In b blocks <-> In b chosen) /\
  (forall i, In i indices <-> In (i / B)%nat blocks) /\
  exists W, block_rows cor normalize values W /\
    row_sparse D S (K * B) q indices
      (fun p s => ent W (s * K + p / B) (p mod B)).
Proof.
  intros HC HV HR. destruct HV as [HV1 HV2].
  unfold sparse_normal_blocks in HR.
  destruct (Nat.eqb_spec B 0) as [|HB]; [discriminate|].
  destruct (Nat.eqb_spec D (D / B * B)) as [HD|]; [|discriminate].
  cbn [negb] in HR.
  destruct (Nat.ltb_spec (D / B) K) as [|HK]; [discriminate|].
  destruct (if Reqb cor 0 then _ else _) as [V1|] eqn:E1; [|discriminate].
  destruct (correlate_rows cor values V1 E1) as [L1 P1].
  destruct (if normalize then _ else _) as [V2|] eqn:E2; [|discriminate].
  destruct (place _ _ _ _) as [x|] eqn:E3; [|discriminate].
  injection HR as <- <- <-.
  destruct (chosen_sorted _ _ _ HC) as [C1 [C2 C3]].
  split; auto. split; auto. split; auto.
  split; [intros i; apply block_indices_in; lia|].
  assert (BR : block_rows cor normalize values V2).
  { destruct normalize.
    - destruct (normalize_ok _ _ E2) as [L2 P2]. split; [mlia|].
      intros r Hr. destruct (P2 r ltac:(mlia)) as [c [Q1 [Q2 Q3]]].
      pose proof (P1 r Hr) as PA. split.
      + rewrite Q2, rscale_len. apply PA.
      + exists (nth r V1 []), c. auto.
    - injection E2 as <-. split; auto. intros r Hr.
      pose proof (P1 r Hr) as PA. split; [apply PA|].
      exists (nth r V1 []), 1. split; auto. rewrite rscale_1.
      split; auto. split; [lra|auto]. }
  exists V2. split; auto.
  assert (HV2' : shape (K * S) B V2).
  { destruct BR as [B1 B2]. split; [mlia|]. intros r Hr.
    apply (In_nth _ _ []) in Hr. destruct Hr as [k [Hk <-]].
    destruct (B2 k ltac:(mlia)) as [B3 _].
    transitivity (length (nth k values [])); [exact B3|].
    apply HV2, nth_In. mlia. }
  destruct (place_sparse D S (K * B) (block_indices B (nsort chosen))
              (reshape_T S (K * B) V2)) as [X [EX HX]].
  - apply block_indices_sorted; auto.
  - rewrite block_indices_len. lia.
  - intros i Hi. apply block_indices_in in Hi; [|lia]. apply C3 in Hi.
    destruct HC as [_ [_ HC]]. specialize (HC _ Hi).
    pose proof (Nat.div_mod i B HB). pose proof (Nat.mod_upper_bound i B HB).
    nia.
  - apply reshape_shape.
  - rewrite EX in E3. injection E3 as <-.
    eapply row_sparse_ext; [|exact HX]. intros p s Hp Hs.
    pose proof (Nat.div_mod p B HB) as HD'.
    pose proof (Nat.mod_upper_bound p B HB) as HM'.
    rewrite <- (reshape_ent S K B V2 (p / B) (p mod B) s); auto.
    + f_equal. lia.
    + apply Nat.div_lt_upper_bound; lia.
Qed.

Lemma blocks_errors D K B S cor normalize chosen values :
  (0 < B)%nat ->
  (D mod B <> 0)%nat \/ (D < K * B)%nat \/ 1 < Rabs cor ->
  sparse_normal_blocks D K B S cor normalize chosen values = None.
Proof.
  intros HB H. unfold sparse_normal_blocks.
  destruct (Nat.eqb_spec B 0) as [|HB0]; auto.
  destruct (Nat.eqb_spec D (D / B * B)) as [HD|]; [cbn [negb]|auto].
  destruct (Nat.ltb_spec (D / B) K) as [|HK]; auto.
  destruct H as [H|[H|H]].
  - exfalso. apply H. rewrite HD. apply Nat.mod_mul. lia.
  - exfalso. nia.
  - destruct (Reqb_spec cor 0) as [->|].
    + rewrite Rabs_R0 in H. lra.
    + destruct (Rltb_spec (1 - cor ^ 2) 0) as [|HH]; auto. exfalso.
      assert (1 < cor ^ 2); [|lra].
      rewrite <- (pow2_abs cor). nra.
Qed.

Lemma nrm_nz_first w : w@0 <> 0 -> nrm w <> 0.
Proof.
  intros H E. apply nrm_eq0 in E. apply H. rewrite E. 
  unfold rzero. apply nth_repeat_same.
Qed.

Lemma blocks_defined D K B S cor normalize chosen values :
  (0 < B)%nat -> (D mod B = 0)%nat -> (K * B <= D)%nat -> Rabs cor <= 1 ->
  selection_of (D / B) K chosen -> shape (K * S) B values ->
  (normalize = false \/ forall r, (r < K * S)%nat -> ent values r 0 <> 0) ->
  sparse_normal_blocks D K B S cor normalize chosen values <> None.
Proof.
  intros HB HD HK Hc HC HV HN HR. unfold sparse_normal_blocks in HR.
  destruct (Nat.eqb_spec B 0) as [|HB0]; [lia|].
  pose proof (Nat.div_mod D B HB0) as HDM.
  destruct (Nat.eqb_spec D (D / B * B)) as [_|HD']; [cbn [negb] in HR|lia].
  destruct (Nat.ltb_spec (D / B) K) as [HK'|_]; [nia|].
  destruct (if Reqb cor 0 then _ else _) as [V1|] eqn:E1.
  2:{ destruct (Reqb_spec cor 0); [discriminate|].
      destruct (Rltb_spec (1 - cor ^ 2) 0) as [H|]; [|discriminate].
      rewrite <- (pow2_abs cor) in H. pose proof (Rabs_pos cor). nra. }
  destruct (correlate_rows cor values V1 E1) as [L1 P1].
  destruct (if normalize then _ else _) as [V2|] eqn:E2.
  2:{ destruct normalize; [|discriminate]. destruct HN as [|HN]; [discriminate|].
      unfold normalize_rows in E2. destruct (forallb _ V1) eqn:EF; [discriminate|].
      assert (forallb (fun r => negb (Reqb (nrm r) 0)) V1 = true); [|congruence].
      apply forallb_forall. intros r Hr. apply (In_nth _ _ []) in Hr.
      destruct Hr as [k [Hk <-]]. apply negb_true_iff.
      match goal with |- ?b = false => destruct b eqn:H; [exfalso|reflexivity] end.
      apply Reqb_true in H.
      destruct (P1 k ltac:(mlia)) as [_ [P0 _]].
      revert H. apply nrm_nz_first. destruct HV as [HV _].
      intros H. apply (HN k); [mlia|]. unfold ent. etransitivity; [|exact H].
      symmetry; exact P0. }
  destruct (place _ _ _ _) as [x|] eqn:E3; [discriminate|].
  unfold place in E3. destruct (Nat.eqb_spec
    (length (reshape_T S (K * B) V2)) (length (block_indices B (nsort chosen))))
    as [|NE]; [discriminate|].
  apply NE. rewrite block_indices_len.
  destruct (chosen_sorted _ _ _ HC) as [_ [-> _]].
  apply reshape_shape.
Qed.

Lemma blocks_ok2 D K B S cor normalize chosen values q blocks indices :
  selection_of (D / B) K chosen -> shape (K * S) B values ->
  sparse_normal_blocks D K B S cor normalize chosen values
    = Some (q, blocks, indices) ->
  increasing blocks /\ length blocks = K /\
  (forall b, In b blocks <-> In b chosen) /\
  sq_shape D S q /\ increasing indices /\ length indices = (K * B)%nat /\
  (forall i, In i indices <-> In (i / B)%nat blocks) /\
  (forall i s, (i < D)%nat -> (s < S)%nat -> ~ In (i / B)%nat blocks ->
     sq_entry D q i s = 0) /\
  exists W, block_rows cor normalize values W /\
    forall j i s, (j < K)%nat -> (i < B)%nat -> (s < S)%nat ->
      sq_entry D q (B * nth j blocks 0 + i)%nat s = ent W (s * K + j) i.
Proof.
  intros HC HV HR.
  destruct (blocks_ok _ _ _ _ _ _ _ _ _ _ _ HC HV HR)
    as [H1 [H2 [H3 [H4 [W [H5 [H6 [H7 [H8 [H9 [H10 H11]]]]]]]]]]].
  split; [auto|split; [auto|split; [auto|split; [auto|split; [auto|split; [auto|split; [auto|]]]]]]].
  split.
  { intros i s Hi Hs Hn. apply H10; auto. rewrite H4. auto. }
  exists W. split; auto. intros j i s Hj Hi Hs.
  assert (EI : indices = block_indices B blocks).
  { clear - HR. unfold sparse_normal_blocks in HR.
    destruct (Nat.eqb B 0); [discriminate|].
    destruct (negb _); [discriminate|].
    destruct (Nat.ltb _ _); [discriminate|].
    destruct (if Reqb cor 0 then _ else _); [|discriminate].
    destruct (if normalize then _ else _); [|discriminate].
    destruct (place _ _ _ _); [|discriminate].
    injection HR as _ <- <-. auto. }
  rewrite <- (block_indices_nth B blocks j i) by lia. rewrite <- EI.
  rewrite H11 by (auto; nia).
  replace ((j * B + i) / B)%nat with j
    by (apply Nat.div_unique with (r := i); lia).
  replace ((j * B + i) mod B)%nat with i
    by (apply Nat.mod_unique with (q := j); lia). auto.
Qed.
