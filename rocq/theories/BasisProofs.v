From Coq Require Import List Arith Bool Lia Reals Lra Psatz.
From Verif Require Import Scalar Vec RVec LopSpec LopModel LopOpSpec LopLemmas LopProofs FourierModel FourierProofs FourierProofs2 BasisModel.
Import ListNotations.
Set Implicit Arguments.
Local Open Scope R_scope.

Definition wf (r c : nat) (M : rmat) := length M = r /\ forall row, In row M -> length row = c.

Lemma wf_row r c M i : wf r c M -> (i < r)%nat -> length (nth i M []) = c.
Proof. intros [H1 H2] Hi. apply H2. apply nth_In. lia. Qed.

Lemma hstack_wf r a b A B : wf r a A -> wf r b B -> wf r (a + b) (hstack A B).
Proof.
  intros [HA HA'] [HB HB']. unfold hstack. split; [rewrite zipw_length; lia|]. intros row Hr.
  apply (In_nth _ _ (@nil R)) in Hr. destruct Hr as [i [Hi E]]. rewrite zipw_length in Hi.
  rewrite nth_zipw with (da := @nil R) (db := @nil R) in E by lia. subst row.
  rewrite app_length, HA', HB'; [auto|apply nth_In; lia|apply nth_In; lia].
Qed.
Lemma vstack_wf a b c A B : wf a c A -> wf b c B -> wf (a + b) c (vstack A B).
Proof.
  intros [HA HA'] [HB HB']. unfold vstack. split; [rewrite app_length; lia|]. intros row Hr.
  apply in_app_or in Hr. destruct Hr; auto.
Qed.
Lemma mmap_wf r c f A : wf r c A -> wf r c (map (map f) A).
Proof.
  intros [HA HA']. split; [rewrite map_length; auto|]. intros row Hr. apply in_map_iff in Hr.
  destruct Hr as [x [<- Hx]]. rewrite map_length. auto.
Qed.
Lemma tab_wf r c f : wf r c (tab r (fun i => tab c (f i))).
Proof.
  split; [apply tab_length|]. intros row Hr. apply (In_nth _ _ (@nil R)) in Hr. destruct Hr as [i [Hi E]].
  rewrite tab_length in Hi. rewrite nth_tab in E by auto. subst row. apply tab_length.
Qed.
Lemma get_tab r c f i j : (i < r)%nat -> (j < c)%nat -> get (tab r (fun i => tab c (f i))) i j = f i j.
Proof. intros. unfold get. now rewrite !nth_tab by auto. Qed.
Lemma get_hstack r a b A B i j : wf r a A -> wf r b B -> (i < r)%nat ->
  get (hstack A B) i j = if (j <? a)%nat then get A i j else get B i (j - a).
Proof.
  intros HA HB Hi. unfold get, hstack. rewrite nth_zipw with (da := @nil R) (db := @nil R).
  - rewrite nth_app, (@wf_row r a A i) by auto. reflexivity.
  - destruct HA; lia.
  - destruct HB; lia.
Qed.
Lemma get_vstack a c A B i j : wf a c A ->
  get (vstack A B) i j = if (i <? a)%nat then get A i j else get B (i - a) j.
Proof. intros [HA _]. unfold get, vstack. rewrite nth_app, HA. now destruct (i <? a)%nat. Qed.
Lemma get_map f A i j : f 0 = 0 -> get (map (map f) A) i j = f (get A i j).
Proof.
  intros H. unfold get. change (@nil R) with (map f []) at 1. rewrite map_nth. rewrite <- H at 1. apply map_nth.
Qed.
Lemma get_mneg A i j : get (mneg A) i j = - get A i j.
Proof. apply get_map. ring. Qed.
Lemma get_mscale c A i j : get (mscale c A) i j = c * get A i j.
Proof. apply get_map. ring. Qed.

Lemma sylvester_wf k : wf (2 ^ k) (2 ^ k) (sylvester k).
Proof.
  induction k as [|k IH]; [split; [reflexivity|intros row [<-|[]]; reflexivity]|].
  cbn [sylvester]. replace (2 ^ S k)%nat with (2 ^ k + 2 ^ k)%nat by (simpl; lia).
  apply vstack_wf; apply hstack_wf; auto. now apply mmap_wf.
Qed.

Definition fold_idx (N i : nat) : nat := if (i <? N)%nat then i else (i - N)%nat.
Lemma fold_idx_lt N i : (i < 2 * N)%nat -> (fold_idx N i < N)%nat.
Proof. intros. unfold fold_idx. destruct (Nat.ltb_spec i N); lia. Qed.

Lemma sylvester_S k i j : (i < 2 ^ S k)%nat ->
  get (sylvester (S k)) i j =
  (if (2 ^ k <=? i)%nat && (2 ^ k <=? j)%nat then -1 else 1) * get (sylvester k) (fold_idx (2 ^ k) i) (fold_idx (2 ^ k) j).
Proof.
  intros Hi. pose proof (sylvester_wf k) as W. pose proof (mmap_wf Ropp W) as W'.
  assert (Hp : (2 ^ S k = 2 ^ k + 2 ^ k)%nat) by (simpl; lia). rewrite Hp in *. cbn [sylvester].
  rewrite (get_vstack _ _ _ (hstack_wf W W)). unfold fold_idx.
  destruct (Nat.ltb_spec i (2 ^ k)).
  - rewrite (get_hstack _ W W) by auto. destruct (Nat.leb_spec (2 ^ k) i); [lia|]. cbn [andb].
    destruct (Nat.ltb_spec j (2 ^ k)); ring.
  - rewrite (get_hstack _ W W') by lia. fold (mneg (sylvester k)). rewrite get_mneg.
    destruct (Nat.leb_spec (2 ^ k) i); [|lia]. cbn [andb].
    destruct (Nat.ltb_spec j (2 ^ k)); destruct (Nat.leb_spec (2 ^ k) j); try lia; ring.
Qed.

Lemma sylvester_pm1 k : forall i j, (i < 2 ^ k)%nat -> (j < 2 ^ k)%nat ->
  get (sylvester k) i j = 1 \/ get (sylvester k) i j = -1.
Proof.
  induction k as [|k IH]; intros i j Hi Hj.
  - simpl in Hi, Hj. assert (i = 0%nat) by lia. assert (j = 0%nat) by lia. subst. left. reflexivity.
  - rewrite sylvester_S by auto.
    assert (Hp : (2 ^ S k = 2 * 2 ^ k)%nat) by (simpl; lia). rewrite Hp in *.
    destruct (IH _ _ (@fold_idx_lt _ _ Hi) (@fold_idx_lt _ _ Hj)) as [-> | ->];
      destruct ((2 ^ k <=? i)%nat && (2 ^ k <=? j)%nat); [right|left|left|right]; ring.
Qed.
Lemma sylvester_sym k : forall i j, (i < 2 ^ k)%nat -> (j < 2 ^ k)%nat ->
  get (sylvester k) i j = get (sylvester k) j i.
Proof.
  induction k as [|k IH]; intros i j Hi Hj.
  - simpl in Hi, Hj. assert (i = 0%nat) by lia. assert (j = 0%nat) by lia. now subst.
  - rewrite !sylvester_S by auto. assert (Hp : (2 ^ S k = 2 * 2 ^ k)%nat) by (simpl; lia). rewrite Hp in *.
    rewrite (andb_comm (2 ^ k <=? j)%nat). now rewrite IH by (apply fold_idx_lt; auto).
Qed.
Lemma sylvester_orth k : forall i i', (i < 2 ^ k)%nat -> (i' < 2 ^ k)%nat ->
  rsum (2 ^ k) (fun j => get (sylvester k) i j * get (sylvester k) i' j) = if (i =? i')%nat then INR (2 ^ k) else 0.
Proof.
  induction k as [|k IH]; intros i i' Hi Hi'.
  - simpl in Hi, Hi'. assert (i = 0%nat) by lia. assert (i' = 0%nat) by lia. subst. simpl. unfold get. simpl. ring.
  - assert (Hp : (2 ^ S k = 2 ^ k + 2 ^ k)%nat) by (simpl; lia). rewrite Hp at 1. rewrite rsum_split.
    set (N := (2 ^ k)%nat) in *.
    assert (Ha : (fold_idx N i < N)%nat) by (apply fold_idx_lt; lia).
    assert (Ha' : (fold_idx N i' < N)%nat) by (apply fold_idx_lt; lia).
    rewrite (rsum_ext (fun j => get (sylvester (S k)) i j * get (sylvester (S k)) i' j)
      (fun j => get (sylvester k) (fold_idx N i) j * get (sylvester k) (fold_idx N i') j)).
    2:{ intros j Hj. rewrite !sylvester_S by auto. fold N. destruct (Nat.leb_spec N j); [lia|]. rewrite !andb_false_r.
        replace (fold_idx N j) with j. 2:{ unfold fold_idx. destruct (Nat.ltb_spec j N); lia. } ring. }
    rewrite (rsum_ext (fun j => get (sylvester (S k)) i (N + j) * get (sylvester (S k)) i' (N + j))
      (fun j => ((if (N <=? i)%nat then -1 else 1) * (if (N <=? i')%nat then -1 else 1)) * (get (sylvester k) (fold_idx N i) j * get (sylvester k) (fold_idx N i') j))).
    2:{ intros j Hj. rewrite !sylvester_S by auto. fold N. destruct (Nat.leb_spec N (N + j)); [|lia]. rewrite !andb_true_r.
        replace (fold_idx N (N + j)) with j. 2:{ unfold fold_idx. destruct (Nat.ltb_spec (N + j) N); lia. } ring. }
    rewrite rsum_mul_l. rewrite IH by auto.
    assert (HS : INR (2 ^ S k) = INR N + INR N) by (rewrite Hp; apply plus_INR).
    unfold fold_idx. destruct (Nat.leb_spec N i); destruct (Nat.leb_spec N i');
      repeat match goal with |- context [(?a <? N)%nat] => destruct (Nat.ltb_spec a N); try lia end;
      destruct (Nat.eqb_spec i i'); try lia;
      repeat match goal with |- context [(?a =? ?b)%nat] => destruct (Nat.eqb_spec a b); try lia end; rewrite ?HS; ring.
Qed.

Lemma hadamard_spec n H : hadamard n = Some H -> exists k, n = (2 ^ k)%nat /\ H = sylvester k.
Proof.
  unfold hadamard. destruct (n =? 0)%nat; [discriminate|].
  destruct (Nat.eqb_spec (2 ^ Nat.log2 n) n) as [E|]; [|discriminate]. intros [= <-].
  exists (Nat.log2 n). auto.
Qed.
Lemma hadamard_pow2 k : hadamard (2 ^ k) = Some (sylvester k).
Proof.
  unfold hadamard. pose proof (Nat.pow_nonzero 2 k). destruct (Nat.eqb_spec (2 ^ k) 0); [lia|].
  rewrite Nat.log2_pow2 by lia. now rewrite Nat.eqb_refl.
Qed.

(** orthonormality of a square matrix *)
Lemma hadamard_basis_spec n B : hadamard_basis n = Some B ->
  wf n n B /\ (0 < n)%nat /\
  (forall i i', (i < n)%nat -> (i' < n)%nat -> rsum n (fun j => get B i j * get B i' j) = if (i =? i')%nat then 1 else 0) /\
  (forall j j', (j < n)%nat -> (j' < n)%nat -> rsum n (fun i => get B i j * get B i j') = if (j =? j')%nat then 1 else 0) /\
  (forall i j, (i < n)%nat -> (j < n)%nat -> Rabs (get B i j) = / sqrt (INR n)).
Proof.
  unfold hadamard_basis. destruct (hadamard n) as [H|] eqn:E; [|discriminate]. simpl. intros [= <-].
  apply hadamard_spec in E. destruct E as [k [-> ->]].
  assert (Hn : (0 < 2 ^ k)%nat) by (pose proof (Nat.pow_nonzero 2 k); lia).
  destruct (sqrt_facts Hn) as [P1 [P2 [P3 [P4 _]]]]. set (q := sqrt (INR (2 ^ k))) in *.
  assert (R : forall i i', (i < 2 ^ k)%nat -> (i' < 2 ^ k)%nat ->
    rsum (2 ^ k) (fun j => get (mscale (/ q) (sylvester k)) i j * get (mscale (/ q) (sylvester k)) i' j) = if (i =? i')%nat then 1 else 0).
  { intros i i' Hi Hi'. rewrite (rsum_ext _ (fun j => / q * / q * (get (sylvester k) i j * get (sylvester k) i' j))).
    2:{ intros j Hj. rewrite !get_mscale. ring. }
    rewrite rsum_mul_l, sylvester_orth by auto. destruct (i =? i')%nat; [|ring]. rewrite <- P4. field. lra. }
  split; [|split; [auto|split; [auto|split]]].
  - apply mmap_wf, sylvester_wf.
  - intros j j' Hj Hj'. rewrite <- (R j j') by auto. apply rsum_ext. intros i Hi. rewrite !get_mscale.
    now rewrite (sylvester_sym k Hi Hj), (sylvester_sym k Hi Hj').
  - intros i j Hi Hj. rewrite get_mscale. assert (0 < / q) by (apply Rinv_0_lt_compat; auto).
    destruct (sylvester_pm1 k Hi Hj) as [-> | ->].
    + rewrite Rmult_1_r. apply Rabs_right; lra.
    + replace (/ q * -1) with (- / q) by ring. rewrite Rabs_Ropp. apply Rabs_right; lra.
Qed.

(** cosine basis: the dictionary matrix is the transpose of the DCT operator *)
Lemma dct_raw_norm N k : (0 < N)%nat -> (k < N)%nat ->
  sqrt (rsum N (fun l => dct_raw N l k * dct_raw N l k)) = 2 / dctw N k.
Proof.
  intros HN Hk. destruct (sqrt_facts HN) as [P1 [P2 [P3 [P4 [P5 [P6 P7]]]]]].
  assert (W : 0 < dctw N k). { unfold dctw. destruct (k =? 0)%nat; [apply Rinv_0_lt_compat; auto|rewrite P7; apply Rdiv_lt_0_compat; auto]. }
  pose proof (dct_rows Hk Hk) as E. rewrite Nat.eqb_refl in E.
  rewrite (rsum_ext _ (fun l => (2 / dctw N k) * (2 / dctw N k) * (dctk N l k * dctk N l k))).
  - rewrite rsum_mul_l, E, Rmult_1_r. apply sqrt_square. apply Rlt_le, Rdiv_lt_0_compat; lra.
  - intros l Hl. unfold dct_raw, dctk. fold (dctw N k). rewrite plus_INR, INR_2n. simpl (INR 1).
    replace (PI / (2 * INR N) * (2 * INR l + 1) * INR k) with (PI * INR k * (2 * INR l + 1) / (2 * INR N)) by (field; lra).
    field. lra.
Qed.
Lemma cosine_basis_entry N k i : (k < N)%nat -> (i < N)%nat -> get (cosine_basis_mat N) k i = dctk N i k.
Proof.
  intros Hk Hi. assert (HN : (0 < N)%nat) by lia. destruct (sqrt_facts HN) as [P1 [P2 [P3 [P4 [P5 [P6 P7]]]]]].
  unfold cosine_basis_mat. rewrite get_tab by auto. rewrite dct_raw_norm by auto.
  assert (W : 0 < dctw N k). { unfold dctw. destruct (k =? 0)%nat; [apply Rinv_0_lt_compat; auto|rewrite P7; apply Rdiv_lt_0_compat; auto]. }
  unfold dct_raw, dctk. fold (dctw N k). rewrite plus_INR, INR_2n. simpl (INR 1).
  replace (PI / (2 * INR N) * (2 * INR i + 1) * INR k) with (PI * INR k * (2 * INR i + 1) / (2 * INR N)) by (field; lra).
  field. lra.
Qed.
Lemma cosine_basis_wf N : wf N N (cosine_basis_mat N).
Proof. apply tab_wf. Qed.
Lemma cosine_basis_orth N : 
  (forall i i', (i < N)%nat -> (i' < N)%nat -> rsum N (fun j => get (cosine_basis_mat N) i j * get (cosine_basis_mat N) i' j) = if (i =? i')%nat then 1 else 0) /\
  (forall j j', (j < N)%nat -> (j' < N)%nat -> rsum N (fun i => get (cosine_basis_mat N) i j * get (cosine_basis_mat N) i j') = if (j =? j')%nat then 1 else 0).
Proof.
  split; intros a b Ha Hb.
  - rewrite <- (dct_rows Ha Hb). apply rsum_ext. intros j Hj. now rewrite !cosine_basis_entry by auto.
  - rewrite <- (dct_cols Ha Hb). apply rsum_ext. intros j Hj. now rewrite !cosine_basis_entry by auto.
Qed.

(** *** wavelets *)
Section W.
  Variable dwt1 : list R -> list R * list R.
  Variable idwt1 : list R -> list R -> list R.
  Hypothesis dwt_len : forall q x, length x = (2 * q)%nat -> length (fst (dwt1 x)) = q /\ length (snd (dwt1 x)) = q.
  Hypothesis idwt_len : forall q a d, length a = q -> length d = q -> length (idwt1 a d) = (2 * q)%nat.
  Hypothesis idwt_dwt : forall q x, length x = (2 * q)%nat -> idwt1 (fst (dwt1 x)) (snd (dwt1 x)) = x.
  Hypothesis dwt_idwt : forall q a d, length a = q -> length d = q -> dwt1 (idwt1 a d) = (a, d).
  Hypothesis dwt_adj : forall q x a d, length x = (2 * q)%nat -> length a = q -> length d = q ->
    rdot (fst (dwt1 x)) a + rdot (snd (dwt1 x)) d = rdot x (idwt1 a d).

  Fixpoint W (l : nat) (x : list R) : list R :=
    match l with O => x | S l => let (a, d) := dwt1 x in W l a ++ d end.
  Fixpoint Rc (l : nat) (c : list R) : list R :=
    match l with O => c | S l => let h := (length c / 2)%nat in idwt1 (Rc l (firstn h c)) (skipn h c) end.

  Lemma wavedec_loop_W k : forall a res, (let (a', r') := wavedec_loop dwt1 k a res in a' ++ r') = W k a ++ res.
  Proof.
    induction k as [|k IH]; intros a res; simpl; auto.
    destruct (dwt1 a) as [a' d]. rewrite IH, app_assoc. auto.
  Qed.
  Lemma wavedec_W l x : (1 <= l)%nat -> wavedec dwt1 x l = W l x.
  Proof.
    intros H. destruct l as [|l]; [lia|]. unfold wavedec. cbn [W]. destruct (dwt1 x) as [a d].
    replace (S l - 1)%nat with l by lia. apply wavedec_loop_W.
  Qed.

  Lemma pow_S_half l q : (2 ^ S l * q / 2 = 2 ^ l * q)%nat.
  Proof. replace (2 ^ S l * q)%nat with (2 ^ l * q * 2)%nat by (simpl; lia). apply Nat.div_mul. lia. Qed.

  Lemma W_len l : forall q x, length x = (2 ^ l * q)%nat -> length (W l x) = (2 ^ l * q)%nat.
  Proof.
    induction l as [|l IH]; intros q x Hx; auto. cbn [W].
    destruct (@dwt_len (2 ^ l * q) x) as [H1 H2]; [rewrite Hx; simpl; lia|].
    destruct (dwt1 x) as [a d]. simpl in *. rewrite app_length, (IH q) by auto. lia.
  Qed.
  Lemma Rc_len l : forall q c, length c = (2 ^ l * q)%nat -> length (Rc l c) = (2 ^ l * q)%nat.
  Proof.
    induction l as [|l IH]; intros q c Hc; auto. cbn [Rc]. rewrite Hc, pow_S_half.
    rewrite (@idwt_len (2 ^ l * q)).
    - simpl. lia.
    - apply IH. rewrite firstn_length, Hc. simpl. lia.
    - rewrite skipn_length, Hc. simpl. lia.
  Qed.
  Lemma Rc_W l : forall q x, length x = (2 ^ l * q)%nat -> Rc l (W l x) = x.
  Proof.
    induction l as [|l IH]; intros q x Hx; auto. pose proof (W_len (S l) _ _ Hx) as HL. cbn [W Rc] in *.
    destruct (@dwt_len (2 ^ l * q) x) as [H1 H2]; [rewrite Hx; simpl; lia|].
    pose proof (@idwt_dwt (2 ^ l * q) x ltac:(rewrite Hx; simpl; lia)) as HI.
    destruct (dwt1 x) as [a d]. simpl in H1, H2, HI. rewrite HL, pow_S_half.
    pose proof (W_len l _ _ H1) as HW.
    rewrite firstn_app, skipn_app, HW, Nat.sub_diag. rewrite firstn_all2 by lia. rewrite skipn_all2 by lia.
    simpl. rewrite app_nil_r. rewrite (IH q) by auto. auto.
  Qed.
  Lemma W_Rc l : forall q c, length c = (2 ^ l * q)%nat -> W l (Rc l c) = c.
  Proof.
    induction l as [|l IH]; intros q c Hc; auto. cbn [W Rc] in *. rewrite Hc, pow_S_half.
    assert (H1 : length (firstn (2 ^ l * q) c) = (2 ^ l * q)%nat) by (rewrite firstn_length, Hc; simpl; lia).
    rewrite (@dwt_idwt (2 ^ l * q)).
    - rewrite (IH q) by auto. apply firstn_skipn.
    - now apply Rc_len.
    - rewrite skipn_length, Hc. simpl. lia.
  Qed.
  Lemma rdot_app a b c d : length a = length c -> rdot (a ++ b) (c ++ d) = rdot a c + rdot b d.
  Proof.
    revert c. induction a as [|x a IH]; intros [|y c] H; try discriminate; simpl; [ring|].
    rewrite IH by (simpl in H; lia). ring.
  Qed.
  Lemma W_adj l : forall q x c, length x = (2 ^ l * q)%nat -> length c = (2 ^ l * q)%nat ->
    rdot (W l x) c = rdot x (Rc l c).
  Proof.
    induction l as [|l IH]; intros q x c Hx Hc; auto. cbn [W Rc]. rewrite Hc, pow_S_half.
    destruct (@dwt_len (2 ^ l * q) x) as [H1 H2]; [rewrite Hx; simpl; lia|].
    assert (H3 : length (firstn (2 ^ l * q) c) = (2 ^ l * q)%nat) by (rewrite firstn_length, Hc; simpl; lia).
    assert (H4 : length (skipn (2 ^ l * q) c) = (2 ^ l * q)%nat) by (rewrite skipn_length, Hc; simpl; lia).
    rewrite <- (@dwt_adj (2 ^ l * q)); auto; [|rewrite Hx; simpl; lia|now apply Rc_len].
    destruct (dwt1 x) as [a d]. simpl in *. rewrite <- (firstn_skipn (2 ^ l * q) c) at 1.
    rewrite rdot_app by (rewrite (W_len l q) by auto; auto). rewrite (IH q) by auto. auto.
  Qed.

  Lemma waverec_loop_Rc (c : list R) q : forall k j l, (l = j + k)%nat -> length c = (2 ^ l * q)%nat ->
    waverec_loop idwt1 c k (Rc j (firstn (2 ^ j * q) c)) (2 ^ j * q) (2 ^ j * q * 2) = Rc l c.
  Proof.
    induction k as [|k IH]; intros j l Hl Hc.
    - cbn [waverec_loop]. replace j with l by lia. rewrite firstn_all2 by lia. auto.
    - cbn [waverec_loop]. rewrite <- (IH (S j) l) by (auto; lia).
      replace (2 ^ j * q * 2)%nat with (2 ^ S j * q)%nat by (simpl; lia).
      f_equal. cbn [Rc].
      assert (Hp : (2 ^ S j <= 2 ^ l)%nat) by (apply Nat.pow_le_mono_r; lia).
      assert (HL : length (firstn (2 ^ S j * q) c) = (2 ^ S j * q)%nat) by (rewrite firstn_length, Hc; nia).
      rewrite HL, pow_S_half. rewrite firstn_firstn. replace (Nat.min (2 ^ j * q) (2 ^ S j * q)) with (2 ^ j * q)%nat by (simpl; lia).
      f_equal. rewrite skipn_firstn_comm. reflexivity.
  Qed.
  Lemma waverec_Rc l q c : length c = (2 ^ l * q)%nat -> waverec idwt1 c l = Rc l c.
  Proof.
    intros Hc. unfold waverec. rewrite Hc. rewrite Nat.mul_comm, Nat.div_mul by (apply Nat.pow_nonzero; lia).
    pose proof (@waverec_loop_Rc c q l 0 l eq_refl Hc) as E. simpl (2 ^ 0)%nat in E. rewrite Nat.mul_1_l in E. exact E.
  Qed.

  Lemma wave_inv l q x : (1 <= l)%nat -> length x = (2 ^ l * q)%nat ->
    waverec idwt1 (wavedec dwt1 x l) l = x /\ wavedec dwt1 (waverec idwt1 x l) l = x.
  Proof.
    intros Hl Hx. rewrite !wavedec_W by auto. rewrite !(@waverec_Rc l q) by (auto; now apply W_len).
    split; [now apply (Rc_W l q)|now apply (W_Rc l q)].
  Qed.

  Lemma next_pow2_ge n : (n <= next_pow2 n)%nat.
  Proof.
    unfold next_pow2. destruct (Nat.lt_ge_cases 1 n) as [H|H].
    - apply Nat.log2_up_spec in H. lia.
    - pose proof (Nat.pow_nonzero 2 (Nat.log2_up n)). lia.
  Qed.
  Lemma next_pow2_div n l : (l <= Nat.log2_up n)%nat -> exists q, next_pow2 n = (2 ^ l * q)%nat.
  Proof.
    intros H. exists (2 ^ (Nat.log2_up n - l))%nat. unfold next_pow2. rewrite <- Nat.pow_add_r. f_equal. lia.
  Qed.

  Lemma rdot_pad x n k y : length x = n -> rdot (x ++ repeat 0 k) y = rdot x (firstn n y).
  Proof.
    revert n y. induction x as [|a x IH]; intros n y H; simpl in H; subst n.
    - simpl. apply (rdot_zero_l k).
    - destruct y as [|b y]; [reflexivity|]. simpl. now rewrite IH with (n := length x).
  Qed.

  Lemma op_dwt_adjoint ml n level T : (1 <= level <= Nat.log2_up n)%nat ->
    op_dwt dwt1 idwt1 ml n level false = Some T ->
    has_adjoint T (next_pow2 n) n.
  Proof.
    intros [Hl1 Hl2] HT. unfold op_dwt in HT. destruct (level <=? ml)%nat; [|discriminate].
    apply Some_inj in HT; subst T. cbn [mkop]. destruct (next_pow2_div n Hl2) as [q Hq]. pose proof (next_pow2_ge n) as Hge.
    split; [reflexivity|split; [reflexivity|]]. cbn [times trans mkop].
    assert (HP : forall x : list R, length x = n -> length (x ++ repeat 0 (next_pow2 n - n)) = (2 ^ level * q)%nat)
      by (intros x Hx; rewrite app_length, repeat_length; lia).
    split; [|split].
    - intros x Hx. rewrite wavedec_W by auto. rewrite (W_len level q) by (apply HP; exact Hx). auto.
    - intros c Hc. assert (Hc' : length c = (2 ^ level * q)%nat) by (rewrite <- Hq; exact Hc).
      rewrite firstn_length. rewrite (@waverec_Rc level q) by exact Hc'.
      rewrite (Rc_len level q) by exact Hc'. lia.
    - intros x c Hx Hc. assert (Hc' : length c = (2 ^ level * q)%nat) by (rewrite <- Hq; exact Hc).
      rewrite !inner_rdot. rewrite wavedec_W by auto. rewrite (W_adj level q) by (auto; apply HP; exact Hx).
      rewrite (@waverec_Rc level q) by exact Hc'. apply rdot_pad. exact Hx.
  Qed.
  Lemma op_dwt_recon ml n level T (x : list R) : (1 <= level <= Nat.log2_up n)%nat ->
    op_dwt dwt1 idwt1 ml n level false = Some T -> length x = n ->
    trans T (times T x) = x.
  Proof.
    intros [Hl1 Hl2] HT Hx. unfold op_dwt in HT. destruct (level <=? ml)%nat; [|discriminate].
    apply Some_inj in HT; subst T. cbn [times trans mkop]. destruct (next_pow2_div n Hl2) as [q Hq]. pose proof (next_pow2_ge n) as Hge.
    assert (HL : length (x ++ repeat 0 (next_pow2 n - n)) = (2 ^ level * q)%nat) by (rewrite app_length, repeat_length; lia).
    rewrite (proj1 (@wave_inv level q _ Hl1 HL)).
    rewrite firstn_app, Hx, Nat.sub_diag, firstn_all2 by lia. simpl. apply app_nil_r.
  Qed.
  Lemma op_dwt_synth ml n level T (c : list R) : (1 <= level <= Nat.log2_up n)%nat -> next_pow2 n = n ->
    op_dwt dwt1 idwt1 ml n level false = Some T -> length c = n ->
    times T (trans T c) = c.
  Proof.
    intros [Hl1 Hl2] Hn HT Hc. unfold op_dwt in HT. destruct (level <=? ml)%nat; [|discriminate].
    apply Some_inj in HT; subst T. cbn [times trans mkop]. destruct (next_pow2_div n Hl2) as [q Hq].
    assert (Hc' : length c = (2 ^ level * q)%nat) by (rewrite <- Hq, Hn; exact Hc).
    rewrite Hn, Nat.sub_diag. simpl repeat. rewrite app_nil_r.
    rewrite firstn_all2; [apply (proj2 (@wave_inv level q c Hl1 Hc'))|].
    rewrite (@waverec_Rc level q) by exact Hc'. rewrite (Rc_len level q) by exact Hc'. lia.
  Qed.
  (** basis = True swaps the two directions *)
  Lemma op_dwt_basis ml n level T : op_dwt dwt1 idwt1 ml n level true = Some T ->
    exists T', op_dwt dwt1 idwt1 ml n level false = Some T' /\ times T = trans T' /\ trans T = times T' /\
      om T = on T' /\ on T = om T'.
  Proof.
    unfold op_dwt. destruct (level <=? ml)%nat; [|discriminate]. intros E. apply Some_inj in E. subst T.
    eexists. split; [reflexivity|]. repeat split.
  Qed.

  Lemma wavelet_basis_orth ml n level B : (1 <= level <= Nat.log2_up n)%nat ->
    wavelet_basis idwt1 ml n level = Some B ->
    wf n n B /\
    forall j j', (j < n)%nat -> (j' < n)%nat -> rsum n (fun i => get B i j * get B i j') = if (j =? j')%nat then 1 else 0.
  Proof.
    intros [Hl1 Hl2] HB. unfold wavelet_basis in HB.
    destruct (Nat.eqb_spec (next_pow2 n) n) as [Hn|]; [|discriminate].
    destruct (level <=? ml)%nat; [|discriminate]. apply Some_inj in HB. subst B.
    destruct (next_pow2_div n Hl2) as [q Hq]. split; [apply tab_wf|]. intros j j' Hj Hj'.
    assert (HL : forall j, @length R (@vbasis Rs n j) = (2 ^ level * q)%nat) by (intros k; pose proof (@vbasis_length Rs n k) as E; simpl in E; rewrite E; lia).
    rewrite (rsum_ext _ (fun i => nth i (Rc level (@vbasis Rs n j)) 0 * nth i (Rc level (@vbasis Rs n j')) 0)).
    2:{ intros i Hi. rewrite !get_tab by auto. now rewrite !(@waverec_Rc level q) by apply HL. }
    rewrite <- (@rdot_sum n) by (rewrite (Rc_len level q) by apply HL; lia).
    rewrite <- (W_adj level q) by (try apply HL; rewrite (Rc_len level q) by apply HL; lia).
    rewrite (W_Rc level q) by apply HL. rewrite <- inner_rdot. rewrite (@inner_basis_l Rs) by (auto; apply vbasis_length).
    rewrite (@vbasis_nth Rs) by auto. reflexivity.
  Qed.
End W.

(** Haar satisfies the hypotheses *)
Lemma haar_len q : forall x, length x = (2 * q)%nat -> length (fst (haar_dwt x)) = q /\ length (snd (haar_dwt x)) = q.
Proof.
  induction q as [|q IH]; intros [|a [|b x]] H; simpl in H; try lia; [split; reflexivity|].
  cbn [haar_dwt]. destruct (IH x) as [H1 H2]; [lia|]. destruct (haar_dwt x). simpl in *. lia.
Qed.
Lemma haar_ilen q : forall a d, length a = q -> length d = q -> length (haar_idwt a d) = (2 * q)%nat.
Proof.
  induction q as [|q IH]; intros [|a u] [|b v] H1 H2; simpl in *; try lia. rewrite IH; lia.
Qed.
Lemma sqrt2_sq : sqrt 2 * sqrt 2 = 2. Proof. apply sqrt_sqrt. lra. Qed.
Lemma sqrt2_pos : 0 < sqrt 2. Proof. apply sqrt_lt_R0. lra. Qed.
Lemma haar_aux a b : (a / sqrt 2) / sqrt 2 + b / sqrt 2 / sqrt 2 = (a + b) / 2.
Proof. rewrite <- sqrt2_sq at 5. pose proof sqrt2_pos. field. lra. Qed.
Lemma haar_aux1 a b : ((a + b) / sqrt 2 + (a - b) / sqrt 2) / sqrt 2 = a.
Proof. transitivity ((a + a) / (sqrt 2 * sqrt 2)); [pose proof sqrt2_pos; field; lra|]. rewrite sqrt2_sq. field. Qed.
Lemma haar_aux2 a b : ((a + b) / sqrt 2 - (a - b) / sqrt 2) / sqrt 2 = b.
Proof. transitivity ((b + b) / (sqrt 2 * sqrt 2)); [pose proof sqrt2_pos; field; lra|]. rewrite sqrt2_sq. field. Qed.
Lemma haar_idwt_dwt q : forall x, length x = (2 * q)%nat -> haar_idwt (fst (haar_dwt x)) (snd (haar_dwt x)) = x.
Proof.
  induction q as [|q IH]; intros [|a [|b x]] H; simpl in H; try lia; [reflexivity|].
  cbn [haar_dwt]. specialize (IH x ltac:(lia)). destruct (haar_dwt x) as [u v]. cbn [fst snd haar_idwt] in *.
  now rewrite haar_aux1, haar_aux2, IH.
Qed.
Lemma haar_dwt_idwt q : forall a d, length a = q -> length d = q -> haar_dwt (haar_idwt a d) = (a, d).
Proof.
  induction q as [|q IH]; intros [|a u] [|b v] H1 H2; simpl in H1, H2; try lia; [reflexivity|].
  cbn [haar_idwt haar_dwt]. rewrite IH by lia. now rewrite haar_aux1, haar_aux2.
Qed.
Lemma haar_adj q : forall x a d, length x = (2 * q)%nat -> length a = q -> length d = q ->
  rdot (fst (haar_dwt x)) a + rdot (snd (haar_dwt x)) d = rdot x (haar_idwt a d).
Proof.
  induction q as [|q IH]; intros [|x0 [|x1 x]] [|a u] [|b v] H1 H2 H3; simpl in H1, H2, H3; try lia; [simpl; ring|].
  cbn [haar_dwt haar_idwt]. specialize (IH x u v ltac:(lia) ltac:(lia) ltac:(lia)).
  destruct (haar_dwt x) as [p r]. cbn [fst snd rdot] in *. rewrite <- IH. pose proof sqrt2_pos. field. lra.
Qed.

(** level = 0 is accepted, but then analysis applies one level and synthesis none *)
Lemma dwt_level0_bad : exists T x, op_dwt haar_dwt haar_idwt 1 2 0 false = Some T /\ length x = 2%nat /\ trans T (times T x) <> x.
Proof.
  eexists. exists [1; 0]. split; [reflexivity|]. split; [reflexivity|].
  cbn [times trans mkop]. unfold wavedec, waverec. simpl. intros E.
  pose proof (f_equal (fun l => nth 1 l 0) E) as E1. simpl in E1.
  assert (0 < (1 - 0) / sqrt 2) by (apply Rdiv_lt_0_compat; [lra|apply sqrt2_pos]). lra.
Qed.
