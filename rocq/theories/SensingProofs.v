From Coq Require Import List Arith Bool Lia Reals Lra Psatz Permutation.
From Verif Require LopLemmas LopProofs5.
From Verif Require Import Scalar Vec RVec Loop BsblModel SubspSpec SubspModel SubspProofs SortedL1Model LopModel LopSpec SensingModel SensingSpec.
Import ListNotations.
Local Open Scope R_scope.

(** *** square matrices with orthonormal columns have orthonormal rows *)
Lemma ip_pos N a : 0 <= ip N a a.
Proof. apply rsum_pos. intros. apply Rle_0_sqr. Qed.
Lemma delta_sum n k f : (k < n)%nat -> rsum n (fun i => (if Nat.eqb i k then 1 else 0) * f i) = f k.
Proof.
  intros H. etransitivity; [apply (@rsum_single n k); [auto|intros i _ Hn; cbv beta; destruct (Nat.eqb_spec i k); [lia|ring]]|].
  cbv beta. rewrite Nat.eqb_refl. ring.
Qed.
(** the projection of e_i on the columns of U, and its distance from e_i *)
Lemma proj_unit N D U i : orthonormal N D U -> (i < N)%nat ->
  ip N (fun r => (if Nat.eqb r i then 1 else 0) - rsum D (fun k => U i k * U r k))
       (fun r => (if Nat.eqb r i then 1 else 0) - rsum D (fun k => U i k * U r k)) = 1 - rsum D (fun k => U i k * U i k).
Proof.
  intros HU Hi. unfold ip.
  set (p := fun r => rsum D (fun k => U i k * U r k)).
  set (e := fun r => if Nat.eqb r i then 1 else 0).
  rewrite (@rsum_ext _ _ (fun r => (e r * e r - 2 * (e r * p r)) + p r * p r)) by (intros; unfold e, p; ring).
  rewrite rsum_add, rsum_sub, rsum_mul_l.
  unfold e at 1. rewrite delta_sum by auto. unfold e. rewrite delta_sum by auto. rewrite Nat.eqb_refl.
  assert (E : rsum N (fun r => p r * p r) = p i).
  { unfold p. transitivity (ip N (combine_cols D U (fun k => U i k)) (combine_cols D U (fun k => U i k))).
    - unfold ip, combine_cols. apply rsum_ext. intros r _. f_equal; apply rsum_ext; intros; ring.
    - rewrite ip_comb. apply rsum_ext. intros k Hk. 
      etransitivity; [apply (@rsum_single D k); [auto|]|].
      + intros l Hl Hn. cbv beta. rewrite HU by auto. destruct (Nat.eqb_spec k l); [lia|ring].
      + cbv beta. rewrite HU, Nat.eqb_refl by auto. ring. }
  rewrite E. unfold p. ring.
Qed.
Lemma square_rows N U : orthonormal N N U -> orthonormal_rows N N U.
Proof.
  intros HU.
  assert (B : forall i, (i < N)%nat -> rsum N (fun k => U i k * U i k) <= 1).
  { intros i Hi. pose proof (proj_unit N N U i HU Hi) as E. pose proof (ip_pos N (fun r => (if Nat.eqb r i then 1 else 0) - rsum N (fun k => U i k * U r k))). lra. }
  assert (T : rsum N (fun i => 1 - rsum N (fun k => U i k * U i k)) = 0).
  { rewrite rsum_sub, rsum_exchange, rsum_const.
    rewrite (@rsum_ext _ _ (fun k => 1)). 2:{ intros k Hk. pose proof (HU k k Hk Hk) as Q. rewrite Nat.eqb_refl in Q. exact Q. }
    rewrite rsum_const. ring. }
  assert (Z : forall i, (i < N)%nat -> 1 - rsum N (fun k => U i k * U i k) = 0).
  { apply rsum_eq0; auto. intros i Hi. specialize (B i Hi). lra. }
  intros i k Hi Hk. pose proof (proj_unit N N U i HU Hi) as E. rewrite (Z i Hi) in E.
  assert (P : forall r, (r < N)%nat -> ((if Nat.eqb r i then 1 else 0) - rsum N (fun k => U i k * U r k)) * ((if Nat.eqb r i then 1 else 0) - rsum N (fun k => U i k * U r k)) = 0).
  { apply rsum_eq0; [intros; apply Rle_0_sqr|exact E]. }
  specialize (P k Hk). unfold ip. rewrite (Nat.eqb_sym i k). 
  set (v := if Nat.eqb k i then 1 else 0) in *. nra.
Qed.

(** *** signs *)
Lemma sign_cases a : (0 < a /\ sign a = 1) \/ (a < 0 /\ sign a = -1) \/ (a = 0 /\ sign a = 0).
Proof. unfold sign. destruct (Rltb_spec 0 a); [auto|]. destruct (Rltb_spec a 0); [auto|]. right. right. split; [lra|auto]. Qed.
Lemma sign_sqr a : a <> 0 -> sign a * sign a = 1.
Proof. intros H. destruct (sign_cases a) as [[_ ->]|[[_ ->]|[? _]]]; [lra|lra|contradiction]. Qed.
Lemma sign_mul a : a <> 0 -> 0 < sign a * a.
Proof. intros H. destruct (sign_cases a) as [[? ->]|[[? ->]|[? _]]]; [lra|lra|contradiction]. Qed.

(** *** the QR factors with positive diagonal *)
Lemma flip_qr N D A Q T : qr_pair N D A Q T -> (forall j, (j < D)%nat -> T j j <> 0) ->
  qr_pair N D A (fun i j => Q i j * sign (T j j)) (fun k j => sign (T k k) * T k j).
Proof.
  intros [HQ [HT HA]] Hd. split; [|split].
  - intros j k Hj Hk. unfold ip, column. rewrite (@rsum_ext _ _ (fun i => (sign (T j j) * sign (T k k)) * (Q i j * Q i k))) by (intros; ring).
    rewrite rsum_mul_l. pose proof (HQ j k Hj Hk) as E. unfold ip, column in E. rewrite E.
    destruct (Nat.eqb_spec j k) as [->|]; [|ring]. rewrite sign_sqr by (apply Hd; auto). ring.
  - intros k j Hk Hj Hjk. rewrite (HT k j) by auto. ring.
  - intros i j Hi Hj. rewrite HA by auto. apply rsum_ext. intros k Hk.
    replace (Q i k * sign (T k k) * (sign (T k k) * T k j)) with ((sign (T k k) * sign (T k k)) * (Q i k * T k j)) by ring.
    rewrite sign_sqr by (apply Hd; auto). ring.
Qed.
(** entries of R from those of Q *)
Lemma qr_entry N D A Q T k j : qr_pair N D A Q T -> (k < D)%nat -> (j < D)%nat -> T k j = ip N (column Q k) (column A j).
Proof.
  intros [HQ [_ HA]] Hk Hj. unfold ip, column.
  rewrite (@rsum_ext _ _ (fun i => rsum D (fun l => (Q i k * Q i l) * T l j))).
  2:{ intros i Hi. rewrite HA by auto. rewrite <- rsum_mul_l. apply rsum_ext. intros; ring. }
  rewrite rsum_exchange. rewrite (@rsum_ext _ _ (fun l => (if Nat.eqb l k then 1 else 0) * T l j)).
  - now rewrite delta_sum.
  - intros l Hl. rewrite rsum_mul_r. f_equal. pose proof (HQ k l Hk Hl) as E. unfold ip, column in E. rewrite E. now rewrite Nat.eqb_sym.
Qed.
Lemma rsum_prefix n k f : (k <= n)%nat -> (forall i, (k <= i < n)%nat -> f i = 0) -> rsum n f = rsum k f.
Proof. intros H Z. replace n with (k + (n - k))%nat by lia. rewrite rsum_split, (@rsum_0' (n - k)%nat); [ring|]. intros i Hi. apply Z. lia. Qed.
Lemma qr_col N D A Q T i j : qr_pair N D A Q T -> (i < N)%nat -> (j < D)%nat ->
  Q i j * T j j = A i j - rsum j (fun k => Q i k * T k j).
Proof.
  intros [_ [HT HA]] Hi Hj. rewrite HA by auto.
  rewrite (rsum_prefix D (S j)); [|lia|].
  - change (rsum (S j) (fun k => Q i k * T k j)) with (rsum j (fun k => Q i k * T k j) + Q i j * T j j). ring.
  - intros k Hk. rewrite HT by lia. ring.
Qed.
Lemma qr_unique N D A Q T Q' T' : qr_pair N D A Q T -> qr_pair N D A Q' T' ->
  (forall j, (j < D)%nat -> 0 < T j j) -> (forall j, (j < D)%nat -> 0 < T' j j) ->
  forall j i, (j < D)%nat -> (i < N)%nat -> Q i j = Q' i j.
Proof.
  intros H H' P P' j. induction j as [j IH] using lt_wf_ind. intros i Hj Hi.
  assert (ET : forall k, (k < j)%nat -> T k j = T' k j).
  { intros k Hk. rewrite (qr_entry N D A Q T k j H), (qr_entry N D A Q' T' k j H') by lia. apply rsum_ext. intros r Hr. unfold column. rewrite (IH k Hk r) by lia. reflexivity. }
  assert (E : forall r, (r < N)%nat -> Q r j * T j j = Q' r j * T' j j).
  { intros r Hr. rewrite (qr_col N D A Q T r j H), (qr_col N D A Q' T' r j H') by auto. f_equal. apply rsum_ext. intros k Hk. rewrite ET by auto. rewrite (IH k Hk r) by lia. reflexivity. }
  assert (N1 : ip N (column Q j) (column Q j) = 1) by (destruct H as [HQ _]; rewrite HQ, Nat.eqb_refl by auto; reflexivity).
  assert (N2 : ip N (column Q' j) (column Q' j) = 1) by (destruct H' as [HQ _]; rewrite HQ, Nat.eqb_refl by auto; reflexivity).
  assert (S : T j j * T j j = T' j j * T' j j).
  { transitivity (T j j * T j j * ip N (column Q j) (column Q j)); [rewrite N1; ring|].
    transitivity (T' j j * T' j j * ip N (column Q' j) (column Q' j)); [|rewrite N2; ring].
    unfold ip, column. rewrite <- !rsum_mul_l. apply rsum_ext. intros r Hr. specialize (E r Hr).
    replace (T j j * T j j * (Q r j * Q r j)) with ((Q r j * T j j) * (Q r j * T j j)) by ring. rewrite E. ring. }
  specialize (P j Hj). specialize (P' j Hj). assert (S' : T j j = T' j j) by nra.
  specialize (E i Hi). rewrite <- S' in E. apply Rmult_eq_reg_r in E; lra.
Qed.
(** a nonzero diagonal belongs to independent columns *)
Lemma tri_solve T : forall j, (forall k l, (k < j)%nat -> (l < k)%nat -> T k l = 0) -> (forall k, (k < j)%nat -> T k k <> 0) ->
  forall b : nat -> R, exists u : nat -> R, forall k, (k < j)%nat -> rsum j (fun l => T k l * u l) = b k.
Proof.
  induction j as [|j IH]; intros Hu Hd b; [exists (fun _ => 0); intros; lia|].
  set (c := b j / T j j).
  destruct (IH ltac:(intros; apply Hu; lia) ltac:(intros; apply Hd; lia) (fun k => b k - T k j * c)) as [u Eu].
  exists (fun l => if Nat.eqb l j then c else u l). intros k Hk.
  change (rsum j (fun l => T k l * (if Nat.eqb l j then c else u l)) + T k j * (if Nat.eqb j j then c else u j) = b k).
  rewrite Nat.eqb_refl. rewrite (@rsum_ext j _ (fun l => T k l * u l)) by (intros l Hl; destruct (Nat.eqb_spec l j); [lia|auto]).
  destruct (Nat.eq_dec k j) as [->|Nk].
  - rewrite rsum_0' by (intros l Hl; rewrite Hu by lia; ring). unfold c. field. apply Hd. lia.
  - rewrite Eu by lia. ring.
Qed.
Lemma qr_independent N D A Q T : qr_pair N D A Q T -> independent_columns N D A -> forall j, (j < D)%nat -> T j j <> 0.
Proof.
  intros [HQ [HT HA]] Hi j. induction j as [j IH] using lt_wf_ind. intros Hj Z.
  destruct (tri_solve T j) with (b := fun k => - T k j) as [u Eu]; [intros; apply HT; lia|intros; apply IH; lia|].
  set (v := fun l => if Nat.eqb l j then 1 else if Nat.ltb l j then u l else 0).
  assert (Ev : forall k, (k < D)%nat -> rsum D (fun l => T k l * v l) = 0).
  { intros k Hk. rewrite (rsum_prefix D (S j)); [|lia|intros l Hl; unfold v; destruct (Nat.eqb_spec l j); [lia|]; destruct (Nat.ltb_spec l j); [lia|ring]].
    change (rsum j (fun l => T k l * v l) + T k j * v j = 0). unfold v at 2. rewrite Nat.eqb_refl.
    rewrite (@rsum_ext j _ (fun l => T k l * u l)).
    2:{ intros l Hl. unfold v. destruct (Nat.eqb_spec l j); [lia|]. destruct (Nat.ltb_spec l j); [auto|lia]. }
    destruct (Nat.lt_trichotomy k j) as [L|[->|L]].
    - rewrite Eu by auto. ring.
    - rewrite Z, rsum_0' by (intros l Hl; rewrite HT by lia; ring). ring.
    - rewrite (HT k j), rsum_0' by (try lia; intros l Hl; rewrite HT by lia; ring). ring. }
  assert (V : v j = 0).
  { apply Hi; auto. intros i Hi'. unfold combine_cols.
    rewrite (@rsum_ext D _ (fun l => rsum D (fun k => Q i k * (T k l * v l)))).
    2:{ intros l Hl. rewrite HA by auto. rewrite <- rsum_mul_r. apply rsum_ext. intros; ring. }
    rewrite rsum_exchange, rsum_0'; auto. intros k Hk. rewrite rsum_mul_l, Ev by auto. ring. }
  unfold v in V. rewrite Nat.eqb_refl in V. lra.
Qed.
(** and orthonormal columns are independent *)
Lemma on_independent N D U : orthonormal N D U -> independent_columns N D U.
Proof.
  intros HU u Hu j Hj. transitivity (ip N (column U j) (combine_cols D U u)).
  - unfold ip, column, combine_cols. rewrite (@rsum_ext N _ (fun i => rsum D (fun k => (U i j * U i k) * u k))).
    2:{ intros i Hi. rewrite <- rsum_mul_l. apply rsum_ext. intros; ring. }
    rewrite rsum_exchange. rewrite (@rsum_ext D _ (fun k => (if Nat.eqb k j then 1 else 0) * u k)); [now rewrite delta_sum|].
    intros k Hk. rewrite rsum_mul_r. f_equal. pose proof (HU j k Hj Hk) as E. unfold ip, column in E. rewrite E. now rewrite Nat.eqb_sym.
  - unfold ip. apply rsum_0'. intros i Hi. rewrite Hu by auto. ring.
Qed.

(** *** the matrices *)
Lemma gaussian_some draw N D A : gaussian_mtx draw N D true = Some A ->
  sz_rows A = N /\ sz_cols A = D /\ unit_columns N D (sz_ent A) /\
  forall j, (j < D)%nat -> exists c, 0 < c /\ forall i, draw i j = c * sz_ent A i j.
Proof.
  unfold gaussian_mtx. destruct (forallb _ _) eqn:F; [|discriminate]. intros E. injection E as <-. cbn [sz_rows sz_cols sz_ent].
  rewrite forallb_forall in F.
  assert (P : forall j, (j < D)%nat -> 0 < rsum N (fun i => draw i j * draw i j)).
  { intros j Hj. specialize (F j ltac:(apply in_seq; lia)). apply negb_true_iff in F.
    destruct (Reqb_spec (rsum N (fun i => draw i j * draw i j)) 0) as [|Nz]; [discriminate|].
    pose proof (@rsum_pos N (fun i => draw i j * draw i j) (fun i _ => Rle_0_sqr _)). lra. }
  split; [auto|]. split; [auto|]. split.
  - intros j Hj. specialize (P j Hj). unfold ip, column, normalize_cols.
    pose proof (sqrt_lt_R0 _ P) as Q. pose proof (sqrt_sqrt _ (Rlt_le _ _ P)) as Q2.
    set (q := sqrt _) in *. rewrite (@rsum_ext N _ (fun i => / (q * q) * (draw i j * draw i j))) by (intros; field; lra).
    rewrite rsum_mul_l, Q2. apply Rinv_l. lra.
  - intros j Hj. specialize (P j Hj). exists (sqrt (rsum N (fun i => draw i j * draw i j))). pose proof (sqrt_lt_R0 _ P).
    split; [auto|]. intros i. unfold normalize_cols. field. lra.
Qed.
Lemma gaussian_none draw N D : gaussian_mtx draw N D true = None <-> exists j, (j < D)%nat /\ forall i, (i < N)%nat -> draw i j = 0.
Proof.
  unfold gaussian_mtx. destruct (forallb _ _) eqn:F.
  - split; [discriminate|]. intros [j [Hj Z]]. rewrite forallb_forall in F. specialize (F j ltac:(apply in_seq; lia)).
    apply negb_true_iff in F. destruct (Reqb_spec (rsum N (fun i => draw i j * draw i j)) 0) as [|Nz]; [discriminate|].
    exfalso. apply Nz. apply rsum_0'. intros i Hi. rewrite Z by auto. ring.
  - split; [|auto]. intros _. 
    assert (G : exists j, In j (seq 0 D) /\ negb (Reqb (rsum N (fun i => draw i j * draw i j)) 0) = false).
    { clear -F. induction (seq 0 D) as [|a l IH]; [discriminate|]. cbn in F. apply andb_false_iff in F as [F|F].
      - exists a. split; [now left|auto].
      - destruct (IH F) as [j [Hj E]]. exists j. split; [now right|auto]. }
    destruct G as [j [Hj E]]. apply in_seq in Hj. exists j. split; [lia|]. intros i Hi.
    apply negb_false_iff in E. destruct (Reqb_spec (rsum N (fun i => draw i j * draw i j)) 0) as [Z|]; [|discriminate].
    assert (Q : draw i j * draw i j = 0) by (revert i Hi; apply rsum_eq0; [intros; apply Rle_0_sqr|auto]). nra.
Qed.
Lemma rademacher_val draw M N : (1 <= M)%nat -> 
  let A := rademacher_mtx draw M N true in
  (forall i j, sz_ent A i j = (if draw i j then 1 else -1) / sqrt (INR M)) /\ unit_columns M N (sz_ent A).
Proof.
  intros HM. cbv zeta. assert (P : 0 < INR M) by (apply lt_0_INR; lia). pose proof (sqrt_lt_R0 _ P) as Q. pose proof (sqrt_sqrt _ (Rlt_le _ _ P)) as Q2.
  assert (E : forall i j, sz_ent (rademacher_mtx draw M N true) i j = (if draw i j then 1 else -1) / sqrt (INR M)).
  { intros i j. cbn. destruct (draw i j); f_equal; ring. }
  split; [exact E|]. intros j Hj. unfold ip, column. rewrite (@rsum_ext M _ (fun _ => / INR M)).
  - rewrite rsum_const. apply Rinv_r. lra.
  - intros i Hi. rewrite E. replace (/ INR M) with (/ (sqrt (INR M) * sqrt (INR M))) by now rewrite Q2.
    set (q := sqrt (INR M)) in *. destruct (draw i j); field; lra.
Qed.
(** d distinct positions below M *)
Lemma indicator_sum l : NoDup l -> forall M, (forall i, In i l -> (i < M)%nat) ->
  rsum M (fun i => if existsb (Nat.eqb i) l then 1 else 0) = INR (length l).
Proof.
  induction l as [|a l IH]; intros ND M B; [apply rsum_0|]. inversion ND as [|? ? Na ND']; subst.
  rewrite (@rsum_ext M _ (fun i => (if Nat.eqb i a then 1 else 0) * 1 + (if existsb (Nat.eqb i) l then 1 else 0))).
  - rewrite rsum_add, delta_sum by (apply B; now left). rewrite IH by (auto; intros; apply B; now right).
    cbn [length]. rewrite S_INR. ring.
  - intros i Hi. cbn [existsb]. destruct (Nat.eqb_spec i a) as [->|]; cbn [orb]; [|ring].
    destruct (existsb (Nat.eqb a) l) eqn:X; [|ring]. exfalso. apply existsb_exists in X as [b [Hb Eb]]. apply Nat.eqb_eq in Eb. now subst.
Qed.
Lemma existsb_in i l : existsb (Nat.eqb i) l = true <-> In i l.
Proof.
  rewrite existsb_exists. split; [intros [b [Hb E]]; apply Nat.eqb_eq in E; now subst|]. intros H. exists i. split; [auto|apply Nat.eqb_refl].
Qed.
(** binary_dict_alg *)
Lemma fold_acc m (f : nat -> list R) (c : nat -> R) : (forall i, length (f i) = m) -> forall n, 
  let y := fold_left (fun y i => radd y (rscale (c i) (f i))) (seq 0 n) (rzero m) in
  length y = m /\ forall k, nth k y 0 = rsum n (fun i => c i * nth k (f i) 0).
Proof.
  intros Lf. induction n as [|n [IH1 IH2]]; [cbn; split; [apply rzero_len|intros k; apply rzero_nth]|].
  cbv zeta. rewrite seq_S, fold_left_app. cbn [fold_left plus]. set (y := fold_left _ (seq 0 n) _) in *. pose proof (Lf n). split; [vl|].
  intros k. rewrite radd_nth by vl. rewrite rscale_nth, IH2. reflexivity.
Qed.
Lemma fold_set m (c : nat -> R) n : (n <= m)%nat ->
  let x := fold_left (fun x i => @set_at Rs i (c i) x) (seq 0 n) (rzero m) in
  length x = m /\ forall k, nth k x 0 = if (k <? n)%nat then c k else 0.
Proof.
  induction n as [|n IH]; intros Hn; [cbn; split; [apply rzero_len|intros k; apply rzero_nth]|].
  cbv zeta. rewrite seq_S, fold_left_app. cbn [fold_left plus]. destruct (IH ltac:(lia)) as [L E]. set (x := fold_left _ (seq 0 n) _) in *.
  split; [rewrite (@LopLemmas.set_at_length Rs); auto|]. intros k.
  change (nth k (@set_at Rs n (c n) x) (@s0 Rs) = if (k <? S n)%nat then c k else 0).
  rewrite (@LopLemmas.set_at_nth Rs n (c n) x k). change (nth k x (@s0 Rs)) with (nth k x 0). rewrite E.
  rewrite (proj2 (Nat.ltb_lt n (length x))) by lia. rewrite andb_true_r.
  destruct (Nat.eqb_spec k n) as [->|Ne].
  - destruct (Nat.ltb_spec n (S n)); [reflexivity|lia].
  - destruct (Nat.ltb_spec k n), (Nat.ltb_spec k (S n)); auto; lia.
Qed.
Lemma binary_alg bern m n : let T := binary_dict_alg bern m n in let n := match n with None => m | Some n => n end in
  let B := fun i j => if bern j i then 1 else 0 in
  (forall x, length x = n -> is_product m n B x (times T x)) /\
  (forall y, length y = m -> is_product n m (fun i j => B j i) y (trans T y)).
Proof.
  cbv zeta. unfold binary_dict_alg. set (k := match n with None => m | Some n => n end). cbn [times trans]. split.
  - intros x Lx. destruct (fold_acc m (bits bern m) (fun i => nth i x 0) (fun i => tab_length m _) k) as [L E].
    split; [exact L|]. intros i Hi. rewrite E. apply rsum_ext. intros j Hj. unfold bits. rewrite nth_tab by auto. ring.
  - intros y Ly. destruct (fold_set k (fun i => rdot (bits bern m i) y) k (le_n k)) as [L E]. split; [exact L|]. intros i Hi. rewrite E.
    destruct (Nat.ltb_spec i k); [|lia]. rewrite (@rdot_sum m) by (auto; unfold bits; apply tab_length). apply rsum_ext. intros j Hj. unfold bits. now rewrite nth_tab.
Qed.
(** matrix_op *)
Lemma vecmat_nth n j : forall (A : list (list R)) (y : list R), (forall r, In r A -> length r = n) -> length y = length A ->
  nth j (@vecmat Rs n y A) 0 = rsum (length A) (fun i => nth i y 0 * nth j (nth i A []) 0).
Proof.
  induction A as [|r A IH]; intros [|a y] W L; try discriminate; [apply rzero_nth|].
  injection L as L. cbn [length]. rewrite rsum_S_l. cbn [nth].
  rewrite <- IH by (auto; intros; apply W; now right).
  change (@vecmat Rs n (a :: y) (r :: A)) with (radd (rscale a r) (@vecmat Rs n y A)).
  rewrite radd_nth; [now rewrite rscale_nth|]. rewrite rscale_len, (@LopLemmas.vecmat_length Rs); [|intros; apply W; now right].
  apply W. now left.
Qed.
Lemma matrix_op_ok A : real (matrix_op A) = true /\ om (matrix_op A) = sz_rows A /\ on (matrix_op A) = sz_cols A /\
  (forall x, length x = sz_cols A -> is_product (sz_rows A) (sz_cols A) (sz_ent A) x (times (matrix_op A) x)) /\
  (forall y, length y = sz_rows A -> is_product (sz_cols A) (sz_rows A) (ftr (sz_ent A)) y (trans (matrix_op A) y)).
Proof.
  split; [reflexivity|]. split; [reflexivity|]. split; [reflexivity|]. destruct A as [m n A]. cbn [sz_rows sz_cols sz_ent].
  assert (W : @wf_mat Rs m n (rows_of (Sized m n A))).
  { split; [unfold rows_of; apply tab_length|]. intros r Hr. unfold rows_of, tab in Hr. cbn [sz_rows sz_cols sz_ent] in Hr. apply in_map_iff in Hr as [i [<- _]]. apply tab_length. }
  split.
  - intros x Lx. split; [transitivity (length (rows_of (Sized m n A))); [apply map_length|apply W]|].
    intros i Hi. pose proof (@LopProofs5.matrix_meaning Rs m n (rows_of (Sized m n A)) true x i W Lx Hi) as E.
    transitivity (@Sum Rs n (fun j => @smul Rs (nth j (nth i (rows_of (Sized m n A)) []) 0) (nth j x 0))); [exact E|].
    change (rsum n (fun j => nth j (nth i (rows_of (Sized m n A)) []) 0 * nth j x 0) = rsum n (fun j => A i j * nth j x 0)).
    apply rsum_ext. intros j Hj. unfold rows_of. cbn [sz_rows sz_cols sz_ent]. rewrite nth_tab by auto. now rewrite nth_tab.
  - intros y Ly. pose proof W as [W1 W2]. 
    assert (E : trans (matrix_op (Sized m n A)) y = @vecmat Rs n y (rows_of (Sized m n A))).
    { cbn. unfold vstar. cbn. rewrite !map_id. reflexivity. }
    rewrite E. split; [apply (@LopLemmas.vecmat_length Rs); auto|]. intros j Hj. etransitivity; [exact (vecmat_nth n j _ y W2 (eq_trans Ly (eq_sym W1)))|].
    etransitivity; [exact (f_equal (fun k => rsum k _) W1)|].
    apply rsum_ext. intros i Hi. unfold rows_of, ftr. cbn [sz_rows sz_cols sz_ent]. rewrite (@nth_tab (list R)) by auto. rewrite nth_tab by auto. ring.
Qed.
