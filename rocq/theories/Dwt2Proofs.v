(** Proofs about the two-dimensional wavelet transform. *)
From Coq Require Import List Arith Bool Lia Reals Lra.
From Verif Require Import Vec RVec RMat BasisSpec BasisModel BasisProofs Dwt2Model Dwt2Spec.
Import ListNotations.
Local Open Scope R_scope.

Ltac ln := change vec with (list R) in *; repeat match goal with H : shape ?h ?w ?X |- _ =>
  lazymatch goal with _ : @length (list R) X = h |- _ => fail | _ => pose proof (proj1 H : @length (list R) X = h) end end; try lia.
Lemma shape_tab2 h w f : shape h w (tab2r h w f).
Proof. split; [apply tab_length|]. intros r Hr. unfold tab2r, tab in Hr. apply in_map_iff in Hr as [i [<- _]]. apply tab_length. Qed.
Lemma ent_tab2 h w f i j : (i < h)%nat -> (j < w)%nat -> ent (tab2r h w f) i j = f i j.
Proof. intros Hi Hj. unfold ent, tab2r. rewrite nth_tab by auto. now rewrite nth_tab. Qed.
Lemma mat_ext h w (X Y : mat) : shape h w X -> shape h w Y -> (forall i j, (i < h)%nat -> (j < w)%nat -> ent X i j = ent Y i j) -> X = Y.
Proof.
  intros SX SY H. apply (@list_eq_nth vec) with (d := ([] : vec)); [destruct SX as [E1 _], SY as [E2 _]; exact (eq_trans E1 (eq_sym E2))|]. intros i Hi.
  assert (Hi' : (i < h)%nat) by (destruct SX as [E1 _]; rewrite <- E1; exact Hi).
  apply list_eq_nth with (d := 0); [rewrite (shape_row SX Hi'), (shape_row SY Hi'); auto|]. intros j Hj. apply H; auto. rewrite (shape_row SX Hi') in Hj. exact Hj.
Qed.
Lemma rows_shape h w X : shape h w X -> rows X = h.
Proof. now intros [H _]. Qed.
Lemma cols_shape h w X : (1 <= h)%nat -> shape h w X -> cols X = w.
Proof. intros Hh S. apply (shape_row S). lia. Qed.
Lemma tr_shape h w X : (1 <= h)%nat -> shape h w X -> shape w h (transpose X).
Proof. intros Hh S. unfold transpose. rewrite (rows_shape _ _ _ S), (cols_shape _ _ _ Hh S). apply shape_tab2. Qed.
Lemma tr_ent h w X i j : (1 <= h)%nat -> shape h w X -> (i < w)%nat -> (j < h)%nat -> ent (transpose X) i j = ent X j i.
Proof. intros Hh S Hi Hj. unfold transpose. rewrite (rows_shape _ _ _ S), (cols_shape _ _ _ Hh S). now rewrite ent_tab2. Qed.
Lemma tr_tr h w X : (1 <= h)%nat -> (1 <= w)%nat -> shape h w X -> transpose (transpose X) = X.
Proof.
  intros Hh Hw S. pose proof (tr_shape _ _ _ Hh S) as S1. pose proof (tr_shape _ _ _ Hw S1) as S2.
  apply (mat_ext h w); auto. intros i j Hi Hj. rewrite (tr_ent w h) by auto. now apply (tr_ent h w).
Qed.
Lemma shape_app h h' w X Y : shape h w X -> shape h' w Y -> shape (h + h') w (X ++ Y).
Proof. intros [A B] [C D]. split; [rewrite app_length; lia|]. intros r Hr. apply in_app_or in Hr as [Hr|Hr]; auto. Qed.
Lemma ent_app h w X Y i j : shape h w X -> ent (X ++ Y) i j = if (i <? h)%nat then ent X i j else ent Y (i - h) j.
Proof.
  intros [A _]. unfold ent. destruct (Nat.ltb_spec i h); [rewrite app_nth1 by lia; reflexivity|rewrite app_nth2 by lia; now rewrite A].
Qed.
Lemma shape_zapp h w w' X Y : shape h w X -> shape h w' Y -> shape h (w + w') (zipw (@app R) X Y).
Proof.
  intros SX SY. split; [rewrite zipw_length; ln|]. intros r Hr. destruct (In_nth _ _ [] Hr) as [i [Hi E]].
  rewrite zipw_length in Hi. rewrite <- E. rewrite (@nth_zipw _ _ _ (@app R) X Y i [] [] []) by (ln).
  rewrite app_length, (shape_row SX), (shape_row SY) by (ln). auto.
Qed.
Lemma ent_zapp h w w' X Y i j : shape h w X -> shape h w' Y -> (i < h)%nat ->
  ent (zipw (@app R) X Y) i j = if (j <? w)%nat then ent X i j else ent Y i (j - w).
Proof.
  intros SX SY Hi. unfold ent. change vec with (list R). rewrite (@nth_zipw _ _ _ (@app R) X Y i [] [] []) by (ln).
  pose proof (shape_row SX Hi : @length R (@nth (list R) i X []) = w) as L. destruct (Nat.ltb_spec j w); [now rewrite app_nth1 by lia|rewrite app_nth2 by lia; now rewrite L].
Qed.
Lemma tr_app h w w' A D : (1 <= h)%nat -> shape h w A -> shape h w' D -> transpose A ++ transpose D = transpose (zipw (@app R) A D).
Proof.
  intros Hh SA SD. pose proof (tr_shape _ _ _ Hh SA) as TA. pose proof (tr_shape _ _ _ Hh SD) as TD. pose proof (shape_zapp _ _ _ _ _ SA SD) as SZ.
  apply (mat_ext (w + w') h); [now apply shape_app|now apply tr_shape|]. intros i j Hi Hj.
  rewrite (tr_ent h (w + w')) by auto. rewrite (ent_app w h) by auto. rewrite (ent_zapp h w w') by auto.
  destruct (Nat.ltb_spec i w); [now apply (tr_ent h w)|apply (tr_ent h w'); auto; lia].
Qed.
Lemma tr_zapp h h' w A D : (1 <= h)%nat -> (1 <= h')%nat -> shape h w A -> shape h' w D -> zipw (@app R) (transpose A) (transpose D) = transpose (A ++ D).
Proof.
  intros Hh Hh' SA SD. pose proof (tr_shape _ _ _ Hh SA) as TA. pose proof (tr_shape _ _ _ Hh' SD) as TD. pose proof (shape_app _ _ _ _ _ SA SD) as SZ.
  apply (mat_ext w (h + h')); [now apply shape_zapp|apply tr_shape; auto; lia|]. intros i j Hi Hj.
  rewrite (tr_ent (h + h') w) by (auto; lia). rewrite (ent_zapp w h h') by auto. rewrite (ent_app h w) by auto.
  destruct (Nat.ltb_spec j h); [now apply (tr_ent h w)|apply (tr_ent h' w); auto; lia].
Qed.

(** inner product *)
Lemma dot2_rows h w X Y : shape h w X -> shape h w Y -> dot2 h w X Y = rsum h (fun i => rdot (nth i X []) (nth i Y [])).
Proof. intros SX SY. apply rsum_ext. intros i Hi. rewrite (rdot_sum (n := w)); auto; [now rewrite (shape_row SX Hi)|now rewrite (shape_row SY Hi)]. Qed.
Lemma dot2_tr h w X Y : (1 <= h)%nat -> shape h w X -> shape h w Y -> dot2 w h (transpose X) (transpose Y) = dot2 h w X Y.
Proof.
  intros Hh SX SY. unfold dot2. rewrite rsum_exchange. apply rsum_ext. intros i Hi. apply rsum_ext. intros j Hj.
  now rewrite !(tr_ent h w) by auto.
Qed.
Lemma dot2_sym h w X Y : dot2 h w X Y = dot2 h w Y X.
Proof. apply rsum_ext. intros; apply rsum_ext; intros; ring. Qed.

(** blocks *)
Lemma set2_shape h w r c C X : (1 <= h)%nat -> shape h w X -> shape h w (set2 r c C X).
Proof. intros Hh S. unfold set2. rewrite (rows_shape _ _ _ S), (cols_shape _ _ _ Hh S). apply shape_tab2. Qed.
Lemma set2_ent h w r c C X i j : (1 <= h)%nat -> shape h w X -> (i < h)%nat -> (j < w)%nat ->
  ent (set2 r c C X) i j = if (i <? r)%nat && (j <? c)%nat then ent C i j else ent X i j.
Proof. intros Hh S Hi Hj. unfold set2. rewrite (rows_shape _ _ _ S), (cols_shape _ _ _ Hh S). now rewrite ent_tab2. Qed.
Definition blk (r c : nat) (X : mat) : mat := sub2 0 r 0 c X.
Lemma blk_shape r c X : shape r c (blk r c X).
Proof. unfold blk, sub2. rewrite !Nat.sub_0_r. apply shape_tab2. Qed.
Lemma blk_ent r c X i j : (i < r)%nat -> (j < c)%nat -> ent (blk r c X) i j = ent X i j.
Proof. intros Hi Hj. unfold blk, sub2. rewrite !Nat.sub_0_r. now rewrite ent_tab2. Qed.
Lemma blk_all h w X : shape h w X -> blk h w X = X.
Proof. intros S. apply (mat_ext h w); auto using blk_shape. intros. now apply blk_ent. Qed.
Ltac lb := repeat match goal with |- context[(?a <? ?b)%nat] => destruct (Nat.ltb_spec a b) end; cbn [andb]; try lia; auto.
Lemma blk_set h w r c C X : (1 <= h)%nat -> shape h w X -> shape r c C -> (r <= h)%nat -> (c <= w)%nat -> blk r c (set2 r c C X) = C.
Proof.
  intros Hh SX SC Hr Hc. apply (mat_ext r c); auto using blk_shape. intros i j Hi Hj. rewrite blk_ent by auto. rewrite (set2_ent h w) by (auto; lia). lb.
Qed.
Lemma set_blk h w r c X : (1 <= h)%nat -> shape h w X -> set2 r c (blk r c X) X = X.
Proof.
  intros Hh SX. apply (mat_ext h w); auto using set2_shape. intros i j Hi Hj. rewrite (set2_ent h w) by (auto; lia). lb. now rewrite blk_ent.
Qed.
Lemma set_set h w r c C C' X : (1 <= h)%nat -> shape h w X -> set2 r c C (set2 r c C' X) = set2 r c C X.
Proof.
  intros Hh SX. pose proof (set2_shape h w r c C' X Hh SX) as S1. apply (mat_ext h w); auto using set2_shape. intros i j Hi Hj.
  rewrite !(set2_ent h w) by (auto; lia). lb.
Qed.
Lemma set_nest h w r c r' c' C Y X : (1 <= h)%nat -> (1 <= r')%nat -> shape h w X -> shape r' c' Y -> (r <= r')%nat -> (c <= c')%nat -> (r' <= h)%nat -> (c' <= w)%nat ->
  set2 r c C (set2 r' c' Y X) = set2 r' c' (set2 r c C Y) X.
Proof.
  intros Hh Hr' SX SY H1 H2 H3 H4. pose proof (set2_shape h w r' c' Y X Hh SX) as S1. apply (mat_ext h w); auto using set2_shape. intros i j Hi Hj.
  rewrite !(set2_ent h w) by (auto; lia). destruct (Nat.ltb_spec i r'), (Nat.ltb_spec j c'); cbn [andb]; [rewrite (set2_ent r' c') by auto|..]; lb.
Qed.
Lemma rsum_if r h f : (r <= h)%nat -> rsum h (fun i => if (i <? r)%nat then f i else 0) = rsum r f.
Proof.
  intros H. replace h with (r + (h - r))%nat by lia. rewrite rsum_split. rewrite (@rsum_ext r _ f) by (intros; lb).
  rewrite (@rsum_0' (h - r)); [ring|]. intros; lb.
Qed.
Lemma dot2_if h w r c X Y : (r <= h)%nat -> (c <= w)%nat ->
  dot2 r c X Y = rsum h (fun i => rsum w (fun j => if (i <? r)%nat && (j <? c)%nat then ent X i j * ent Y i j else 0)).
Proof.
  intros Hr Hc. unfold dot2. rewrite <- (rsum_if r h) by auto. apply rsum_ext. intros i Hi. destruct (i <? r)%nat; cbn [andb].
  - now rewrite <- (rsum_if c w) by auto.
  - now rewrite rsum_0.
Qed.
Lemma dot2_set h w r c C X Y : (1 <= h)%nat -> shape h w X -> (r <= h)%nat -> (c <= w)%nat ->
  dot2 h w (set2 r c C X) Y = dot2 r c C (blk r c Y) + (dot2 h w X Y - dot2 r c (blk r c X) (blk r c Y)).
Proof.
  intros Hh SX Hr Hc. rewrite (dot2_if h w r c C), (dot2_if h w r c (blk r c X)) by auto. unfold dot2. rewrite <- rsum_sub, <- rsum_add. apply rsum_ext. intros i Hi.
  rewrite <- rsum_sub, <- rsum_add. apply rsum_ext. intros j Hj. rewrite (set2_ent h w) by auto.
  destruct (Nat.ltb_spec i r), (Nat.ltb_spec j c); cbn [andb]; try ring. rewrite !blk_ent by auto. ring.
Qed.

Lemma pw l a : (1 <= a)%nat -> (1 <= 2 ^ l * a)%nat.
Proof. intros H. pose proof (Nat.pow_nonzero 2 l). nia. Qed.
Lemma pS l a : (2 ^ S l * a = 2 * (2 ^ l * a))%nat.
Proof. cbn. lia. Qed.
Section W2.
  Variable dwt1 : list R -> list R * list R.
  Variable idwt1 : list R -> list R -> list R.
  Hypothesis dwt_len : forall q x, length x = (2 * q)%nat -> length (fst (dwt1 x)) = q /\ length (snd (dwt1 x)) = q.
  Hypothesis idwt_len : forall q a d, length a = q -> length d = q -> length (idwt1 a d) = (2 * q)%nat.
  Hypothesis idwt_dwt : forall q x, length x = (2 * q)%nat -> idwt1 (fst (dwt1 x)) (snd (dwt1 x)) = x.
  Hypothesis dwt_idwt : forall q a d, length a = q -> length d = q -> dwt1 (idwt1 a d) = (a, d).
  Hypothesis dwt_adj : forall q x a d, length x = (2 * q)%nat -> length a = q -> length d = q ->
    rdot (fst (dwt1 x)) a + rdot (snd (dwt1 x)) d = rdot x (idwt1 a d).

  Definition w1 (r : list R) : list R := fst (dwt1 r) ++ snd (dwt1 r).
  Definition i1 (q : nat) (r : list R) : list R := idwt1 (firstn q r) (skipn q r).
  Lemma w1_len q r : length r = (2 * q)%nat -> length (w1 r) = (2 * q)%nat.
  Proof. intros H. unfold w1. rewrite app_length. destruct (dwt_len q r H) as [-> ->]. lia. Qed.
  Lemma halves q (r : list R) : length r = (2 * q)%nat -> length (firstn q r) = q /\ length (skipn q r) = q.
  Proof. intros H. rewrite firstn_length, skipn_length. lia. Qed.
  Lemma i1_len q r : length r = (2 * q)%nat -> length (i1 q r) = (2 * q)%nat.
  Proof. intros H. destruct (halves q r H). apply idwt_len; auto. Qed.
  Lemma i1_app q a d : length a = q -> i1 q (a ++ d) = idwt1 a d.
  Proof. intros H. unfold i1. rewrite firstn_app, skipn_app, H, Nat.sub_diag. rewrite firstn_all2, skipn_all2 by lia. cbn. now rewrite app_nil_r. Qed.
  Lemma i1_w1 q r : length r = (2 * q)%nat -> i1 q (w1 r) = r.
  Proof. intros H. unfold w1. rewrite i1_app by apply (dwt_len q r H). now apply (idwt_dwt q). Qed.
  Lemma w1_i1 q r : length r = (2 * q)%nat -> w1 (i1 q r) = r.
  Proof. intros H. destruct (halves q r H) as [A B]. unfold w1, i1. rewrite (dwt_idwt q) by auto. apply firstn_skipn. Qed.
  Lemma w1_adj q r c : length r = (2 * q)%nat -> length c = (2 * q)%nat -> rdot (w1 r) c = rdot r (i1 q c).
  Proof.
    intros H Hc. destruct (halves q c Hc) as [A B]. unfold i1. rewrite <- (dwt_adj q) by auto. unfold w1. rewrite <- (firstn_skipn q c) at 1.
    apply rdot_app. destruct (dwt_len q r H). congruence.
  Qed.

  (** transforms of all rows, of all columns *)
  Definition Rw (X : mat) : mat := map w1 X.
  Definition Ri (q : nat) (X : mat) : mat := map (i1 q) X.
  Definition Cw (X : mat) : mat := transpose (Rw (transpose X)).
  Definition Ci (p : nat) (X : mat) : mat := transpose (Ri p (transpose X)).
  Lemma map_shape h w w' f X : (forall r, length r = w -> length (f r) = w') -> shape h w X -> shape h w' (map f X).
  Proof. intros H [A B]. split; [now rewrite map_length|]. intros r Hr. apply in_map_iff in Hr as [s [<- Hs]]. auto. Qed.
  Lemma Rw_shape h q X : shape h (2 * q) X -> shape h (2 * q) (Rw X).
  Proof. apply map_shape. intros r. apply w1_len. Qed.
  Lemma Ri_shape h q X : shape h (2 * q) X -> shape h (2 * q) (Ri q X).
  Proof. apply map_shape. intros r. apply i1_len. Qed.
  Lemma Ri_Rw h q X : shape h (2 * q) X -> Ri q (Rw X) = X.
  Proof. intros [_ B]. unfold Ri, Rw. rewrite map_map. rewrite <- map_id. apply map_ext_in. intros r Hr. apply i1_w1. auto. Qed.
  Lemma Rw_Ri h q X : shape h (2 * q) X -> Rw (Ri q X) = X.
  Proof. intros [_ B]. unfold Ri, Rw. rewrite map_map. rewrite <- map_id. apply map_ext_in. intros r Hr. apply w1_i1. auto. Qed.
  Lemma nth_map' (f : list R -> list R) X h i : length X = h -> (i < h)%nat -> nth i (map f X) [] = f (nth i X []).
  Proof. intros H Hi. rewrite (@nth_map_lt _ _ f X i [] []) by lia. reflexivity. Qed.
  Lemma Rw_adj h q X Y : shape h (2 * q) X -> shape h (2 * q) Y -> dot2 h (2 * q) (Rw X) Y = dot2 h (2 * q) X (Ri q Y).
  Proof.
    intros SX SY. rewrite !dot2_rows by auto using Rw_shape, Ri_shape. apply rsum_ext. intros i Hi.
    unfold Rw, Ri. rewrite !(nth_map' _ _ h) by (auto; try apply SX; apply SY). apply w1_adj; [apply (shape_row SX Hi)|apply (shape_row SY Hi)].
  Qed.
  Section S.
    Variables p q : nat.
    Hypothesis Hp : (1 <= p)%nat.
    Hypothesis Hq : (1 <= q)%nat.
    Let h := (2 * p)%nat.
    Let w := (2 * q)%nat.
    Let Hh : (1 <= h)%nat. Proof. unfold h. lia. Qed.
    Let Hw : (1 <= w)%nat. Proof. unfold w. lia. Qed.
    Lemma Cw_shape w' X : (1 <= w')%nat -> shape h w' X -> shape h w' (Cw X).
    Proof. intros H S. apply tr_shape; auto. apply Rw_shape. now apply tr_shape. Qed.
    Lemma Ci_shape w' X : (1 <= w')%nat -> shape h w' X -> shape h w' (Ci p X).
    Proof. intros H S. apply tr_shape; auto. apply Ri_shape. now apply tr_shape. Qed.
    Lemma Ci_Cw X : shape h w X -> Ci p (Cw X) = X.
    Proof.
      intros S. pose proof (tr_shape _ _ _ Hh S) as T. unfold Ci, Cw. rewrite (tr_tr w h) by (auto; now apply Rw_shape). rewrite (Ri_Rw w) by auto. now apply (tr_tr h w).
    Qed.
    Lemma Cw_Ci X : shape h w X -> Cw (Ci p X) = X.
    Proof.
      intros S. pose proof (tr_shape _ _ _ Hh S) as T. unfold Ci, Cw. rewrite (tr_tr w h) by (auto; now apply Ri_shape). rewrite (Rw_Ri w p) by auto. now apply (tr_tr h w).
    Qed.
    Lemma Cw_adj X Y : shape h w X -> shape h w Y -> dot2 h w (Cw X) Y = dot2 h w X (Ci p Y).
    Proof.
      intros SX SY. pose proof (tr_shape _ _ _ Hh SX) as TX. pose proof (tr_shape _ _ _ Hh SY) as TY.
      pose proof (Rw_shape w p _ TX) as RX. pose proof (Ri_shape w p _ TY) as RY. unfold Cw, Ci.
      rewrite <- (dot2_tr h w (transpose (Rw (transpose X))) Y) by (auto; now apply tr_shape).
      rewrite <- (dot2_tr h w X (transpose (Ri p (transpose Y)))) by (auto; now apply tr_shape).
      rewrite !(tr_tr w h) by auto. now apply Rw_adj.
    Qed.
    Definition step (ax0 : axis) (X : mat) : mat := match ax0 with A0 => Rw (Cw X) | A1 => Cw (Rw X) end.
    Definition unstep (ax0 : axis) (X : mat) : mat := match ax0 with A0 => Ci p (Ri q X) | A1 => Ri q (Ci p X) end.
    Lemma step_shape ax0 X : shape h w X -> shape h w (step ax0 X).
    Proof. intros S. destruct ax0; cbn [step]; [apply Rw_shape, Cw_shape; auto|apply Cw_shape; auto; now apply Rw_shape]. Qed.
    Lemma unstep_shape ax0 X : shape h w X -> shape h w (unstep ax0 X).
    Proof. intros S. destruct ax0; cbn [unstep]; [apply Ci_shape; auto; now apply Ri_shape|apply Ri_shape, Ci_shape; auto]. Qed.
    Lemma unstep_step ax0 X : shape h w X -> unstep ax0 (step ax0 X) = X.
    Proof.
      intros S. destruct ax0; cbn [step unstep].
      - rewrite (Ri_Rw h) by (apply Cw_shape; auto). now apply Ci_Cw.
      - rewrite Ci_Cw by now apply Rw_shape. now apply (Ri_Rw h).
    Qed.
    Lemma step_unstep ax0 X : shape h w X -> step ax0 (unstep ax0 X) = X.
    Proof.
      intros S. destruct ax0; cbn [step unstep].
      - rewrite Cw_Ci by now apply Ri_shape. now apply (Rw_Ri h q).
      - rewrite (Rw_Ri h q) by (apply Ci_shape; auto). now apply Cw_Ci.
    Qed.
    Lemma step_adj ax0 X Y : shape h w X -> shape h w Y -> dot2 h w (step ax0 X) Y = dot2 h w X (unstep ax0 Y).
    Proof.
      intros SX SY. destruct ax0; cbn [step unstep].
      - unfold w at 1. rewrite Rw_adj by (auto; apply Cw_shape; auto). apply Cw_adj; auto. now apply Ri_shape.
      - rewrite Cw_adj by (auto; now apply Rw_shape). apply Rw_adj; auto. apply Ci_shape; auto.
    Qed.
    (** the code's version *)
    Let f (r : list R) := fst (dwt1 r).
    Let g (r : list R) := snd (dwt1 r).
    Lemma Rw_cat X : Rw X = zipw (@app R) (map f X) (map g X).
    Proof. induction X as [|r X IH]; [reflexivity|]. cbn. now rewrite <- IH. Qed.
    Lemma f_shape n k X : shape n (2 * k) X -> shape n k (map f X).
    Proof. apply map_shape. intros r Hr. apply (dwt_len k r Hr). Qed.
    Lemma g_shape n k X : shape n (2 * k) X -> shape n k (map g X).
    Proof. apply map_shape. intros r Hr. apply (dwt_len k r Hr). Qed.
    Lemma cat_cols n k X : (1 <= n)%nat -> shape (2 * k) n X -> (1 <= k)%nat -> fst (dwt_axis dwt1 A0 X) ++ snd (dwt_axis dwt1 A0 X) = Cw X.
    Proof.
      intros Hn S Hk. cbn [dwt_axis fst snd]. pose proof (tr_shape (2 * k) n X ltac:(lia) S) as T. fold f g.
      rewrite (tr_app n k k) by (auto using f_shape, g_shape). unfold Cw. now rewrite Rw_cat.
    Qed.
    Definition parts (ax0 ax1 : axis) (X : mat) : mat * mat * mat * mat :=
      let (ca, cd) := dwt_axis dwt1 ax0 X in
      let (caa, cad) := dwt_axis dwt1 ax1 ca in
      let (cda, cdd) := dwt_axis dwt1 ax1 cd in (caa, cad, cda, cdd).
    Definition other (a : axis) := match a with A0 => A1 | A1 => A0 end.
    Lemma cat_blk ax0 caa B C D : (match ax0 with A0 => shape p q caa /\ shape p q B /\ shape p q C /\ shape p q D | A1 => shape p q caa /\ shape p q B /\ shape p q C /\ shape p q D end) ->
      blk p q (cat ax0 (cat (other ax0) caa B) (cat (other ax0) C D)) = caa.
    Proof.
      intros H. assert (H' : shape p q caa /\ shape p q B /\ shape p q C /\ shape p q D) by (destruct ax0; exact H). clear H. destruct H' as (S1 & S2 & S3 & S4).
      apply (mat_ext p q); auto using blk_shape. intros i j Hi Hj. rewrite blk_ent by auto. destruct ax0; cbn [cat other].
      - rewrite (ent_app p (q + q)) by now apply shape_zapp. rewrite (ent_zapp p q q) by auto. lb.
      - rewrite (ent_zapp (p + p) q q) by (try apply shape_app; auto; lia). rewrite (ent_app p q) by auto. lb.
    Qed.
    Lemma parts_ok ax0 X : shape h w X ->
      let '(caa, cad, cda, cdd) := parts ax0 (other ax0) X in
      cat ax0 (cat (other ax0) caa cad) (cat (other ax0) cda cdd) = step ax0 X /\ caa = blk p q (step ax0 X) /\ shape p q caa.
    Proof.
      intros S. destruct ax0; unfold parts; cbn [other].
      - destruct (dwt_axis dwt1 A0 X) as [ca cd] eqn:E. cbn [dwt_axis]. fold f g.
        pose proof (cat_cols w p X Hw S Hp) as EC. rewrite E in EC. cbn [fst snd] in EC.
        cbn [dwt_axis] in E. fold f g in E. injection E as E1 E2. pose proof (tr_shape _ _ _ Hh S) as T.
        assert (Sa : shape p w ca) by (rewrite <- E1; apply tr_shape; auto; now apply f_shape).
        assert (Sd : shape p w cd) by (rewrite <- E2; apply tr_shape; auto; now apply g_shape).
        assert (Q : cat A0 (cat A1 (map f ca) (map g ca)) (cat A1 (map f cd) (map g cd)) = step A0 X).
        { cbn [cat step]. rewrite <- !Rw_cat. unfold Rw. rewrite <- map_app. exact (f_equal (map w1) EC). }
        split; [exact Q|]. split; [|now apply f_shape]. rewrite <- Q. symmetry. apply (cat_blk A0). auto using f_shape, g_shape.
      - cbn [dwt_axis]. fold f g. set (ca := map f X). set (cd := map g X).
        assert (Sa : shape h q ca) by now apply f_shape. assert (Sd : shape h q cd) by now apply g_shape.
        pose proof (tr_shape _ _ _ Hh Sa) as Ta. pose proof (tr_shape _ _ _ Hh Sd) as Td.
        assert (Q : cat A1 (cat A0 (transpose (map f (transpose ca))) (transpose (map g (transpose ca)))) (cat A0 (transpose (map f (transpose cd))) (transpose (map g (transpose cd)))) = step A1 X).
        { cbn [cat step]. rewrite !(tr_app q p p) by auto using f_shape, g_shape. rewrite <- !Rw_cat.
          rewrite (tr_zapp q q h) by (auto; now apply Rw_shape). unfold Cw. f_equal. unfold Rw at 1 2 3. rewrite <- map_app. f_equal.
          rewrite (tr_app h q q) by auto. f_equal. symmetry. apply Rw_cat. }
        assert (Sc : shape p q (transpose (map f (transpose ca)))) by (apply tr_shape; auto; now apply f_shape).
        split; [exact Q|]. split; [|exact Sc]. rewrite <- Q. symmetry. apply (cat_blk A1).
        split; [exact Sc|]. split; [|split]; apply tr_shape; auto using f_shape, g_shape.
    Qed.
    Lemma zip_i1 n k A D : shape n k A -> length D = n -> zipw idwt1 A D = Ri k (zipw (@app R) A D).
    Proof.
      revert n D. induction A as [|a A IH]; intros n D S HD; [reflexivity|]. destruct D as [|d D]; [reflexivity|]. cbn. 
      assert (La : length a = k) by (apply S; now left). unfold Ri. cbn [map]. rewrite i1_app by auto. f_equal. destruct S as [S1 S2]. apply (IH (length A)); [split; auto; intros; apply S2; now right|]. cbn in S1, HD. congruence.
    Qed.
    Lemma idwt_cols n k A D : (1 <= n)%nat -> (1 <= k)%nat -> shape k n A -> shape k n D -> idwt_axis idwt1 A0 A D = transpose (Ri k (transpose (A ++ D))).
    Proof.
      intros Hn Hk SA SD. cbn [idwt_axis]. pose proof (tr_shape _ _ _ Hk SA) as TA. pose proof (tr_shape _ _ _ Hk SD) as TD.
      rewrite (zip_i1 n k) by (auto; apply TD). now rewrite (tr_zapp k k n) by auto.
    Qed.
    Lemma rec_ok ax0 caa cad cda cdd : shape p q caa -> shape p q cad -> shape p q cda -> shape p q cdd ->
      idwt_axis idwt1 ax0 (idwt_axis idwt1 (other ax0) caa cad) (idwt_axis idwt1 (other ax0) cda cdd) =
      unstep ax0 (cat ax0 (cat (other ax0) caa cad) (cat (other ax0) cda cdd)).
    Proof.
      intros S1 S2 S3 S4. assert (qq : (q + q = w)%nat) by (unfold w; lia). assert (pp : (p + p = h)%nat) by (unfold h; lia). destruct ax0; cbn [other].
      - cbn [idwt_axis]. rewrite (zip_i1 p q caa cad S1 (proj1 S2)), (zip_i1 p q cda cdd S3 (proj1 S4)).
        pose proof (shape_zapp _ _ _ _ _ S1 S2) as Za. pose proof (shape_zapp _ _ _ _ _ S3 S4) as Zd. rewrite qq in Za, Zd.
        change (transpose (zipw idwt1 (transpose ?a) (transpose ?b))) with (idwt_axis idwt1 A0 a b). rewrite (idwt_cols w p) by (auto; now apply Ri_shape).
        cbn [unstep cat]. unfold Ci. do 3 f_equal. unfold Ri. now rewrite <- map_app.
      - cbn [cat]. rewrite (idwt_cols q p caa), (idwt_cols q p cda) by auto.
        pose proof (shape_app _ _ _ _ _ S1 S2) as Za. pose proof (shape_app _ _ _ _ _ S3 S4) as Zd. rewrite pp in Za, Zd.
        pose proof (tr_shape _ _ _ Hh Za) as Ta. pose proof (tr_shape _ _ _ Hh Zd) as Td.
        pose proof (Ri_shape q p _ Ta) as Ra. pose proof (Ri_shape q p _ Td) as Rd.
        cbn [idwt_axis]. rewrite (zip_i1 h q _ _ (tr_shape _ _ _ Hq Ra) (proj1 (tr_shape _ _ _ Hq Rd))). cbn [unstep]. f_equal.
        rewrite (tr_zapp q q h) by (auto; now apply Ri_shape). unfold Ci. f_equal. unfold Ri. rewrite <- map_app. f_equal. now apply (tr_app h q q).
    Qed.
  End S.
  Section L.
    Variables p q : nat.
    Hypothesis Hp : (1 <= p)%nat.
    Hypothesis Hq : (1 <= q)%nat.
    Variable ax0 : axis.
    Fixpoint D2 (l : nat) (X : mat) : mat :=
      match l with
      | O => X
      | S l => let Y := step ax0 X in set2 (2 ^ l * p) (2 ^ l * q) (D2 l (blk (2 ^ l * p) (2 ^ l * q) Y)) Y
      end.
    Fixpoint R2 (l : nat) (C : mat) : mat :=
      match l with
      | O => C
      | S l => unstep (2 ^ l * p) (2 ^ l * q) ax0 (set2 (2 ^ l * p) (2 ^ l * q) (R2 l (blk (2 ^ l * p) (2 ^ l * q) C)) C)
      end.
    Lemma D2_shape l : forall X, shape (2 ^ l * p) (2 ^ l * q) X -> shape (2 ^ l * p) (2 ^ l * q) (D2 l X).
    Proof.
      destruct l as [|l]; intros X S; [exact S|]. cbn [D2]. rewrite !pS in *. apply set2_shape; [pose proof (pw l p Hp); lia|].
      apply step_shape; auto using pw.
    Qed.
    Lemma R2_shape l : forall X, shape (2 ^ l * p) (2 ^ l * q) X -> shape (2 ^ l * p) (2 ^ l * q) (R2 l X).
    Proof.
      destruct l as [|l]; intros X S; [exact S|]. cbn [R2]. rewrite !pS in *. pose proof (pw l p Hp). apply unstep_shape; auto using pw. apply set2_shape; auto; lia.
    Qed.
    Lemma R2_D2 l : forall X, shape (2 ^ l * p) (2 ^ l * q) X -> R2 l (D2 l X) = X.
    Proof.
      induction l as [|l IH]; intros X S; [reflexivity|]. cbn [R2 D2]. rewrite !pS in *. pose proof (pw l p Hp). pose proof (pw l q Hq).
      set (r := (2 ^ l * p)%nat) in *. set (c := (2 ^ l * q)%nat) in *. set (Y := step ax0 X).
      assert (SY : shape (2 * r) (2 * c) Y) by (apply step_shape; auto).
      rewrite (blk_set (2 * r) (2 * c)) by (auto; try lia; apply D2_shape, blk_shape). rewrite IH by apply blk_shape.
      rewrite (set_set (2 * r) (2 * c)) by (auto; lia). rewrite (set_blk (2 * r) (2 * c)) by (auto; lia). apply unstep_step; auto.
    Qed.
    Lemma D2_R2 l : forall X, shape (2 ^ l * p) (2 ^ l * q) X -> D2 l (R2 l X) = X.
    Proof.
      induction l as [|l IH]; intros X S; [reflexivity|]. cbn [R2 D2]. rewrite !pS in *. pose proof (pw l p Hp). pose proof (pw l q Hq).
      set (r := (2 ^ l * p)%nat) in *. set (c := (2 ^ l * q)%nat) in *. cbv zeta. rewrite step_unstep by (auto; apply set2_shape; auto; lia).
      rewrite (blk_set (2 * r) (2 * c)) by (auto; try lia; apply R2_shape, blk_shape). rewrite IH by apply blk_shape.
      rewrite (set_set (2 * r) (2 * c)) by (auto; lia). apply (set_blk (2 * r) (2 * c)); auto; lia.
    Qed.
    Lemma D2_adj l : forall X C, shape (2 ^ l * p) (2 ^ l * q) X -> shape (2 ^ l * p) (2 ^ l * q) C ->
      dot2 (2 ^ l * p) (2 ^ l * q) (D2 l X) C = dot2 (2 ^ l * p) (2 ^ l * q) X (R2 l C).
    Proof.
      induction l as [|l IH]; intros X C SX SC; [reflexivity|]. cbn [R2 D2]. rewrite !pS in *. pose proof (pw l p Hp). pose proof (pw l q Hq).
      set (r := (2 ^ l * p)%nat) in *. set (c := (2 ^ l * q)%nat) in *. set (Y := step ax0 X).
      assert (SY : shape (2 * r) (2 * c) Y) by (apply step_shape; auto).
      rewrite <- step_adj by (auto; apply set2_shape; auto; lia). fold Y. rewrite dot2_set by (auto; lia). rewrite IH by apply blk_shape.
      rewrite (dot2_sym (2 * r) (2 * c) Y (set2 _ _ _ _)). rewrite dot2_set by (auto; lia).
      rewrite (dot2_sym r c (blk r c Y)), (dot2_sym (2 * r) (2 * c) C Y), (dot2_sym r c (blk r c C) (blk r c Y)). reflexivity.
    Qed.
    (** the loops *)
    Lemma setblock_dim h w Z C X : (1 <= h)%nat -> shape h w Z -> setblock ax0 (dim ax0 Z) (dim (other ax0) Z) C X = set2 h w C X.
    Proof. intros Hh S. destruct ax0; cbn [setblock dim other]; now rewrite (rows_shape _ _ _ S), (cols_shape _ _ _ Hh S). Qed.
    Lemma dec_loop l : forall image result h w, (1 <= h)%nat -> shape (2 ^ l * p) (2 ^ l * q) image -> shape h w result -> (2 ^ l * p <= h)%nat -> (2 ^ l * q <= w)%nat ->
      blk (2 ^ l * p) (2 ^ l * q) result = image ->
      wavedec2_loop dwt1 ax0 (other ax0) l image result (dim ax0 image) (dim (other ax0) image) = set2 (2 ^ l * p) (2 ^ l * q) (D2 l image) result.
    Proof.
      induction l as [|l IH]; intros image result h w Hh SI SR H1 H2 HB.
      - cbn [wavedec2_loop D2]. rewrite <- HB. symmetry. now apply (set_blk h w).
      - cbn [wavedec2_loop]. rewrite !pS in *. pose proof (pw l p Hp) as P1. pose proof (pw l q Hq) as P2.
        set (r := (2 ^ l * p)%nat) in *. set (c := (2 ^ l * q)%nat) in *.
        pose proof (parts_ok r c P1 P2 ax0 image SI) as PO. unfold parts in PO. cbv zeta.
        destruct (dwt_axis dwt1 ax0 image) as [ca cd]. destruct (dwt_axis dwt1 (other ax0) ca) as [caa cad]. destruct (dwt_axis dwt1 (other ax0) cd) as [cda cdd].
        destruct PO as (E1 & E2 & S1). rewrite E1. rewrite (setblock_dim (2 * r) (2 * c)) by (auto; lia).
        assert (SY : shape (2 * r) (2 * c) (step ax0 image)) by (apply step_shape; auto).
        assert (SS : shape h w (set2 (2 * r) (2 * c) (step ax0 image) result)) by now apply set2_shape.
        rewrite (IH caa _ h w); auto; try lia.
        + cbn [D2]. fold r c. rewrite (set_nest h w) by (auto; lia). now rewrite <- E2.
        + rewrite E2. apply (mat_ext r c); auto using blk_shape. intros i j Hi Hj. rewrite !blk_ent by auto. rewrite (set2_ent h w) by (auto; lia). lb.
    Qed.
    Lemma wavedec2_D2 l X : shape (2 ^ l * p) (2 ^ l * q) X -> wavedec2 dwt1 ax0 (other ax0) X l = D2 l X.
    Proof.
      intros S. unfold wavedec2. pose proof (pw l p Hp). rewrite (dec_loop l X X (2 ^ l * p) (2 ^ l * q)); auto; [|now apply blk_all].
      pose proof (D2_shape l X S) as SD. apply (mat_ext (2 ^ l * p) (2 ^ l * q)); auto using set2_shape. intros i j Hi Hj. rewrite (set2_ent (2 ^ l * p) (2 ^ l * q)) by auto. lb.
    Qed.
    Lemma sub2_shape r0 r1 c0 c1 X : shape (r1 - r0) (c1 - c0) (sub2 r0 r1 c0 c1 X).
    Proof. apply shape_tab2. Qed.
    Lemma sub2_ent r0 r1 c0 c1 X i j : (i < r1 - r0)%nat -> (j < c1 - c0)%nat -> ent (sub2 r0 r1 c0 c1 X) i j = ent X (r0 + i) (c0 + j).
    Proof. intros Hi Hj. unfold sub2. now rewrite ent_tab2. Qed.
    Definition m0 (r c : nat) := match ax0 with A0 => r | A1 => c end.
    Definition m1 (r c : nat) := match ax0 with A0 => c | A1 => r end.
    Lemma cat_slices r c caa C : (1 <= r)%nat -> shape r c caa ->
      cat ax0 (cat (other ax0) caa (slice2 ax0 0 (m0 r c) (m1 r c) (m1 r c * 2) C)) (cat (other ax0) (slice2 ax0 (m0 r c) (m0 r c * 2) 0 (m1 r c) C) (slice2 ax0 (m0 r c) (m0 r c * 2) (m1 r c) (m1 r c * 2) C)) =
      set2 r c caa (blk (2 * r) (2 * c) C).
    Proof.
      intros Hr S. pose proof (blk_shape (2 * r) (2 * c) C) as SB.
      assert (Q : forall a b X, shape a b X -> forall a' b', a = a' -> b = b' -> shape a' b' X) by (intros; subst; auto).
      assert (S1 : shape r c (sub2 0 r c (c * 2) C)) by (apply (Q _ _ _ (sub2_shape _ _ _ _ _)); lia).
      assert (S2 : shape r c (sub2 r (r * 2) 0 c C)) by (apply (Q _ _ _ (sub2_shape _ _ _ _ _)); lia).
      assert (S3 : shape r c (sub2 r (r * 2) c (c * 2) C)) by (apply (Q _ _ _ (sub2_shape _ _ _ _ _)); lia).
      apply (mat_ext (r + r) (c + c)).
      - unfold m0, m1. destruct ax0; cbn [cat other slice2]; auto using shape_app, shape_zapp.
      - apply (Q _ _ _ (set2_shape (2 * r) (2 * c) r c caa (blk (2 * r) (2 * c) C) ltac:(lia) SB)); lia.
      - intros i j Hi Hj. rewrite (set2_ent (2 * r) (2 * c)) by (auto; lia). rewrite blk_ent by lia. unfold m0, m1. destruct ax0; cbn [cat other slice2].
        + rewrite (ent_app r (c + c)) by now apply shape_zapp. destruct (Nat.ltb_spec i r).
          * rewrite (ent_zapp r c c) by auto. lb. rewrite sub2_ent by lia. f_equal; lia.
          * rewrite (ent_zapp r c c) by (auto; lia). cbn [andb]. lb; rewrite sub2_ent by lia; f_equal; lia.
        + rewrite (ent_zapp (r + r) c c) by (auto using shape_app). destruct (Nat.ltb_spec j c).
          * rewrite (ent_app r c) by auto. lb. rewrite sub2_ent by lia. f_equal; lia.
          * rewrite (ent_app r c) by auto. lb; rewrite sub2_ent by lia; f_equal; lia.
    Qed.
    Lemma blk_blk r c r' c' C : (r <= r')%nat -> (c <= c')%nat -> blk r c (blk r' c' C) = blk r c C.
    Proof. intros. apply (mat_ext r c); auto using blk_shape. intros. rewrite !blk_ent; auto; lia. Qed.
    Lemma rec_loop C : forall k j, 
      waverec2_loop idwt1 ax0 (other ax0) C k (R2 j (blk (2 ^ j * p) (2 ^ j * q) C)) (m0 (2 ^ j * p) (2 ^ j * q)) (m1 (2 ^ j * p) (2 ^ j * q)) (m0 (2 ^ j * p) (2 ^ j * q) * 2) (m1 (2 ^ j * p) (2 ^ j * q) * 2) =
      R2 (j + k) (blk (2 ^ (j + k) * p) (2 ^ (j + k) * q) C).
    Proof.
      induction k as [|k IH]; intros j.
      - rewrite Nat.add_0_r. reflexivity.
      - replace (j + S k)%nat with (S j + k)%nat by lia. rewrite <- (IH (S j)). cbn [waverec2_loop]. pose proof (pw j p Hp) as P1. pose proof (pw j q Hq) as P2.
        rewrite !pS. set (r := (2 ^ j * p)%nat) in *. set (c := (2 ^ j * q)%nat) in *.
        assert (E0 : m0 (2 * r) (2 * c) = (m0 r c * 2)%nat) by (unfold m0; destruct ax0; lia).
        assert (E1 : m1 (2 * r) (2 * c) = (m1 r c * 2)%nat) by (unfold m1; destruct ax0; lia).
        rewrite E0, E1. f_equal. cbn [R2]. fold r c. rewrite (blk_blk r c) by lia.
        assert (SR : shape r c (R2 j (blk r c C))) by apply R2_shape, blk_shape.
        rewrite <- (cat_slices r c) by auto. apply rec_ok; auto.
        all: assert (Q : forall a b X, shape a b X -> forall a' b', a = a' -> b = b' -> shape a' b' X) by (intros; subst; auto); unfold m0, m1; destruct ax0; cbn [slice2]; apply (Q _ _ _ (sub2_shape _ _ _ _ _)); lia.
    Qed.
    Lemma waverec2_R2 l C : shape (2 ^ l * p) (2 ^ l * q) C -> waverec2 idwt1 ax0 (other ax0) C l = R2 l C.
    Proof.
      intros S. pose proof (pw l p Hp) as P1. unfold waverec2.
      assert (E0 : (dim ax0 C / 2 ^ l)%nat = m0 (2 ^ 0 * p) (2 ^ 0 * q)).
      { unfold m0. destruct ax0; cbn [dim]; [rewrite (rows_shape _ _ _ S)|rewrite (cols_shape _ _ _ P1 S)]; rewrite Nat.mul_comm, Nat.div_mul by (apply Nat.pow_nonzero; lia); cbn; lia. }
      assert (E1 : (dim (other ax0) C / 2 ^ l)%nat = m1 (2 ^ 0 * p) (2 ^ 0 * q)).
      { unfold m1. destruct ax0; cbn [dim other]; [rewrite (cols_shape _ _ _ P1 S)|rewrite (rows_shape _ _ _ S)]; rewrite Nat.mul_comm, Nat.div_mul by (apply Nat.pow_nonzero; lia); cbn; lia. }
      rewrite E0, E1. cbv zeta. pose proof (rec_loop C l 0) as RL. cbn [R2] in RL. cbn [Nat.add] in RL. rewrite (blk_all _ _ C S) in RL. rewrite <- RL. f_equal.
      unfold m0, m1, blk. destruct ax0; reflexivity.
    Qed.
  End L.
End W2.

(** padding and cropping *)
Lemma pad2_shape h w p0 p1 X : (1 <= h)%nat -> shape h w X -> shape (h + p0) (w + p1) (pad2 p0 p1 X).
Proof. intros Hh S. unfold pad2. rewrite (rows_shape _ _ _ S), (cols_shape _ _ _ Hh S). apply shape_tab2. Qed.
Lemma pad2_ent h w p0 p1 X i j : (1 <= h)%nat -> shape h w X -> (i < h + p0)%nat -> (j < w + p1)%nat ->
  ent (pad2 p0 p1 X) i j = if (i <? h)%nat && (j <? w)%nat then ent X i j else 0.
Proof. intros Hh S Hi Hj. unfold pad2. rewrite (rows_shape _ _ _ S), (cols_shape _ _ _ Hh S). now rewrite ent_tab2. Qed.
Lemma pad_dot h w p0 p1 X C : (1 <= h)%nat -> shape h w X -> dot2 (h + p0) (w + p1) (pad2 p0 p1 X) C = dot2 h w X (blk h w C).
Proof.
  intros Hh S. rewrite (dot2_if (h + p0) (w + p1) h w) by lia. unfold dot2. apply rsum_ext. intros i Hi. apply rsum_ext. intros j Hj.
  rewrite (pad2_ent h w) by auto. destruct (Nat.ltb_spec i h), (Nat.ltb_spec j w); cbn [andb]; try ring. now rewrite blk_ent.
Qed.
Lemma blk_pad h w p0 p1 X : (1 <= h)%nat -> shape h w X -> blk h w (pad2 p0 p1 X) = X.
Proof. intros Hh S. apply (mat_ext h w); auto using blk_shape. intros i j Hi Hj. rewrite blk_ent by auto. rewrite (pad2_ent h w) by (auto; lia). lb. Qed.
Lemma np2_split n l : (l <= Nat.log2_up n)%nat -> exists q, (1 <= q)%nat /\ next_pow2 n = (2 ^ l * q)%nat.
Proof.
  intros H. exists (2 ^ (Nat.log2_up n - l))%nat. split; [pose proof (Nat.pow_nonzero 2 (Nat.log2_up n - l)); lia|].
  unfold next_pow2. rewrite <- Nat.pow_add_r. f_equal. lia.
Qed.
Lemma dwt2D_ok dwt1 idwt1 : orthogonal_filter_bank dwt1 idwt1 -> forall ml n0 n1 level ax0 T, (1 <= n0)%nat -> (1 <= n1)%nat -> (ax0 = A0 \/ n0 = n1) ->
  (level <= Nat.log2_up n0)%nat -> (level <= Nat.log2_up n1)%nat -> dwt2D dwt1 idwt1 ml n0 n1 level ax0 false = Some T ->
  let N0 := next_pow2 n0 in let N1 := next_pow2 n1 in
  out2 T = (N0, N1) /\ in2 T = (n0, n1) /\ adjoint_images N0 N1 n0 n1 (times2 T) (trans2 T) /\
  (forall X, shape n0 n1 X -> trans2 T (times2 T X) = X) /\
  (N0 = n0 -> N1 = n1 -> forall C, shape n0 n1 C -> times2 T (trans2 T C) = C).
Proof.
  intros (F1 & F2 & F3 & F4 & F5) ml n0 n1 level ax0 T H0 H1 Hax L0 L1 HT N0 N1.
  destruct (np2_split n0 level L0) as [p [Hp Ep]]. destruct (np2_split n1 level L1) as [q [Hq Eq]]. fold N0 in Ep. fold N1 in Eq.
  pose proof (next_pow2_ge n0) as G0. pose proof (next_pow2_ge n1) as G1. fold N0 in G0. fold N1 in G1.
  (* both axis orders lead to the same shape of operator *)
  assert (K : times2 T = (fun X => wavedec2 dwt1 ax0 (other ax0) (pad2 (N0 - n0) (N1 - n1) X) level) /\
    trans2 T = (fun C => sub2 0 (Nat.min n0 (rows (waverec2 idwt1 ax0 (other ax0) C level))) 0 (Nat.min n1 (cols (waverec2 idwt1 ax0 (other ax0) C level))) (waverec2 idwt1 ax0 (other ax0) C level)) /\
    out2 T = (N0, N1) /\ in2 T = (n0, n1)).
  { unfold dwt2D in HT. destruct Hax as [->|E].
    - destruct (level <=? _)%nat; [|discriminate]. injection HT as <-. repeat split.
    - unfold N0, N1. subst n1. destruct ax0; (destruct (level <=? _)%nat; [|discriminate]); injection HT as <-; repeat split. }
  clear HT. destruct K as (K1 & K2 & K3 & K4).
  assert (PS : forall X, shape n0 n1 X -> shape (2 ^ level * p) (2 ^ level * q) (pad2 (N0 - n0) (N1 - n1) X)).
  { intros X SX. rewrite <- Ep, <- Eq. replace N0 with (n0 + (N0 - n0))%nat at 1 by lia. replace N1 with (n1 + (N1 - n1))%nat at 1 by lia. now apply pad2_shape. }
  pose proof (pw level p Hp) as P1.
  assert (TR : forall C, shape (2 ^ level * p) (2 ^ level * q) C -> trans2 T C = blk n0 n1 (R2 idwt1 p q ax0 level C)).
  { intros C SC. rewrite K2. rewrite (waverec2_R2 idwt1 F2 p q Hp Hq) by auto. pose proof (R2_shape idwt1 F2 p q Hp Hq ax0 level C SC) as SR.
    rewrite (rows_shape _ _ _ SR), (cols_shape _ _ _ P1 SR). unfold blk. f_equal; lia. }
  assert (TI : forall X, shape n0 n1 X -> times2 T X = D2 dwt1 p q ax0 level (pad2 (N0 - n0) (N1 - n1) X)).
  { intros X SX. rewrite K1. apply (wavedec2_D2 dwt1 F1); auto. }
  assert (DS : forall X, shape n0 n1 X -> shape (2 ^ level * p) (2 ^ level * q) (times2 T X)) by (intros X SX; rewrite TI by auto; apply (D2_shape dwt1 F1); auto).
  split; [exact K3|]. split; [exact K4|]. split; [|split].
  - rewrite Ep, Eq. split; [exact DS|]. split; [intros C SC; rewrite TR by auto; apply blk_shape|].
    intros X C SX SC. rewrite TI, TR by auto. rewrite (D2_adj dwt1 idwt1 F1 F2 F5) by auto. rewrite <- Ep, <- Eq.
    replace N0 with (n0 + (N0 - n0))%nat at 1 by lia. replace N1 with (n1 + (N1 - n1))%nat at 1 by lia. now apply pad_dot.
  - intros X SX. rewrite TR by auto. rewrite TI by auto. rewrite (R2_D2 dwt1 idwt1 F1 F3) by auto. now apply blk_pad.
  - intros E0 E1 C SC. assert (SC' : shape (2 ^ level * p) (2 ^ level * q) C) by (rewrite <- Ep, <- Eq, E0, E1; exact SC).
    rewrite TR by auto. pose proof (R2_shape idwt1 F2 p q Hp Hq ax0 level C SC') as SR. rewrite TI by apply blk_shape.
    assert (SR' : shape n0 n1 (R2 idwt1 p q ax0 level C)) by (rewrite <- E0, <- E1, Ep, Eq; exact SR).
    rewrite (blk_all _ _ _ SR'). rewrite E0, E1, !Nat.sub_diag.
    assert (PZ : forall X, shape n0 n1 X -> pad2 0 0 X = X).
    { intros X SX. apply (mat_ext n0 n1); auto; [pose proof (pad2_shape n0 n1 0 0 X H0 SX) as Q; now rewrite !Nat.add_0_r in Q|]. intros i j Hi Hj. rewrite (pad2_ent n0 n1) by (auto; lia). lb. }
    rewrite PZ by auto. apply (D2_R2 dwt1 idwt1 F2 F4); auto.
Qed.
Lemma layout1 dwt1 idwt1 : orthogonal_filter_bank dwt1 idwt1 -> forall p q X, (1 <= p)%nat -> (1 <= q)%nat -> shape (2 * p) (2 * q) X ->
  exists Z, shape (2 * p) (2 * q) Z /\
    (forall j, (j < 2 * q)%nat -> column (2 * p) j Z = fst (dwt1 (column (2 * p) j X)) ++ snd (dwt1 (column (2 * p) j X))) /\
    (forall i, (i < 2 * p)%nat -> nth i (wavedec2 dwt1 A0 A1 X 1) [] = fst (dwt1 (nth i Z [])) ++ snd (dwt1 (nth i Z []))).
Proof.
  intros (F1 & F2 & F3 & F4 & F5) p q X Hp Hq S. exists (Cw dwt1 X).
  pose proof (Cw_shape dwt1 F1 p q Hp Hq (2 * q) X ltac:(lia) S) as SZ. split; [exact SZ|].
  pose proof (tr_shape (2 * p) (2 * q) X ltac:(lia) S) as T. pose proof (Rw_shape dwt1 F1 (2 * q) p _ T) as RT. split.
  - intros j Hj. change (fst (dwt1 ?a) ++ snd (dwt1 ?a)) with (w1 dwt1 a).
    assert (EX : column (2 * p) j X = nth j (transpose X) []).
    { unfold column, transpose. rewrite (rows_shape _ _ _ S), (cols_shape (2 * p) (2 * q) X ltac:(lia) S). unfold tab2r. now rewrite nth_tab. }
    assert (L : length (column (2 * p) j X) = (2 * p)%nat) by apply tab_length.
    apply list_eq_nth with (d := 0); [unfold column; rewrite tab_length; symmetry; now apply (w1_len dwt1 F1)|].
    intros i Hi. unfold column in Hi at 1. rewrite tab_length in Hi. unfold column at 1. rewrite nth_tab by auto. unfold Cw. rewrite (tr_ent (2 * q) (2 * p)) by (auto; lia).
    unfold ent, Rw. rewrite EX. f_equal. apply (nth_map' (w1 dwt1) (transpose X) (2 * q)); auto. apply T.
  - intros i Hi. pose proof (wavedec2_D2 dwt1 F1 p q Hp Hq A0 1 X) as E. cbn [Nat.pow] in E. replace (2 * 1 * p)%nat with (2 * p)%nat in E by lia. replace (2 * 1 * q)%nat with (2 * q)%nat in E by lia.
    change (other A0) with A1 in E. rewrite (E S). cbn [D2]. change (2 ^ 0)%nat with 1%nat. rewrite !Nat.mul_1_l.
    rewrite (set_blk (2 * p) (2 * q)) by (try lia; apply (step_shape dwt1 F1); auto). cbn [step]. unfold Rw.
    apply (nth_map' (w1 dwt1) (Cw dwt1 X) (2 * p)); auto. apply SZ.
Qed.
Lemma layout_rec dwt1 idwt1 : orthogonal_filter_bank dwt1 idwt1 -> forall l p q X, (1 <= p)%nat -> (1 <= q)%nat -> shape (2 * (2 ^ l * p)) (2 * (2 ^ l * q)) X ->
  let Y := wavedec2 dwt1 A0 A1 X 1 in let Z := wavedec2 dwt1 A0 A1 X (S l) in
  corner (2 ^ l * p) (2 ^ l * q) Z = wavedec2 dwt1 A0 A1 (corner (2 ^ l * p) (2 ^ l * q) Y) l /\
  forall i j, (i < 2 * (2 ^ l * p))%nat -> (j < 2 * (2 ^ l * q))%nat -> (2 ^ l * p <= i \/ 2 ^ l * q <= j)%nat -> ent Z i j = ent Y i j.
Proof.
  intros (F1 & F2 & F3 & F4 & F5) l p q X Hp Hq S Y Z. pose proof (pw l p Hp) as P1. pose proof (pw l q Hq) as P2.
  assert (CB : forall r c M, corner r c M = blk r c M) by (intros; unfold corner, blk, sub2, tab2r; now rewrite !Nat.sub_0_r). rewrite !CB.
  set (r := (2 ^ l * p)%nat) in *. set (c := (2 ^ l * q)%nat) in *.
  assert (EY : Y = step dwt1 A0 X).
  { pose proof (wavedec2_D2 dwt1 F1 r c P1 P2 A0 1 X) as E. cbn [Nat.pow] in E. replace (2 * 1 * r)%nat with (2 * r)%nat in E by lia. replace (2 * 1 * c)%nat with (2 * c)%nat in E by lia.
    change (other A0) with A1 in E. unfold Y. rewrite (E S). cbn [D2]. change (2 ^ 0)%nat with 1%nat. rewrite !Nat.mul_1_l.
    apply (set_blk (2 * r) (2 * c)); try lia; apply (step_shape dwt1 F1); auto. }
  assert (SY : shape (2 * r) (2 * c) Y) by (rewrite EY; apply (step_shape dwt1 F1); auto).
  assert (EZ : Z = set2 r c (D2 dwt1 p q A0 l (blk r c Y)) Y).
  { unfold Z. change A1 with (other A0). rewrite (wavedec2_D2 dwt1 F1 p q Hp Hq A0 (Datatypes.S l)) by (rewrite !pS; exact S). cbn [D2]. fold r c. now rewrite EY. }
  rewrite EZ. split.
  - rewrite (blk_set (2 * r) (2 * c)) by (auto; try lia; apply (D2_shape dwt1 F1); auto; apply blk_shape).
    change A1 with (other A0). symmetry. apply (wavedec2_D2 dwt1 F1); auto. apply blk_shape.
  - intros i j Hi Hj Hij. rewrite (set2_ent (2 * r) (2 * c)) by (auto; lia). lb.
Qed.
