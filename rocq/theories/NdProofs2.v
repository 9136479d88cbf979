From Coq Require Import List Arith Bool Lia ZArith Reals Lra Sorted.
From Verif Require Import Scalar Vec LopSpec LopModel LopLemmas LopProofs LopProofs5 FourierModel NdSpec NdModel NdProofs.
Import ListNotations.

Lemma Forall2_len {A B} (R : A -> B -> Prop) u v : Forall2 R u v -> length u = length v.
Proof. induction 1; cbn; auto. Qed.
(** *** placing values at axes *)
Lemma fold_upd_zip g : forall axes v1 v2 u v, length v1 = length v2 -> length u = length v ->
  zipw g (fold_left (fun l av => upd (fst av) (snd av) l) (combine axes v1) u)
         (fold_left (fun l av => upd (fst av) (snd av) l) (combine axes v2) v) =
  fold_left (fun l av => upd (fst av) (snd av) l) (combine axes (zipw g v1 v2)) (zipw g u v).
Proof.
  assert (U : forall a x y u v, length u = length v -> zipw g (upd a x u) (upd a y v) = upd a (g x y) (zipw g u v)).
  { induction a as [|a IH]; intros x y [|i u] [|j v] H; cbn in *; try discriminate; auto. f_equal. apply IH. lia. }
  induction axes as [|a axes IH]; intros v1 v2 u v H Hu; [reflexivity|].
  destruct v1 as [|x v1], v2 as [|y v2]; cbn in *; try discriminate; [reflexivity|].
  rewrite IH by (rewrite ?upd_length; auto; lia). now rewrite U.
Qed.
Lemma zipw_repeat (g : nat -> nat -> nat) a b d : zipw g (repeat a d) (repeat b d) = repeat (g a b) d.
Proof. induction d as [|d IH]; cbn; [reflexivity|]. f_equal. exact IH. Qed.
Lemma at_axes_zip g d a b axes v1 v2 : length v1 = length v2 ->
  zipw g (at_axes d a axes v1) (at_axes d b axes v2) = at_axes d (g a b) axes (zipw g v1 v2).
Proof. intros H. unfold at_axes. rewrite fold_upd_zip by (auto; now rewrite !repeat_length). now rewrite zipw_repeat. Qed.
Lemma fold_upd_length : forall l u, length (fold_left (fun l av => upd (fst av) (snd av) l) l u) = length u.
Proof. induction l as [|[a v] l IH]; intros u; cbn; [reflexivity|]. now rewrite IH, upd_length. Qed.
Lemma at_axes_length d a axes v : length (at_axes d a axes v) = d.
Proof. unfold at_axes. rewrite fold_upd_length. apply repeat_length. Qed.
Lemma at_axes_lt d axes o h : Forall2 lt o h -> Forall2 lt (at_axes d 0 axes o) (at_axes d 1 axes h).
Proof.
  intros H. unfold at_axes.
  assert (U : forall a x y u v, x < y -> Forall2 lt u v -> Forall2 lt (upd a x u) (upd a y v)).
  { induction a as [|a IH]; intros x y u v Hxy Huv; destruct Huv; cbn; constructor; auto. }
  assert (B : Forall2 lt (repeat 0 d) (repeat 1 d)) by (induction d; cbn; constructor; auto).
  revert B. generalize (repeat 0 d) (repeat 1 d). revert axes.
  induction H as [|x y o h Hxy H IH]; intros axes u v B; [destruct axes; exact B|].
  destruct axes as [|a axes]; [exact B|]. cbn. apply IH. now apply U.
Qed.
Lemma at_axes_S0 d u axes vals x : at_axes (S d) u (0 :: map S axes) (x :: vals) = x :: at_axes d u axes vals.
Proof.
  unfold at_axes. cbn. generalize (repeat u d). revert vals. induction axes as [|a axes IH]; intros vals l; [reflexivity|].
  destruct vals as [|y vals]; [reflexivity|]. cbn. apply IH.
Qed.
Lemma at_axes_S d u axes vals : at_axes (S d) u (map S axes) vals = u :: at_axes d u axes vals.
Proof.
  unfold at_axes. cbn. generalize (repeat u d). revert vals. induction axes as [|a axes IH]; intros vals l; [reflexivity|].
  destruct vals as [|y vals]; [reflexivity|]. cbn. apply IH.
Qed.
Lemma at_axes_seq d u : forall vals, length vals = d -> at_axes d u (seq 0 d) vals = vals.
Proof.
  induction d as [|d IH]; intros [|x vals] H; cbn in H; try discriminate; [reflexivity|].
  cbn [seq]. rewrite <- seq_shift, at_axes_S0. f_equal. apply IH. lia.
Qed.
Lemma place_S0 d u axes vals x : place (S d) u (0 :: map S axes) (x :: vals) = x :: place d u axes vals.
Proof.
  unfold place. cbn [seq map value_at Nat.eqb]. f_equal. rewrite <- seq_shift, map_map. apply map_ext. intros k. cbn [Nat.eqb].
  revert vals. induction axes as [|a axes IH]; intros vals; [reflexivity|]. destruct vals as [|y vals]; [reflexivity|]. cbn [map value_at]. rewrite IH. reflexivity.
Qed.
Lemma place_S d u axes vals : place (S d) u (map S axes) vals = u :: place d u axes vals.
Proof.
  unfold place. cbn [seq map]. f_equal.
  - revert vals. induction axes as [|a axes IH]; intros vals; [reflexivity|]. destruct vals as [|y vals]; [reflexivity|]. cbn. apply IH.
  - rewrite <- seq_shift, map_map. apply map_ext. intros k.
    revert vals. induction axes as [|a axes IH]; intros vals; [reflexivity|]. destruct vals as [|y vals]; [reflexivity|]. cbn [map value_at]. rewrite IH. reflexivity.
Qed.
(** increasing axes, by cases on whether axis 0 is listed *)
Lemma unshift l : Forall (fun a => 0 < a) l -> exists ax, l = map S ax.
Proof. induction 1 as [|[|a] l Ha H [ax E]]; [exists []; reflexivity|lia|]. exists (a :: ax). cbn. now f_equal. Qed.
Lemma incr_map d ax : increasing_axes (S d) (map S ax) -> increasing_axes d ax.
Proof.
  intros [A B]. split.
  - clear B. induction ax as [|a ax IH]; [constructor|]. cbn in A. inversion A; subst. constructor; [auto|].
    rewrite Forall_map in H2. eapply Forall_impl; [|exact H2]. cbn. intros; lia.
  - rewrite Forall_map in B. eapply Forall_impl; [|exact B]. cbn. intros; lia.
Qed.
Lemma incr_cases d axes : increasing_axes (S d) axes ->
  exists ax, increasing_axes d ax /\ (axes = map S ax \/ axes = 0 :: map S ax).
Proof.
  intros [A B]. destruct axes as [|a axes].
  - exists []. split; [split; constructor|now left].
  - inversion A; subst. inversion B; subst. destruct a as [|a].
    + destruct (unshift axes H2) as [ax ->]. exists ax. split; [|now right]. apply incr_map. split; auto.
    + destruct (unshift (S a :: axes)) as [ax E].
      { constructor; [lia|]. eapply Forall_impl; [|exact H2]. cbn. intros; lia. }
      exists ax. rewrite E in *. split; [|now left]. apply incr_map. split; auto.
Qed.
Lemma incr_0 axes : increasing_axes 0 axes -> axes = [].
Proof. intros [_ B]. destruct axes; [reflexivity|]. inversion B; lia. Qed.
Lemma at_axes_place d u : forall axes vals, increasing_axes d axes -> length vals = length axes -> at_axes d u axes vals = place d u axes vals.
Proof.
  induction d as [|d IH]; intros axes vals H L.
  - rewrite (incr_0 _ H). reflexivity.
  - destruct (incr_cases _ _ H) as [ax [Hx [-> | ->]]].
    + rewrite at_axes_S, place_S. f_equal. apply IH; auto. now rewrite L, map_length.
    + destruct vals as [|v vals]; [discriminate|]. rewrite at_axes_S0, place_S0. f_equal. apply IH; auto. cbn in L. rewrite map_length in L. lia.
Qed.
Lemma size_cons n s : size (n :: s) = n * size s. Proof. reflexivity. Qed.
Lemma size_place d : forall axes vals, increasing_axes d axes -> length vals = length axes -> size (place d 1 axes vals) = size vals.
Proof.
  induction d as [|d IH]; intros axes vals H L.
  - rewrite (incr_0 _ H) in L |- *. destruct vals; [reflexivity|discriminate].
  - destruct (incr_cases _ _ H) as [ax [Hx [-> | ->]]].
    + rewrite place_S, size_cons, IH; auto; [lia|]. now rewrite L, map_length.
    + destruct vals as [|v vals]; [discriminate|]. rewrite place_S0, !size_cons, IH; auto. cbn in L. rewrite map_length in L. lia.
Qed.
Lemma unravel_place d : forall axes hs k, increasing_axes d axes -> length hs = length axes -> k < size hs ->
  unravel (place d 1 axes hs) k = place d 0 axes (unravel hs k).
Proof.
  induction d as [|d IH]; intros axes hs k H L Hk.
  - rewrite (incr_0 _ H) in L |- *. reflexivity.
  - destruct (incr_cases _ _ H) as [ax [Hx [-> | ->]]].
    + rewrite map_length in L. rewrite place_S, place_S. cbn [unravel]. fold (size (place d 1 ax hs)). rewrite size_place by auto.
      rewrite Nat.div_small, Nat.mod_small by auto. f_equal. now apply IH.
    + destruct hs as [|s hs]; [discriminate|]. cbn in L. rewrite map_length in L. rewrite place_S0. cbn [unravel].
      fold (size (place d 1 ax hs)). fold (size hs). rewrite size_place by (auto; lia). rewrite place_S0. f_equal. apply IH; auto.
      apply Nat.mod_upper_bound. rewrite size_cons in Hk. intros E. rewrite E in Hk. lia.
Qed.

Section P.
  Variable K : scalar.
  Add Field KfieldNd2 : (s_field K).
  Local Open Scope scal_scope.
  Notation vec := (list K).
  Notation arr := (arr K).

  (** *** convolution *)
  Lemma xcorr_flip : forall hs shape (h x : arr) P, length hs = length shape -> length P = length shape ->
    xcorr_nd shape hs (fun q => h (flip_idx hs q)) x P = ndsum hs (fun q => h q * at_difference shape x P q).
  Proof.
    unfold xcorr_nd. induction hs as [|s hs IH]; intros [|n shape] h x [|i P] L LP; cbn in L, LP; try discriminate; [reflexivity|].
    cbn [ndsum]. rewrite Sum_rev. apply Sum_ext. intros j Hj. cbn [padded at_difference].
    replace (s - 1 <=? i + (s - 1 - j))%nat with (j <=? i)%nat by (destruct (Nat.leb_spec j i), (Nat.leb_spec (s - 1) (i + (s - 1 - j))); auto; lia).
    destruct (Nat.leb_spec j i) as [Hji|Hji]; cbn [andb].
    - replace (i + (s - 1 - j) - (s - 1))%nat with (i - j)%nat by lia.
      destruct (Nat.ltb_spec (i - j) n).
      + rewrite <- (IH shape (fun q => h (j :: q)) (fun r => x ((i - j)%nat :: r)) P) by lia.
        apply ndsum_ext. intros q _. unfold flip_idx. cbn [zipw]. replace (s - 1 - (s - 1 - j))%nat with j by lia. reflexivity.
      + rewrite !ndsum_mul_r. ring.
    - rewrite !ndsum_mul_r. ring.
  Qed.
  Lemma shift_sum n f j (G : nat -> nat -> K) :
    Sum n (fun i => if (j <=? f + i)%nat && (f + i - j <? n)%nat then G (f + i - j)%nat i else s0) =
    Sum n (fun r => if (f <=? r + j)%nat && (r + j - f <? n)%nat then G r (r + j - f)%nat else s0).
  Proof.
    transitivity (Sum n (fun i => Sum n (fun r => if (r + j =? f + i)%nat then G r i else s0))).
    - apply Sum_ext. intros i Hi. destruct (Nat.leb_spec j (f + i)), (Nat.ltb_spec (f + i - j) n); cbn [andb].
      + rewrite (@Sum_single K n (f + i - j)) by (auto; intros r Hr Hne; (destruct (Nat.eqb_spec (r + j) (f + i)); [lia|reflexivity])).
        replace (f + i - j + j =? f + i)%nat with true by (symmetry; apply Nat.eqb_eq; lia). reflexivity.
      + symmetry. apply Sum_0'. intros r Hr. destruct (Nat.eqb_spec (r + j) (f + i)); [lia|reflexivity].
      + symmetry. apply Sum_0'. intros r Hr. destruct (Nat.eqb_spec (r + j) (f + i)); [lia|reflexivity].
      + symmetry. apply Sum_0'. intros r Hr. destruct (Nat.eqb_spec (r + j) (f + i)); [lia|reflexivity].
    - rewrite Sum_exchange. apply Sum_ext. intros r Hr. destruct (Nat.leb_spec f (r + j)), (Nat.ltb_spec (r + j - f) n); cbn [andb].
      + rewrite (@Sum_single K n (r + j - f)) by (auto; intros i Hi Hne; (destruct (Nat.eqb_spec (r + j) (f + i)); [lia|reflexivity])).
        replace (r + j =? f + (r + j - f))%nat with true by (symmetry; apply Nat.eqb_eq; lia). reflexivity.
      + apply Sum_0'. intros i Hi. destruct (Nat.eqb_spec (r + j) (f + i)); [lia|reflexivity].
      + apply Sum_0'. intros i Hi. destruct (Nat.eqb_spec (r + j) (f + i)); [lia|reflexivity].
      + apply Sum_0'. intros i Hi. destruct (Nat.eqb_spec (r + j) (f + i)); [lia|reflexivity].
  Qed.
  Lemma shift_adjoint : forall shape hs f q (x y : arr), length hs = length shape -> Forall2 lt f hs -> length q = length shape ->
    ndsum shape (fun p => star (at_difference shape x (zip_add f p) q) * y p) =
    ndsum shape (fun p => star (x p) * padded shape hs y (zip_add (zipw (fun s o => (s - 1 - o)%nat) hs f) p) q).
  Proof.
    induction shape as [|n shape IH]; intros hs f q x y L F Lq.
    - destruct hs; [|discriminate]. inversion F; subst. reflexivity.
    - inversion F as [|f0 s f' hs' Hfs F' Ef Eh]; subst; [discriminate|]. destruct q as [|j q]; [discriminate|]. cbn in L, Lq.
      cbn [ndsum]. unfold zip_add. cbn [zipw]. fold zip_add.
      set (a := zipw (fun s o => (s - 1 - o)%nat) hs' f').
      set (G := fun r i => ndsum shape (fun p => star (x (r :: p)) * padded shape hs' (fun p => y (i :: p)) (zip_add a p) q)).
      transitivity (Sum n (fun i => if (j <=? f0 + i)%nat && (f0 + i - j <? n)%nat then G (f0 + i - j)%nat i else s0)).
      + apply Sum_ext. intros i Hi. cbn [zipw at_difference]. destruct ((j <=? f0 + i)%nat && (f0 + i - j <? n)%nat).
        * exact (IH hs' f' q (fun r => x ((f0 + i - j)%nat :: r)) (fun p => y (i :: p)) ltac:(lia) F' ltac:(lia)).
        * rewrite (ndsum_ext _ _ _ (fun _ => s0)) by (intros; rewrite star_0; ring). apply ndsum_0.
      + rewrite shift_sum. apply Sum_ext. intros r Hr. cbn [zipw padded].
        replace (s - 1 <=? s - 1 - f0 + r + j)%nat with (f0 <=? r + j)%nat by (destruct (Nat.leb_spec f0 (r + j)), (Nat.leb_spec (s - 1) (s - 1 - f0 + r + j)); auto; lia).
        destruct (Nat.leb_spec f0 (r + j)) as [Hf|Hf]; cbn [andb].
        * replace (s - 1 - f0 + r + j - (s - 1))%nat with (r + j - f0)%nat by lia. destruct (Nat.ltb_spec (r + j - f0) n); [reflexivity|].
          rewrite (ndsum_ext _ _ _ (fun _ => s0)) by (intros; ring). now rewrite ndsum_0.
        * rewrite (ndsum_ext _ _ _ (fun _ => s0)) by (intros; ring). now rewrite ndsum_0.
  Qed.
  Lemma ndsum_swap s t : forall f : list nat -> list nat -> K, ndsum s (fun p => ndsum t (fun q => f p q)) = ndsum t (fun q => ndsum s (fun p => f p q)).
  Proof.
    induction s as [|n s IH]; intros f; cbn [ndsum]; [reflexivity|]. rewrite <- ndsum_Sum. apply Sum_ext. intros i Hi. apply IH.
  Qed.
  Lemma in_range_length shape p : in_range shape p -> length p = length shape.
  Proof. apply Forall2_len. Qed.
  Lemma zip_add_length f p : length f = length p -> length (zip_add f p) = length p.
  Proof. intros H. unfold zip_add. revert f H. induction p as [|i p IH]; intros [|j f] H; cbn in *; try discriminate; auto. Qed.
  Lemma conv_adjoint_gen shape (c : convnd K) x y : length (cn_hs c) = length shape -> Forall2 lt (cn_f c) (cn_hs c) ->
    cn_a c = zipw (fun s o => (s - 1 - o)%nat) (cn_hs c) (cn_f c) -> (forall q, in_range (cn_hs c) q -> star (cn_h c q) = cn_h c q) ->
    ndinner shape (conv_times shape c x) y = ndinner shape x (conv_trans shape c y).
  Proof.
    intros L F Ea Hr. unfold ndinner. pose proof (Forall2_len _ _ _ F) as LF.
    rewrite (ndsum_ext _ shape _ (fun p => ndsum (cn_hs c) (fun q => cn_h c q * (star (at_difference shape x (zip_add (cn_f c) p) q) * y p)))).
    - rewrite (ndsum_ext _ shape (fun p => star (x p) * _) (fun p => ndsum (cn_hs c) (fun q => cn_h c q * (star (x p) * padded shape (cn_hs c) y (zip_add (cn_a c) p) q)))).
      + rewrite ndsum_swap. rewrite (ndsum_swap shape). apply ndsum_ext. intros q Hq. rewrite !ndsum_mul_l. f_equal. rewrite Ea.
        apply shift_adjoint; auto. rewrite (in_range_length _ _ Hq). auto.
      + intros p Hp. unfold conv_trans, xcorr_nd. rewrite <- ndsum_mul_l. apply ndsum_ext. intros q Hq. ring.
    - intros p Hp. pose proof (in_range_length _ _ Hp) as Lp. unfold conv_times. rewrite xcorr_flip by (auto; rewrite zip_add_length; congruence).
      rewrite star_ndsum, <- ndsum_mul_r. apply ndsum_ext. intros q Hq. rewrite star_mul, Hr by auto. ring.
  Qed.
  Lemma conv_adjoint shape hshape (h : arr) offset axes c x y : conv_setup shape hshape h offset axes = Some c ->
    Forall2 lt offset hshape -> (length shape = length hshape -> axes = seq 0 (length shape)) ->
    (forall q, star (h q) = h q) ->
    ndinner shape (conv_times shape c x) y = ndinner shape x (conv_trans shape c y).
  Proof.
    intros H F Hax Hr. unfold conv_setup in H. pose proof (Forall2_len _ _ _ F) as LF. rewrite LF, Nat.eqb_refl in H.
    destruct (Nat.eqb_spec (length shape) (length hshape)) as [E|E].
    - specialize (Hax E). subst axes. injection H as <-.
      rewrite !at_axes_seq by (try congruence; rewrite zipw_length; lia).
      apply conv_adjoint_gen; cbn [cn_hs cn_h cn_f cn_a]; auto.
    - unfold jnp_reshape in H. destruct (size hshape =? size (at_axes (length shape) 1 axes hshape))%nat; [|discriminate]. injection H as <-.
      apply conv_adjoint_gen; cbn [cn_hs cn_h cn_f cn_a]; auto.
      + apply at_axes_length.
      + now apply at_axes_lt.
      + rewrite at_axes_zip by auto. reflexivity.
  Qed.
  Lemma conv_entries shape hshape (h : arr) offset axes : length offset = length hshape -> length axes = length hshape ->
    increasing_axes (length shape) axes ->
    exists c, conv_setup shape hshape h offset axes = Some c /\
      forall x p, in_range shape p -> conv_times shape c x p =
        ndsum hshape (fun q => h q * at_difference shape x (zip_add (place (length shape) 0 axes offset) p) (place (length shape) 0 axes q)).
  Proof.
    intros LO LA HI. unfold conv_setup. rewrite LO, Nat.eqb_refl. set (d := length shape) in *.
    destruct (Nat.eqb_spec d (length hshape)) as [E|E].
    - eexists. split; [reflexivity|]. intros x p Hp. unfold conv_times. cbn [cn_hs cn_h cn_f].
      pose proof (in_range_length _ _ Hp) as Lp.
      rewrite xcorr_flip by (auto; rewrite zip_add_length; rewrite ?at_axes_length; unfold d; congruence).
      rewrite at_axes_place by (auto; congruence). apply ndsum_ext. intros q Hq. f_equal. f_equal.
      assert (EA : axes = seq 0 d).
      { clear -HI LA E. rewrite <- E in LA. clear E. revert axes HI LA. induction d as [|d IH]; intros axes H L; [destruct axes; [reflexivity|discriminate]|].
        destruct (incr_cases _ _ H) as [ax [Hx [-> | ->]]].
        - exfalso. rewrite map_length in L. assert (W : forall d axes, increasing_axes d axes -> (length axes <= d)%nat).
          { clear. induction d as [|d IH]; intros axes H; [rewrite (incr_0 _ H); auto|].
            destruct (incr_cases _ _ H) as [ax [Hx [-> | ->]]]; cbn; rewrite map_length; specialize (IH _ Hx); lia. }
          specialize (W _ _ Hx). lia.
        - cbn [seq]. rewrite <- seq_shift. f_equal. f_equal. apply IH; auto. cbn in L. rewrite map_length in L. lia. }
      rewrite <- at_axes_place by (auto; rewrite (in_range_length _ _ Hq); congruence).
      rewrite EA, at_axes_seq; auto. rewrite (in_range_length _ _ Hq). auto.
    - rewrite !at_axes_place by (auto; try congruence; rewrite zipw_length; lia).
      unfold jnp_reshape. rewrite size_place by auto. rewrite Nat.eqb_refl. eexists. split; [reflexivity|].
      intros x p Hp. unfold conv_times. cbn [cn_hs cn_h cn_f].
      pose proof (in_range_length _ _ Hp) as Lp.
      assert (LP : forall u v, length (place d u axes v) = d) by (intros; unfold place; now rewrite map_length, seq_length).
      rewrite (xcorr_flip (place d 1 axes hshape) shape (fun q => h (unravel hshape (ravel (place d 1 axes hshape) q)))) by (rewrite ?zip_add_length; rewrite ?LP; unfold d; congruence).
      rewrite !ndsum_unravel, size_place by auto. apply Sum_ext. intros k Hk.
      rewrite ravel_unravel by (now rewrite size_place). now rewrite unravel_place.
  Qed.
  (** *** operators applied along an axis *)
  Lemma axis_norm nd axis a : axis_is nd axis a -> norm_axis nd axis = Some a.
  Proof.
    intros [Ha [E | E]]; unfold norm_axis; subst axis.
    - destruct (Z.leb_spec 0 (Z.of_nat a)), (Z.ltb_spec (Z.of_nat a) (Z.of_nat nd)); cbn; try lia. now rewrite Nat2Z.id.
    - destruct (Z.leb_spec 0 (Z.of_nat a - Z.of_nat nd)); cbn [andb]; [lia|].
      destruct (Z.leb_spec (- Z.of_nat nd) (Z.of_nat a - Z.of_nat nd)), (Z.ltb_spec (Z.of_nat a - Z.of_nat nd) 0); cbn [andb]; try lia. f_equal. lia.
  Qed.
  Lemma norm_axis_is nd axis a : norm_axis nd axis = Some a -> axis_is nd axis a.
  Proof.
    unfold norm_axis, axis_is. destruct (Z.leb_spec 0 axis), (Z.ltb_spec axis (Z.of_nat nd)); cbn; try (intros [= <-]; lia);
    destruct (Z.leb_spec (- Z.of_nat nd) axis), (Z.ltb_spec axis 0); cbn; try (intros [= <-]; lia); discriminate.
  Qed.
  Lemma ndinner_same shape (x x' y y' : arr) : same_array shape x x' -> same_array shape y y' -> ndinner shape x y = ndinner shape x' y'.
  Proof. intros H H'. apply ndsum_ext. intros p Hp. now rewrite H, H'. Qed.
  Lemma in_range_upd a m : forall shape p k, in_range shape p -> (k < m)%nat -> in_range (upd a m shape) (upd a k p).
  Proof. induction a as [|a IH]; intros shape p k H Hk; inversion H; subst; cbn; constructor; auto. apply IH; auto. Qed.
  Lemma fibre_same shape a (x y : arr) p : same_array shape x y -> (forall k, (k < nth a shape 0)%nat -> in_range shape (upd a k p)) ->
    fibre shape a x p = fibre shape a y p.
  Proof. intros H Hp. apply tab_ext. intros k Hk. apply H. auto. Qed.

  Lemma along_applies m n f a shape (x y : arr) : (forall v, length v = n -> length (f v) = m) -> (a < length shape)%nat -> nth a shape 0%nat = n ->
    same_array (upd a m shape) y (along K f n a x) -> applies m f a shape x y.
  Proof.
    intros Hf Ha Hn H p Hp. rewrite <- (along_fibre K m n f a shape x p); auto.
    - apply fibre_same; auto. intros k Hk. rewrite nth_upd in Hk by auto. now apply in_range_upd.
    - now rewrite (in_range_length _ _ Hp).
  Qed.
  Lemma upd_nth_same a : forall shape, upd a (nth a shape 0%nat) shape = shape.
  Proof. induction a as [|a IH]; intros [|n shape]; cbn; auto. now rewrite IH. Qed.

  Lemma apply_along_eq f axis shape (x : arr) a : axis_is (length shape) axis a -> apply_along_axis f axis shape x = Some (along K f (nth a shape 0%nat) a x) \/
    (length shape = 1%nat /\ a = 0%nat /\ exists y, apply_along_axis f axis shape x = Some y /\ forall p, length p = 1%nat -> y p = along K f (nth a shape 0%nat) a x p).
  Proof.
    intros H. unfold apply_along_axis. destruct (Nat.eqb_spec (length shape) 1) as [E|E].
    - right. destruct H as [Ha _]. assert (a = 0%nat) by lia. subst a. split; [auto|split; [auto|]]. eexists. split; [reflexivity|].
      intros [|i [|j p]] Lp; try discriminate. reflexivity.
    - left. unfold jnp_along. now rewrite (axis_norm _ _ _ H).
  Qed.
  Lemma apply_along_same m f axis shape (x : arr) a : axis_is (length shape) axis a ->
    exists y, apply_along_axis f axis shape x = Some y /\ same_array (upd a m shape) y (along K f (nth a shape 0%nat) a x).
  Proof.
    intros H. destruct (apply_along_eq f axis shape x a H) as [E | [L [-> [y [E Hy]]]]].
    - eexists. split; [exact E|]. intros p _. reflexivity.
    - exists y. split; [exact E|]. intros p Hp. apply Hy. now rewrite (in_range_length _ _ Hp), upd_length.
  Qed.
  Lemma adjoint_by_along m n f g a shape (x y fx gy : arr) : is_adjoint m n f g -> (a < length shape)%nat -> nth a shape 0%nat = n ->
    same_array (upd a m shape) fx (along K f n a x) -> same_array shape gy (along K g m a y) ->
    ndinner (upd a m shape) fx y = ndinner shape x gy.
  Proof.
    intros H Ha Hn Hx Hy. rewrite (ndinner_same _ fx (along K f n a x) y y Hx) by (intros p _; reflexivity).
    rewrite (ndinner_same _ x x gy (along K g m a y)) by (auto; intros p _; reflexivity). now apply along_adjoint.
  Qed.
  Lemma apply_along_adjoint m n f g axis a shape (x y : arr) : is_adjoint m n f g -> axis_is (length shape) axis a -> nth a shape 0%nat = n ->
    exists fx gy, apply_along_axis f axis shape x = Some fx /\ apply_along_axis g axis (upd a m shape) y = Some gy /\
      applies m f a shape x fx /\ applies n g a (upd a m shape) y gy /\
      ndinner (upd a m shape) fx y = ndinner shape x gy.
  Proof.
    intros H Ha Hn. pose proof (proj1 Ha) as La.
    destruct (apply_along_same m f axis shape x a Ha) as [fx [E Hfx]].
    destruct (apply_along_same n g axis (upd a m shape) y a) as [gy [E' Hgy]]; [now rewrite upd_length|].
    rewrite nth_upd in Hgy by auto. rewrite Hn in Hfx.
    exists fx, gy. repeat split; auto.
    - eapply along_applies; eauto. exact (proj1 H).
    - apply (along_applies n m); auto; [exact (proj1 (proj2 H))|now rewrite upd_length|now rewrite nth_upd].
    - eapply adjoint_by_along; eauto. rewrite upd_upd, <- Hn, upd_nth_same in Hgy. exact Hgy.
  Qed.
  Lemma apply_along_1d f axis n (x : arr) : exists y, apply_along_axis f axis [n] x = Some y.
  Proof. eexists. reflexivity. Qed.

  (** *** matrix *)
  Lemma vecmat_nth m n (A : list vec) : wf_mat m n A -> forall y j, length y = m -> (j < n)%nat ->
    nth j (vecmat n y A) s0 = Sum m (fun i => nth i y s0 * nth j (nth i A []) s0).
  Proof.
    intros [Hm Hr]. revert m Hm Hr. induction A as [|r A IH]; intros m Hm Hr [|b y] j Hy Hj; cbn in Hm, Hy; subst m; try discriminate.
    - cbn. unfold vzero. apply nth_repeat_same.
    - change (vecmat n (b :: y) (r :: A)) with (vadd (vscale b r) (vecmat n y A)).
      assert (Lr : length r = n) by (apply Hr; left; reflexivity).
      unfold vadd. rewrite (@nth_zipw _ _ _ _ _ _ _ s0 s0).
      + rewrite Sum_S_l. cbn [nth]. f_equal.
        * unfold vscale. rewrite (@nth_map_lt _ _ _ _ _ s0) by lia. reflexivity.
        * apply (IH (length A)); auto; [intros; apply Hr; now right].
      + unfold vscale. rewrite map_length. lia.
      + rewrite vecmat_length; auto. intros; apply Hr; now right.
  Qed.
  Lemma matvec_nth m n (A : list vec) x i : wf_mat m n A -> length x = n -> (i < m)%nat ->
    nth i (matvec A x) s0 = Sum n (fun j => nth j (nth i A []) s0 * nth j x s0).
  Proof. intros H Hx Hi. exact (@matrix_meaning K m n A true x i H Hx Hi). Qed.
  Lemma matrix_times_along m n (A : list vec) axis a shape x : wf_mat m n A -> axis_is (length shape) axis a ->
    ~ (length shape = 2%nat /\ axis = (-2)%Z) -> nth a shape 0%nat = n ->
    exists y, matrix_times n A axis shape x = Some y /\ same_array (upd a m shape) y (along K (matvec A) n a x).
  Proof.
    intros W Ha Hne Hn. destruct shape as [|r [|c [|e shape]]].
    - destruct Ha; cbn in *; lia.
    - destruct Ha as [Ha _]. cbn in Ha. assert (a = 0%nat) by lia. subst a. cbn in Hn. subst r. eexists. split; [reflexivity|].
      intros p Hp. inversion Hp; subst. inversion H3; subst. reflexivity.
    - destruct Ha as [Ha Hax]. cbn in Ha, Hax. unfold matrix_times. destruct a as [|[|a]]; [| |lia].
      + assert (axis = 0%Z) by (destruct Hax; [auto|]; exfalso; apply Hne; split; [reflexivity|lia]). subst axis. cbn in Hn. subst r.
        eexists. split; [reflexivity|]. intros p Hp. cbn in Hp. inversion Hp as [|i ? p' ? Hi Hp' E1 E2]; subst. inversion Hp' as [|j ? p'' ? Hj Hp'' E1 E2]; subst. inversion Hp''; subst.
        unfold matmul, along. cbn [nth upd]. rewrite (matvec_nth m n) by (auto; apply tab_length). apply Sum_ext. intros l Hl. rewrite nth_tab by auto. reflexivity.
      + destruct (Z.eqb_spec axis 0); [lia|]. cbn in Hn. subst c.
        eexists. split; [reflexivity|]. intros p Hp. cbn in Hp. inversion Hp as [|i ? p' ? Hi Hp' E1 E2]; subst. inversion Hp' as [|j ? p'' ? Hj Hp'' E1 E2]; subst. inversion Hp''; subst.
        unfold matmul, along. cbn [nth upd rev app]. rewrite (matvec_nth m n) by (auto; apply tab_length). apply Sum_ext. intros l Hl. rewrite nth_tab by auto. cbn. ring.
    - eexists. split; [unfold matrix_times, jnp_along; rewrite (axis_norm _ _ _ Ha); reflexivity|]. rewrite Hn. intros p _. reflexivity.
  Qed.
  Lemma matrix_trans_along m n (A : list vec) axis a shape x : wf_mat m n A -> axis_is (length shape) axis a ->
    ~ (length shape = 2%nat /\ axis = (-2)%Z) -> nth a shape 0%nat = m ->
    exists y, matrix_trans m n A axis shape x = Some y /\ same_array (upd a n shape) y (along K (fun x => vstar (vecmat n (vstar x) A)) m a x).
  Proof.
    intros W Ha Hne Hn.
    assert (T : forall v j, length v = m -> (j < n)%nat -> nth j (vstar (vecmat n (vstar v) A)) s0 = Sum m (fun i => nth i v s0 * star (nth j (nth i A []) s0))).
    { intros v j Lv Hj. unfold vstar at 1. rewrite (@nth_map_lt _ _ _ _ _ s0) by (rewrite vecmat_length; [auto|apply W]).
      rewrite (vecmat_nth m) by (auto; unfold vstar; now rewrite map_length). rewrite star_Sum. apply Sum_ext. intros i Hi.
      rewrite star_mul. unfold vstar. rewrite (@nth_map_lt _ _ _ _ _ s0) by lia. now rewrite star_star. }
    destruct shape as [|r [|c [|e shape]]].
    - destruct Ha; cbn in *; lia.
    - destruct Ha as [Ha _]. cbn in Ha. assert (a = 0%nat) by lia. subst a. cbn in Hn. subst r. eexists. split; [reflexivity|].
      intros p Hp. inversion Hp; subst. inversion H3; subst. reflexivity.
    - destruct Ha as [Ha Hax]. cbn in Ha, Hax. unfold matrix_trans. destruct a as [|[|a]]; [| |lia].
      + assert (axis = 0%Z) by (destruct Hax; [auto|]; exfalso; apply Hne; split; [reflexivity|lia]). subst axis. cbn in Hn. subst r.
        eexists. split; [reflexivity|]. intros p Hp. cbn in Hp. inversion Hp as [|i ? p' ? Hi Hp' E1 E2]; subst. inversion Hp' as [|j ? p'' ? Hj Hp'' E1 E2]; subst. inversion Hp''; subst.
        unfold matmul, along. cbn [nth upd rev app]. rewrite T by (auto; apply tab_length). apply Sum_ext. intros l Hl. rewrite nth_tab by auto. cbn. ring.
      + destruct (Z.eqb_spec axis 0); [lia|]. cbn in Hn. subst c.
        eexists. split; [reflexivity|]. intros p Hp. cbn in Hp. inversion Hp as [|i ? p' ? Hi Hp' E1 E2]; subst. inversion Hp' as [|j ? p'' ? Hj Hp'' E1 E2]; subst. inversion Hp''; subst.
        unfold matmul, along. cbn [nth upd]. rewrite T by (auto; apply tab_length). apply Sum_ext. intros l Hl. rewrite nth_tab by auto. reflexivity.
    - eexists. split; [unfold matrix_trans, jnp_along; rewrite (axis_norm _ _ _ Ha); reflexivity|]. rewrite Hn. intros p _. reflexivity.
  Qed.
  Lemma nd_op_spec m n f g a shape (x y fx gy : arr) : is_adjoint m n f g -> (a < length shape)%nat -> nth a shape 0%nat = n ->
    same_array (upd a m shape) fx (along K f n a x) -> same_array (upd a n (upd a m shape)) gy (along K g m a y) ->
    applies m f a shape x fx /\ applies n g a (upd a m shape) y gy /\ ndinner (upd a m shape) fx y = ndinner shape x gy.
  Proof.
    intros H La Hn Hfx Hgy. repeat split.
    - eapply along_applies; eauto. exact (proj1 H).
    - apply (along_applies n m); auto; [exact (proj1 (proj2 H))|now rewrite upd_length|now rewrite nth_upd].
    - eapply adjoint_by_along; eauto. rewrite upd_upd, <- Hn, upd_nth_same in Hgy. exact Hgy.
  Qed.
  Lemma matrix_nd m n (A : list vec) axis a shape (x y : arr) : wf_mat m n A -> axis_is (length shape) axis a ->
    ~ (length shape = 2%nat /\ axis = (-2)%Z) -> nth a shape 0%nat = n ->
    exists fx gy, matrix_times n A axis shape x = Some fx /\ matrix_trans m n A axis (upd a m shape) y = Some gy /\
      applies m (matvec A) a shape x fx /\ applies n (fun v => vstar (vecmat n (vstar v) A)) a (upd a m shape) y gy /\
      ndinner (upd a m shape) fx y = ndinner shape x gy.
  Proof.
    intros W Ha Hne Hn.
    destruct (matrix_times_along m n A axis a shape x W Ha Hne Hn) as [fx [E Hfx]].
    destruct (matrix_trans_along m n A axis a (upd a m shape) y W) as [gy [E' Hgy]]; [now rewrite upd_length|now rewrite upd_length|rewrite nth_upd; [auto|apply Ha]|].
    exists fx, gy. split; [auto|split; [auto|]].
    apply nd_op_spec; auto; [|apply Ha]. exact (proj2 (proj2 (@matrix_adjoint K m n A true W))).
  Qed.

  (** *** restriction *)
  Lemma gather_nth (v : vec) I i : (i < length I)%nat -> nth i (gather v I) s0 = nth (nth i I 0%nat) v s0.
  Proof. intros H. unfold gather. now rewrite (@nth_map_lt _ _ _ _ _ 0%nat). Qed.
  Lemma restriction_times_along n I axis a shape (x : arr) : (forall i, In i I -> (i < n)%nat) -> axis_is (length shape) axis a ->
    ~ (length shape = 2%nat /\ axis = (-2)%Z) -> nth a shape 0%nat = n ->
    exists y, restriction_times I axis shape x = Some y /\ same_array (upd a (length I) shape) y (along K (fun v => gather v I) n a x).
  Proof.
    intros HI Ha Hne Hn.
    assert (HN : forall i, (i < length I)%nat -> (nth i I 0 < n)%nat) by (intros; apply HI, nth_In; auto).
    destruct shape as [|r [|c [|e shape]]].
    - destruct Ha; cbn in *; lia.
    - destruct Ha as [Ha _]. cbn in Ha. assert (a = 0%nat) by lia. subst a. cbn in Hn. subst r. eexists. split; [reflexivity|].
      intros p Hp. inversion Hp; subst. inversion H3; subst. unfold along. cbn [nth upd]. rewrite gather_nth by auto. rewrite nth_tab by auto. reflexivity.
    - destruct Ha as [Ha Hax]. cbn in Ha, Hax. unfold restriction_times. destruct a as [|[|a]]; [| |lia].
      + assert (axis = 0%Z) by (destruct Hax; [auto|]; exfalso; apply Hne; split; [reflexivity|lia]). subst axis. cbn in Hn. subst r.
        eexists. split; [reflexivity|]. intros p Hp. cbn in Hp. inversion Hp as [|i ? p' ? Hi Hp' E1 E2]; subst. inversion Hp' as [|j ? p'' ? Hj Hp'' E1 E2]; subst. inversion Hp''; subst.
        unfold along. cbn [nth upd]. rewrite gather_nth, nth_tab by auto. reflexivity.
      + destruct (Z.eqb_spec axis 0); [lia|]. cbn in Hn. subst c.
        eexists. split; [reflexivity|]. intros p Hp. cbn in Hp. inversion Hp as [|i ? p' ? Hi Hp' E1 E2]; subst. inversion Hp' as [|j ? p'' ? Hj Hp'' E1 E2]; subst. inversion Hp''; subst.
        unfold along. cbn [nth upd]. rewrite gather_nth, nth_tab by auto. reflexivity.
    - eexists. split; [unfold restriction_times, jnp_along; rewrite (axis_norm _ _ _ Ha); reflexivity|]. rewrite Hn. intros p _. reflexivity.
  Qed.
  Lemma restriction_nd n I axis a shape (x y : arr) : NoDup I -> (forall i, In i I -> (i < n)%nat) -> axis_is (length shape) axis a ->
    ~ (length shape = 2%nat /\ axis = (-2)%Z) -> nth a shape 0%nat = n ->
    exists fx gy, restriction_times I axis shape x = Some fx /\ restriction_trans n I axis (upd a (length I) shape) y = Some gy /\
      applies (length I) (fun v : vec => gather v I) a shape x fx /\ applies n (fun v : vec => scatter I v (vzero n)) a (upd a (length I) shape) y gy /\
      ndinner (upd a (length I) shape) fx y = ndinner shape x gy.
  Proof.
    intros ND HI Ha Hne Hn.
    destruct (restriction_times_along n I axis a shape x HI Ha Hne Hn) as [fx [E Hfx]].
    destruct (apply_along_same n (fun v => scatter I v (vzero n)) axis (upd a (length I) shape) y a) as [gy [E' Hgy]]; [now rewrite upd_length|].
    rewrite nth_upd in Hgy by apply Ha.
    exists fx, gy. split; [auto|split; [auto|]].
    apply nd_op_spec; auto; [|apply Ha]. exact (proj2 (proj2 (@restriction_adjoint K n I ND HI))).
  Qed.
End P.
