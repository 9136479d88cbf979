(** Inverses, transposes, dense form, positivity, 2-D operators, refutations. *)
From Coq Require Import List Arith Bool Lia Reals Lra Psatz.
From Verif Require Import Scalar Vec LopSpec LopOpSpec LopModel LopModel2D LopLemmas LopProofs LopProofs2.
Import ListNotations.
Set Implicit Arguments.

Section P3.
  Variable K : scalar.
  Add Field KfieldP3 : (s_field K).
  Local Open Scope scal_scope.
  Notation vec := (list K).
  Notation "x @ i" := (nth i x s0) (at level 5, i at level 4).

  (** *** C05 *)
  Lemma diff_cumsum_inv (x : vec) : times (op_diff (length x)) (times (op_cumsum (length x)) x) = x.
  Proof.
    cbn [op_diff op_inv_heaviside op_cumsum op_heaviside times mkop].
    apply list_eq_nth with (d:=s0).
    - now rewrite jdiff_pre_length, cumsum_length.
    - rewrite jdiff_pre_length, cumsum_length. intros i Hi.
      rewrite jdiff_pre_nth by (now rewrite cumsum_length).
      rewrite !cumsum_nth by lia.
      destruct i as [|i].
      + simpl. ring.
      + replace (S i - 1)%nat with i by lia. simpl (S i =? 0). cbv iota.
        cbn [Sum]. ring.
  Qed.

  Lemma cumsum_diff_inv (x : vec) : times (op_cumsum (length x)) (times (op_diff (length x)) x) = x.
  Proof.
    cbn [op_diff op_inv_heaviside op_cumsum op_heaviside times mkop].
    apply list_eq_nth with (d:=s0).
    - now rewrite cumsum_length, jdiff_pre_length.
    - rewrite cumsum_length, jdiff_pre_length. intros i Hi.
      rewrite cumsum_nth by (now rewrite jdiff_pre_length).
      induction i as [|i IH].
      + simpl Sum. rewrite jdiff_pre_nth by auto. simpl. ring.
      + cbn [Sum] in *. rewrite IH by lia. rewrite jdiff_pre_nth by auto.
        simpl (S i =? 0). cbv iota. replace (S i - 1)%nat with i by lia. ring.
  Qed.

  Lemma vmul_cancel n (x : vec) : length x = n ->
    vmul (vmul x (@hwi K n)) (@hw K n) = x.
  Proof.
    intros Hx. apply list_eq_nth with (d:=s0).
    - rewrite (@vmul_length K n); auto using hw_length.
      apply vmul_length; auto using hwi_length.
    - rewrite (@vmul_length K n); [|apply vmul_length; auto using hwi_length|apply hw_length].
      intros i Hi. rewrite !vmul_nth; rewrite ?hwi_length, ?hw_length; auto.
      + rewrite hwi_nth by auto. pose proof (@hw_nth_neq0 K n i Hi). field. auto.
      + apply vmul_length; auto using hwi_length.
  Qed.
  Lemma vmul_cancel' n (x : vec) : length x = n ->
    vmul (vmul x (@hw K n)) (@hwi K n) = x.
  Proof.
    intros Hx. apply list_eq_nth with (d:=s0).
    - rewrite (@vmul_length K n); auto using hwi_length.
      apply vmul_length; auto using hw_length.
    - rewrite (@vmul_length K n); [|apply vmul_length; auto using hw_length|apply hwi_length].
      intros i Hi. rewrite !vmul_nth; rewrite ?hwi_length, ?hw_length; auto.
      + rewrite hwi_nth by auto. pose proof (@hw_nth_neq0 K n i Hi). field. auto.
      + apply vmul_length; auto using hw_length.
  Qed.

  Lemma heaviside_inv n b (x : vec) : length x = n ->
    times (op_inv_heaviside n b) (times (op_heaviside n b) x) = x.
  Proof.
    intros Hx. destruct b.
    - cbn [op_inv_heaviside op_heaviside times mkop].
      pose proof (diff_cumsum_inv (vmul x (@hwi K n))) as E.
      cbn [op_diff op_inv_heaviside op_cumsum op_heaviside times mkop] in E.
      rewrite E. now apply vmul_cancel.
    - subst n. apply diff_cumsum_inv.
  Qed.
  Lemma inv_heaviside_inv n b (x : vec) : length x = n ->
    times (op_heaviside n b) (times (op_inv_heaviside n b) x) = x.
  Proof.
    intros Hx. destruct b.
    - cbn [op_inv_heaviside op_heaviside times mkop].
      rewrite vmul_cancel' by (rewrite jdiff_pre_length; auto).
      pose proof (cumsum_diff_inv x) as E.
      cbn [op_diff op_inv_heaviside op_cumsum op_heaviside times mkop] in E. exact E.
    - subst n. apply cumsum_diff_inv.
  Qed.

  (** *** transpose *)
  Lemma real_map_star m n (f : vec -> vec) x : maps_dim m n f -> is_linear n f -> is_real_map n f ->
    length x = n -> vstar (f x) = f (vstar x).
  Proof.
    intros Hd Hl Hr Hx. apply list_eq_nth with (d:=s0).
    - rewrite vstar_length, !Hd; auto. now rewrite vstar_length.
    - rewrite vstar_length, Hd by auto. intros i Hi.
      rewrite vstar_nth, !(linear_entry _ Hd Hl) by (rewrite ?vstar_length; auto).
      rewrite star_Sum. apply Sum_ext. intros j Hj. rewrite star_mul, vstar_nth. f_equal.
      apply (Hr (vbasis n j)).
      + apply vbasis_length.
      + intros a Ha. unfold vbasis, tab in Ha. apply in_map_iff in Ha.
        destruct Ha as [k [<- _]]. destruct (k =? j); [apply star_1|apply star_0].
      + apply nth_In. rewrite Hd; auto using vbasis_length.
  Qed.

  Lemma transpose_correct (A : operator K) : adj A -> (real A = true -> is_real_map (on A) (times A)) ->
    is_transpose (om A) (on A) (times A) (times (op_transpose A)) /\
    om (op_transpose A) = on A /\ on (op_transpose A) = om A.
  Proof.
    intros HA Hr. split; [|unfold op_transpose; destruct (real A); auto].
    pose proof (adjoint_linear HA) as HL. destruct HA as [A1 [A2 A3]].
    unfold op_transpose. destruct (real A) eqn:E; cbn [times].
    - split; [|split]; auto. intros x y Hx Hy.
      rewrite <- (vstar_vstar K (times A x)). rewrite <- inner_dotu.
      rewrite (real_map_star x A1 HL (Hr eq_refl) Hx). rewrite A3 by (rewrite ?vstar_length; auto).
      now rewrite inner_dotu, vstar_vstar.
    - split; [|split]; auto.
      + intros y Hy. rewrite vstar_length. apply A2. now rewrite vstar_length.
      + intros x y Hx Hy.
        rewrite (dotu_sym K x). rewrite <- inner_dotu.
        rewrite (inner_sym K x), <- A3 by (rewrite ?vstar_length; auto).
        rewrite <- inner_sym. rewrite inner_dotu, vstar_vstar. apply dotu_sym.
  Qed.

  (** *** C14 *)
  Lemma to_matrix_spec (A : operator K) cols : maps_dim (om A) (on A) (times A) -> is_linear (on A) (times A) ->
    to_matrix_cols A = Some cols ->
    length cols = on A /\
    (forall j, j < on A -> nth j cols [] = times A (vbasis (on A) j)) /\
    (forall x i, length x = on A -> i < om A ->
       (times A x)@i = Sum (on A) (fun j => (nth j cols [])@i * x@j)).
  Proof.
    intros Hd Hl. unfold to_matrix_cols. destruct (linear A); [|discriminate]. intros [= <-].
    assert (HN : forall j, j < on A ->
       nth j (map (fun i => times A (vbasis (on A) i)) (seq 0 (on A))) [] = times A (vbasis (on A) j)).
    { intros j Hj. fold (tab (on A) (fun i => times A (vbasis (on A) i))). now rewrite nth_tab. }
    split; [len|]. split; [exact HN|].
    intros x i Hx Hi. rewrite (linear_entry x Hd Hl Hx Hi).
    apply Sum_ext. intros j Hj. now rewrite HN.
  Qed.

  Lemma to_adjoint_matrix_spec (A : operator K) M MH :
    maps_dim (om A) (on A) (times A) -> maps_dim (on A) (om A) (trans A) ->
    is_linear (on A) (times A) -> is_linear (om A) (trans A) ->
    to_matrix_cols A = Some M -> to_adjoint_matrix_cols A = Some MH ->
    (adj A <-> forall i j, i < om A -> j < on A -> (nth i MH [])@j = star ((nth j M [])@i)).
  Proof.
    intros D1 D2 L1 L2 HM HMH.
    destruct (to_matrix_spec A D1 L1 HM) as [_ [M1 M2]].
    assert (HMH' : to_matrix_cols (op_adjoint A) = Some MH).
    { unfold to_matrix_cols, to_adjoint_matrix_cols in *. simpl. destruct (linear A); [exact HMH|discriminate]. }
    assert (D2' : maps_dim (om (op_adjoint A)) (on (op_adjoint A)) (times (op_adjoint A))) by exact D2.
    assert (L2' : is_linear (on (op_adjoint A)) (times (op_adjoint A))) by exact L2.
    destruct (to_matrix_spec (op_adjoint A) D2' L2' HMH') as [_ [N1 N2]]. simpl in N1, N2.
    split.
    - intros [A1 [A2 A3]] i j Hi Hj. rewrite M1, N1 by auto.
      pose proof (A3 (vbasis (on A) j) (vbasis (om A) i) (vbasis_length K _ _) (vbasis_length K _ _)) as E.
      rewrite inner_basis_r, inner_basis_l in E; auto using vbasis_length.
    - intros H. apply adjoint_by_kernel with (a := fun i j => (nth j M [])@i); auto.
      intros y j Hy Hj. rewrite N2 by auto. apply Sum_ext. intros i Hi. now rewrite H.
  Qed.

  (** *** column *)
  Lemma set_at_zero_basis n i : set_at i (@s1 K) (vzero n) = vbasis n i.
  Proof.
    apply list_eq_nth with (d:=s0); rewrite set_at_length, vzero_length; [now rewrite vbasis_length|].
    intros j Hj. rewrite set_at_nth, vzero_length, vzero_nth, vbasis_nth by auto. bcase; try lia; auto.
  Qed.

  (** *** 2-D inner products *)
  Definition wf2 (M N : nat) (X : list vec) := wf_mat M N X.

  Lemma inner2_Sum M N (X Y : list vec) : wf2 M N X -> wf2 M N Y ->
    inner2 X Y = Sum M (fun i => Sum N (fun j => star (get2 X i j) * get2 Y i j)).
  Proof.
    intros [HX1 HX2] [HY1 HY2]. unfold inner2.
    revert X Y HX1 HX2 HY1 HY2. induction M as [|M IH]; intros X Y HX1 HX2 HY1 HY2.
    - destruct X; [reflexivity|discriminate].
    - destruct X as [|r X]; [discriminate|]. destruct Y as [|s Y]; [discriminate|].
      cbn [zipw lsum]. rewrite Sum_S_l. f_equal.
      + unfold get2. simpl. apply inner_Sum; [apply HX2|apply HY2]; now left.
      + unfold get2. simpl. apply IH; simpl in *; try lia; intros; [apply HX2|apply HY2]; now right.
  Qed.

  Lemma get2_tab2 M N f i j : i < M -> j < N -> get2 (@tab2 K M N f) i j = f i j.
  Proof. intros. unfold get2, tab2. rewrite nth_tab by auto. now rewrite nth_tab. Qed.
  Lemma tab2_wf M N f : wf2 M N (@tab2 K M N f).
  Proof.
    split; [apply tab_length|]. intros r Hr. unfold tab2, tab at 1 in Hr.
    apply in_map_iff in Hr. destruct Hr as [i [<- _]]. apply tab_length.
  Qed.

  Lemma flip2_get (h : list vec) mh mw i j : wf2 mh mw h -> i < mh -> j < mw ->
    get2 (flip2 h) i j = get2 h (mh - 1 - i) (mw - 1 - j).
  Proof.
    intros [H1 H2] Hi Hj. unfold get2, flip2. rewrite rev_nth by (rewrite map_length; lia).
    rewrite map_length. rewrite nth_map_lt with (da := []) by lia.
    assert (Hl : length (nth (length h - S i) h []) = mw) by (apply H2; apply nth_In; lia).
    rewrite rev_nth by lia. rewrite Hl. replace (length h - S i)%nat with (mh - 1 - i)%nat by lia.
    now replace (mw - S j)%nat with (mw - 1 - j)%nat by lia.
  Qed.

  (** The adjoint identity of the 2-D convolution when the filter is real. *)
  Lemma get2_over M N X i j : wf2 M N X -> (M <= i \/ N <= j) -> get2 X i j = @s0 K.
  Proof.
    intros [H1 H2] H. unfold get2. destruct (Nat.lt_ge_cases i M) as [Hi|Hi].
    - apply nth_over. rewrite H2 by (apply nth_In; lia). lia.
    - rewrite (nth_overflow X) by lia. apply nth_over. simpl. lia.
  Qed.

  (** correlation as a quadruple sum of indicator terms *)
  Lemma xcorr2_expand M N mh mw f X k l : wf2 M N X -> 0 < mh -> 0 < mw ->
    xcorr2 mh mw f X k l = Sum M (fun a => Sum N (fun b => Sum mh (fun i => Sum mw (fun j =>
      if (a + (mh - 1) =? k + i) && (b + (mw - 1) =? l + j) then @get2 K f i j * get2 X a b else s0)))).
  Proof.
    intros HX Hmh Hmw. unfold xcorr2.
    symmetry.
    rewrite (Sum_ext K _ (fun a => Sum mh (fun i => Sum N (fun b => Sum mw (fun j =>
      if (a + (mh - 1) =? k + i) && (b + (mw - 1) =? l + j) then get2 f i j * get2 X a b else s0)))))
      by (intros; apply Sum_exchange).
    rewrite Sum_exchange. apply Sum_ext. intros i Hi.
    rewrite (Sum_ext K _ (fun a => Sum mw (fun j => Sum N (fun b =>
      if (a + (mh - 1) =? k + i) && (b + (mw - 1) =? l + j) then get2 f i j * get2 X a b else s0))))
      by (intros; apply Sum_exchange).
    rewrite Sum_exchange. apply Sum_ext. intros j Hj.
    rewrite (Sum_ext K _ (fun a => if a + (mh - 1) =? k + i then
        (Sum N (fun b => if b + (mw - 1) =? l + j then get2 f i j * get2 X a b else s0)) else s0)).
    2:{ intros a Ha. destruct (a + (mh - 1) =? k + i); simpl; auto. apply Sum_0. }
    rewrite Sum_pick. rewrite (Sum_pick K N (mw - 1) (l + j) (fun b => get2 f i j * get2 X (k + i - (mh - 1)) b)).
    unfold padget. bcase; simpl; try lia; try ring;
      rewrite (@get2_over M N X) by (auto; lia); ring.
  Qed.

  Lemma conv2_adjoint M N h mh mw o0 o1 : wf2 mh mw h -> o0 < mh -> o1 < mw ->
    (forall i j, star (get2 h i j) = @get2 K h i j) ->
    is_adjoint2 (@inner2 K) M N (conv2_times M N h mh mw o0 o1) (conv2_trans M N h mh mw o0 o1).
  Proof.
    intros Hh H0 H1 Hreal. split; [|split]; try (intros; apply tab2_wf).
    intros X Y HX HY. rewrite (@inner2_Sum M N) by (auto; apply tab2_wf).
    rewrite (@inner2_Sum M N X) by (auto; apply tab2_wf).
    (* both sides as sums over (k,l,a,b,i,j) *)
    transitivity (Sum M (fun k => Sum N (fun l => Sum M (fun a => Sum N (fun b => Sum mh (fun i => Sum mw (fun j =>
      if (a + i =? o0 + k) && (b + j =? o1 + l) then get2 h i j * star (get2 X a b) * get2 Y k l else s0))))))).
    - apply Sum_ext. intros k Hk. apply Sum_ext. intros l Hl. unfold conv2_times.
      rewrite get2_tab2 by auto. rewrite (@xcorr2_expand M N) by (auto; lia).
      rewrite star_Sum, <- Sum_mul_r. apply Sum_ext. intros a Ha.
      rewrite star_Sum, <- Sum_mul_r. apply Sum_ext. intros b Hb.
      rewrite star_Sum, <- Sum_mul_r. rewrite Sum_rev. apply Sum_ext. intros i Hi.
      rewrite star_Sum, <- Sum_mul_r. rewrite Sum_rev. apply Sum_ext. intros j Hj.
      rewrite (@flip2_get h mh mw) by (auto; lia).
      replace (mh - 1 - (mh - 1 - i))%nat with i by lia. replace (mw - 1 - (mw - 1 - j))%nat with j by lia.
      bcase; simpl; try lia; rewrite ?star_0, ?star_mul, ?Hreal; ring.
    - transitivity (Sum M (fun a => Sum N (fun b => Sum M (fun k => Sum N (fun l => Sum mh (fun i => Sum mw (fun j =>
        if (a + i =? o0 + k) && (b + j =? o1 + l) then get2 h i j * star (get2 X a b) * get2 Y k l else s0))))))).
      + rewrite (Sum_ext K _ (fun k => Sum M (fun a => Sum N (fun l => Sum N (fun b => Sum mh (fun i => Sum mw (fun j =>
          if (a + i =? o0 + k) && (b + j =? o1 + l) then get2 h i j * star (get2 X a b) * get2 Y k l else s0)))))))
          by (intros; apply Sum_exchange).
        rewrite Sum_exchange. apply Sum_ext. intros a Ha.
        rewrite (Sum_ext K _ (fun k => Sum N (fun b => Sum N (fun l => Sum mh (fun i => Sum mw (fun j =>
          if (a + i =? o0 + k) && (b + j =? o1 + l) then get2 h i j * star (get2 X a b) * get2 Y k l else s0))))))
          by (intros; apply Sum_exchange).
        apply Sum_exchange.
      + apply Sum_ext. intros a Ha. apply Sum_ext. intros b Hb. unfold conv2_trans.
        rewrite get2_tab2 by auto. rewrite (@xcorr2_expand M N) by (auto; lia).
        rewrite <- Sum_mul_l. apply Sum_ext. intros k Hk.
        rewrite <- Sum_mul_l. apply Sum_ext. intros l Hl.
        rewrite <- Sum_mul_l. apply Sum_ext. intros i Hi.
        rewrite <- Sum_mul_l. apply Sum_ext. intros j Hj.
        bcase; simpl; try lia; ring.
  Qed.

  (** pointwise meaning of the 2-D convolution *)
  Lemma conv2_meaning M N h mh mw o0 o1 X k l : wf2 mh mw h -> wf2 M N X -> 0 < mh -> 0 < mw ->
    k < M -> l < N ->
    get2 (conv2_times M N h mh mw o0 o1 X) k l =
    Sum M (fun a => Sum N (fun b =>
      if (a <=? o0 + k) && (b <=? o1 + l) then @get2 K h (o0 + k - a) (o1 + l - b) * get2 X a b else s0)).
  Proof.
    intros Hh HX H0 H1 Hk Hl. unfold conv2_times. rewrite get2_tab2 by auto.
    rewrite (@xcorr2_expand M N) by (auto; lia).
    apply Sum_ext. intros a Ha. apply Sum_ext. intros b Hb.
    rewrite Sum_rev.
    rewrite (Sum_ext K _ (fun i => if i + a =? o0 + k then Sum mw (fun j => if j + b =? o1 + l then get2 h i j * get2 X a b else s0) else s0)).
    2:{ intros i Hi. rewrite Sum_rev.
        transitivity (Sum mw (fun j => if (i + a =? o0 + k) && (j + b =? o1 + l) then get2 h i j * get2 X a b else s0)).
        - apply Sum_ext. intros j Hj. rewrite (@flip2_get h mh mw) by (auto; lia).
          replace (mh - 1 - (mh - 1 - i))%nat with i by lia. replace (mw - 1 - (mw - 1 - j))%nat with j by lia.
          bcase; simpl; try lia; ring.
        - destruct (i + a =? o0 + k); simpl; auto. apply Sum_0. }
    rewrite (Sum_pick K mh a (o0 + k) (fun i => Sum mw (fun j => if j + b =? o1 + l then get2 h i j * get2 X a b else s0))).
    rewrite (Sum_pick K mw b (o1 + l) (fun j => get2 h (o0 + k - a) j * get2 X a b)).
    bcase; simpl; try lia; try ring;
      rewrite (@get2_over mh mw h) by (auto; lia); ring.
  Qed.
End P3.

(** *** positivity over the reals and the complex numbers *)
Local Open Scope R_scope.

Lemma inner_pos_R (x : list Rs) : 0 <= inner x x.
Proof.
  induction x as [|a x IH]; simpl; [lra|]. pose proof (Rle_0_sqr a) as H. unfold Rsqr in H. simpl in *. lra.
Qed.
Lemma inner_pos_C (x : list Cs) : 0 <= fst (inner x x) /\ snd (inner x x) = 0.
Proof.
  induction x as [|[a b] x [I1 I2]]; simpl; [lra|]. split.
  - simpl in *. pose proof (Rle_0_sqr a); pose proof (Rle_0_sqr b); unfold Rsqr in *. lra.
  - simpl in *. rewrite I2. ring.
Qed.
