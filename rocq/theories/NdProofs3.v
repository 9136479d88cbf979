From Coq Require Import List Arith Bool Lia ZArith Reals Lra Sorted.
From Verif Require Import Scalar Vec LopSpec LopOpSpec LopModel LopLemmas LopProofs FourierModel FourierProofs NdSpec NdModel NdProofs NdProofs2.
Import ListNotations.

Lemma convolve_nd_adjoint (K : scalar) shape hshape (h : arr K) offset axes c x y : convolve_nd shape hshape h offset axes = Some c ->
  Forall2 lt (given (repeat 0 (length hshape)) offset) hshape ->
  (length shape = length hshape -> given (seq 0 (length hshape)) axes = seq 0 (length shape)) ->
  (forall q, star (h q) = h q) ->
  ndinner shape (conv_times shape c x) y = ndinner shape x (conv_trans shape c y).
Proof. intros H Ho Ha Hr. eapply conv_adjoint; eauto. Qed.
Lemma convolve_nd_entries (K : scalar) shape hshape (h : arr K) offset axes :
  length (given (repeat 0 (length hshape)) offset) = length hshape -> length (given (seq 0 (length hshape)) axes) = length hshape ->
  increasing_axes (length shape) (given (seq 0 (length hshape)) axes) ->
  exists c, convolve_nd shape hshape h offset axes = Some c /\
    forall x p, in_range shape p -> conv_times shape c x p =
      ndsum hshape (fun q => smul (h q) (at_difference shape x
        (zip_add (place (length shape) 0 (given (seq 0 (length hshape)) axes) (given (repeat 0 (length hshape)) offset)) p)
        (place (length shape) 0 (given (seq 0 (length hshape)) axes) q))).
Proof. intros H1 H2 H3. apply conv_entries; auto. Qed.

(** *** fft *)
Lemma upd_0_same s0' s0 shape : upd 0 s0' (s0 :: shape) = s0 :: shape <-> s0' = s0.
Proof. cbn. split; [congruence|intros ->; reflexivity]. Qed.
Lemma fft_nd m n axis a shape x w : m <= n -> 0 < n -> axis_is (length shape) axis a -> nth a shape 0 = m ->
  exists fx sh gw, fft_times m n axis shape x = Some (upd a n shape, fx) /\ fft_trans m n axis (upd a n shape) w = Some (sh, gw) /\
    applies n (fun v : list Cs => dft n v) a shape x fx /\
    (sh = shape <-> a = 0 \/ (m = n /\ nth 0 shape 0 <= m)) /\
    ndinner (upd a n shape) fx w = ndinner shape x gw.
Proof.
  intros Hmn Hn Ha Hs. pose proof (proj1 Ha) as La. unfold fft_times, fft_trans, jnp_along. rewrite upd_length, (axis_norm _ _ _ Ha).
  rewrite upd_upd, nth_upd by auto. rewrite Hs. eexists _, _, _. split; [reflexivity|]. split; [reflexivity|]. split; [|split].
  - apply (along_applies Cs n m); auto. intros v _. apply tab_length. intros p _. reflexivity.
  - destruct shape as [|s0 shape]; [cbn in La; lia|]. destruct a as [|a]; cbn in Hs |- *.
    + subst s0. rewrite Nat.min_l by auto. split; auto.
    + split.
      * intros E. injection E as E1 E2. right. split; [|lia]. cbn in La. rewrite <- E2 in Hs. rewrite nth_upd in Hs by lia. auto.
      * intros [E | [-> E]]; [discriminate|]. rewrite Nat.min_r by auto. f_equal. rewrite <- Hs. apply upd_nth_same.
  - set (T := op_fft m n false). assert (HT : exists T', T = Some T') by (unfold T, op_fft; rewrite (proj2 (Nat.leb_le m n) Hmn); eauto).
    destruct HT as [T' HT]. pose proof (proj2 (proj2 (@fft_c2c_adjoint m n T' Hn HT))) as A.
    unfold T, op_fft in HT. rewrite (proj2 (Nat.leb_le m n) Hmn) in HT. injection HT as <-. cbn [times trans] in A.
    apply (adjoint_by_along Cs n m _ _ a shape x w _ _ A La Hs).
    + intros p _. reflexivity.
    + intros p Hp. unfold along. rewrite nth_firstn; [reflexivity|].
      rewrite <- Hs. clear -Hp La. revert p Hp a La. induction shape as [|s shape IH]; intros p Hp a La; [cbn in La; lia|].
      inversion Hp; subst. destruct a; cbn; [auto|]. apply IH; auto. cbn in La. lia.
Qed.

(** *** what goes wrong *)
Definition at_idx (q : list nat) : arr Rs := fun p => if list_eq_dec Nat.eq_dec p q then 1%R else 0%R.
Lemma matrix_2d_axis (K : scalar) m n (A : list (list K)) axis r c x : axis <> 0%Z ->
  matrix_times n A axis [r; c] x = matrix_times n A 1 [r; c] x /\ matrix_trans m n A axis [r; c] x = matrix_trans m n A 1 [r; c] x.
Proof. intros H. unfold matrix_times, matrix_trans. destruct (Z.eqb_spec axis 0); [contradiction|]. split; reflexivity. Qed.
Lemma matrix_axis_refuted : exists (A : list (list Rs)) (x y : arr Rs),
  wf_mat 2 2 A /\ axis_is 2 (-2) 0 /\ matrix_times 2 A (-2) [2; 2] x = Some y /\ ~ applies 2 (matvec A) 0 [2; 2] x y.
Proof.
  exists [[1%R; 1%R]; [0%R; 1%R]], (at_idx [1; 0]). eexists. split; [|split; [|split; [reflexivity|]]].
  - split; [reflexivity|]. intros r [<- | [<- | []]]; reflexivity.
  - split; [lia|]. right. reflexivity.
  - intros H. specialize (H [0; 0] ltac:(repeat constructor)). apply (f_equal (fun l => nth 0 l 0%R)) in H. revert H.
    unfold fibre, matmul, matvec, at_idx. cbn. lra.
Qed.
Lemma restriction_axis_refuted : exists (I : list nat) (x y fx gy : arr Rs),
  NoDup I /\ (forall i, In i I -> i < 2) /\ length I = 2 /\ axis_is 2 (-2) 0 /\
  restriction_times I (-2) [2; 2] x = Some fx /\ restriction_trans 2 I (-2) [2; 2] y = Some gy /\
  ndinner [2; 2] fx y <> ndinner [2; 2] x gy.
Proof.
  exists [1; 0], (at_idx [0; 0]), (at_idx [0; 1]). eexists _, _. split; [|split; [|split; [|split; [|split; [|split]]]]].
  - repeat constructor; cbn; intuition lia.
  - intros i [<- | [<- | []]]; lia.
  - reflexivity.
  - split; [lia|]. right. reflexivity.
  - reflexivity.
  - reflexivity.
  - unfold ndinner, at_idx. cbn. lra.
Qed.
Lemma dot_nd (K : scalar) (v : list K) axis shape x : length shape <> 1 -> dot_times v axis shape x = None.
Proof. intros H. unfold dot_times. destruct (list_eq_dec Nat.eq_dec shape [length v]) as [->|]; [exfalso; apply H; reflexivity|reflexivity]. Qed.
Lemma reshape_A (K : scalar) inp out (x y : arr K) : size inp = size out ->
  exists f g, op_reshape OA inp out = Some (f, g) /\ f x = None /\ g y = None.
Proof.
  intros E. unfold op_reshape. rewrite E, Nat.eqb_refl. eexists _, _. split; [reflexivity|]. unfold jnp_reshape. rewrite E, Nat.eqb_refl. auto.
Qed.
(** the extended filter is reshaped, not transposed: with axes out of order its entries
    are read along the wrong axes *)
Lemma conv_scrambled : exists (h x : arr Rs) c,
  convolve_nd [2; 2; 1] [2; 2] h None (Some [1; 0]) = Some c /\
  conv_times [2; 2; 1] c x [0; 1; 0] <> ndsum [2; 2] (fun q => smul (h q) (at_difference [2; 2; 1] x [0; 1; 0] (place 3 0 [1; 0] q))).
Proof.
  exists (at_idx [1; 0]), (at_idx [0; 0; 0]). eexists. split; [reflexivity|]. unfold conv_times, xcorr_nd, at_idx. cbn. lra.
Qed.
(** with as many filter dimensions as data dimensions the filter is not moved to the axes
    but the slices are: the two functions are not adjoint *)
Lemma conv_permuted : exists (h x y : arr Rs) c,
  convolve_nd [2; 2] [2; 3] h (Some [0; 1]) (Some [1; 0]) = Some c /\
  ndinner [2; 2] (conv_times [2; 2] c x) y <> ndinner [2; 2] x (conv_trans [2; 2] c y).
Proof.
  exists (at_idx [0; 0]), (at_idx [1; 0]), (at_idx [0; 0]). eexists. split; [reflexivity|]. unfold ndinner, conv_times, conv_trans, xcorr_nd, at_idx. cbn. lra.
Qed.
Lemma conv_complex : exists (h x y : arr Cs) c, convolve_nd [1] [1] h None None = Some c /\
  ndinner [1] (conv_times [1] c x) y <> ndinner [1] x (conv_trans [1] c y).
Proof.
  exists (fun _ => (0%R, 1%R)), (fun _ => (1%R, 0%R)), (fun _ => (1%R, 0%R)). eexists. split; [reflexivity|].
  unfold ndinner, conv_times, conv_trans, xcorr_nd. cbn. intros H. apply (f_equal snd) in H. cbn in H. lra.
Qed.
