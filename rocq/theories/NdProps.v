(** Operators on arrays with any number of dimensions. *)
From Coq Require Import List Arith Bool Lia ZArith Reals Lra Sorted.
From Verif Require Import Scalar Vec LopSpec LopModel LopProofs FourierModel NdSpec NdModel NdProofs NdProofs2 NdProofs3.
Import ListNotations.

(** ** C80 *)
(** a pair of adjoint functions on vectors, applied along an axis (counted from either end)
    of an array with any number of dimensions: every vector along the axis is mapped, and
    the two functions are adjoint for the inner product of arrays *)
Theorem C80_along_axis (K : scalar) m n (f g : list K -> list K) axis a shape (x y : arr K) :
  is_adjoint m n f g -> axis_is (length shape) axis a -> nth a shape 0 = n ->
  exists fx gy, apply_along_axis f axis shape x = Some fx /\ apply_along_axis g axis (upd a m shape) y = Some gy /\
    applies m f a shape x fx /\ applies n g a (upd a m shape) y gy /\
    ndinner (upd a m shape) fx y = ndinner shape x gy.
Proof. exact (@apply_along_adjoint K m n f g axis a shape x y). Qed.
Print Assumptions C80_along_axis.
Example C80_along_axis_ex : axis_is (length [3; 2; 4]) (-2) 1 /\ nth 1 [3; 2; 4] 0 = 2 /\ upd 1 5 [3; 2; 4] = [3; 5; 4] /\
  is_adjoint 2 2 (fun v : list Rs => v) (fun v => v).
Proof. repeat split; try (cbn; lia); auto; intros v Hv; exact Hv. Qed.
(** an axis that does not exist is rejected, except for vectors *)
Theorem C80_along_axis_rejects (K : scalar) (f : list K -> list K) axis shape (x : arr K) :
  apply_along_axis f axis shape x = None <-> length shape <> 1 /\ ~ exists a, axis_is (length shape) axis a.
Proof.
  unfold apply_along_axis, jnp_along. destruct (Nat.eqb_spec (length shape) 1) as [E|E]; [split; [discriminate|intros [H _]; contradiction]|].
  destruct (norm_axis (length shape) axis) as [a|] eqn:N.
  - split; [discriminate|]. intros [_ H]. exfalso. apply H. exists a. now apply norm_axis_is.
  - split; [|reflexivity]. intros _. split; [exact E|]. intros [a Ha]. rewrite (axis_norm _ _ _ Ha) in N. discriminate.
Qed.
Print Assumptions C80_along_axis_rejects.

(** matrix(A, axis) *)
Theorem C80_matrix_partial (K : scalar) m n (A : list (list K)) axis a shape (x y : arr K) :
  wf_mat m n A -> axis_is (length shape) axis a -> ~ (length shape = 2 /\ axis = (-2)%Z) -> nth a shape 0 = n ->
  exists fx gy, matrix_times n A axis shape x = Some fx /\ matrix_trans m n A axis (upd a m shape) y = Some gy /\
    applies m (matvec A) a shape x fx /\ applies n (fun v => vstar (vecmat n (vstar v) A)) a (upd a m shape) y gy /\
    ndinner (upd a m shape) fx y = ndinner shape x gy.
Proof. exact (@matrix_nd K m n A axis a shape x y). Qed.
Print Assumptions C80_matrix_partial.
Example C80_matrix_ex : wf_mat 1 2 [[1%R; 2%R] : list Rs] /\ axis_is (length [3; 2]) (-1) 1 /\ ~ (length [3; 2] = 2 /\ (-1)%Z = (-2)%Z).
Proof. split; [split; [reflexivity|intros r [<- | []]; reflexivity]|]. split; [split; [cbn; lia|right; reflexivity]|]. intros [_ H]. discriminate. Qed.
(** on 2-D arrays every axis but 0 means axis 1, including -2 and axes that do not exist *)
Theorem C80_matrix_2d_axis (K : scalar) m n (A : list (list K)) axis r c (x : arr K) : axis <> 0%Z ->
  matrix_times n A axis [r; c] x = matrix_times n A 1 [r; c] x /\ matrix_trans m n A axis [r; c] x = matrix_trans m n A 1 [r; c] x.
Proof. exact (@matrix_2d_axis K m n A axis r c x). Qed.
Print Assumptions C80_matrix_2d_axis.
Theorem C80_matrix_axis_refuted : exists (A : list (list Rs)) (x y : arr Rs),
  wf_mat 2 2 A /\ axis_is 2 (-2) 0 /\ matrix_times 2 A (-2) [2; 2] x = Some y /\ ~ applies 2 (matvec A) 0 [2; 2] x y.
Proof. exact matrix_axis_refuted. Qed.
Print Assumptions C80_matrix_axis_refuted.

(** restriction(n, I, axis) *)
Theorem C80_restriction_partial (K : scalar) n I axis a shape (x y : arr K) : NoDup I -> (forall i, In i I -> i < n) ->
  axis_is (length shape) axis a -> ~ (length shape = 2 /\ axis = (-2)%Z) -> nth a shape 0 = n ->
  exists fx gy, restriction_times I axis shape x = Some fx /\ restriction_trans n I axis (upd a (length I) shape) y = Some gy /\
    applies (length I) (fun v : list K => gather v I) a shape x fx /\
    applies n (fun v : list K => scatter I v (vzero n)) a (upd a (length I) shape) y gy /\
    ndinner (upd a (length I) shape) fx y = ndinner shape x gy.
Proof. exact (@restriction_nd K n I axis a shape x y). Qed.
Print Assumptions C80_restriction_partial.
Example C80_restriction_ex : NoDup [2; 0] /\ (forall i, In i [2; 0] -> i < 3) /\ axis_is (length [3; 2; 2]) (-3) 0.
Proof. split; [repeat constructor; cbn; intuition lia|]. split; [intros i [<- | [<- | []]]; lia|]. split; [cbn; lia|right; reflexivity]. Qed.
Theorem C80_restriction_axis_refuted : exists (I : list nat) (x y fx gy : arr Rs),
  NoDup I /\ (forall i, In i I -> i < 2) /\ length I = 2 /\ axis_is 2 (-2) 0 /\
  restriction_times I (-2) [2; 2] x = Some fx /\ restriction_trans 2 I (-2) [2; 2] y = Some gy /\
  ndinner [2; 2] fx y <> ndinner [2; 2] x gy.
Proof. exact restriction_axis_refuted. Qed.
Print Assumptions C80_restriction_axis_refuted.

(** dot(v, axis=...) of a vector rejects every array that is not a vector, whatever the axis *)
Theorem C80_dot_axis_refuted (K : scalar) (v : list K) axis shape (x : arr K) : length shape <> 1 -> dot_times v axis shape x = None.
Proof. exact (@dot_nd K v axis shape x). Qed.
Print Assumptions C80_dot_axis_refuted.

(** reshape: a unitary operator for orders C and F *)
Theorem C80_reshape_adjoint (K : scalar) o inp out (f g : arr K -> option (arr K)) x y fx gy :
  op_reshape o inp out = Some (f, g) -> f x = Some fx -> g y = Some gy -> ndinner out fx y = ndinner inp x gy.
Proof. exact (@reshape_adjoint K o inp out f g x y fx gy). Qed.
Print Assumptions C80_reshape_adjoint.
Theorem C80_reshape_inverse (K : scalar) o inp out (f g : arr K -> option (arr K)) x fx x' :
  op_reshape o inp out = Some (f, g) -> f x = Some fx -> g fx = Some x' -> same_array inp x' x.
Proof. exact (@reshape_inverse K o inp out f g x fx x'). Qed.
Print Assumptions C80_reshape_inverse.
Theorem C80_reshape_defined (K : scalar) o inp out (x : arr K) : o <> OA -> size inp = size out ->
  exists f g fx, op_reshape o inp out = Some (f, g) /\ f x = Some fx.
Proof.
  intros Ho E. unfold op_reshape. rewrite E, Nat.eqb_refl. unfold jnp_reshape. rewrite E, Nat.eqb_refl.
  destruct o; [eexists _, _, _; split; reflexivity|eexists _, _, _; split; reflexivity|contradiction].
Qed.
Print Assumptions C80_reshape_defined.
(** row-major order: the entry at position (i, j) of a matrix made from a vector is entry
    i * c + j; column-major: entry i + j * r *)
Theorem C80_reshape_order (K : scalar) r c (x : arr K) :
  (exists fx, jnp_reshape OC [r * c] [r; c] x = Some fx /\ forall i j, i < r -> j < c -> fx [i; j] = x [i * c + j]) /\
  (exists fx, jnp_reshape OF [r * c] [r; c] x = Some fx /\ forall i j, i < r -> j < c -> fx [i; j] = x [i + j * r]).
Proof.
  assert (E : size [r * c] = size [r; c]) by (unfold size; cbn [fold_right]; lia).
  split; unfold jnp_reshape; rewrite E, Nat.eqb_refl; eexists; (split; [reflexivity|]); intros i j Hi Hj; cbn [unravel ravel rev app fold_right]; rewrite ?Nat.div_1_r.
  - f_equal. f_equal. lia.
  - f_equal. f_equal. lia.
Qed.
Print Assumptions C80_reshape_order.
(** order 'A' passes the checks of reshape but cannot be applied *)
Theorem C80_reshape_A_refuted (K : scalar) inp out (x y : arr K) : size inp = size out ->
  exists f g, op_reshape OA inp out = Some (f, g) /\ f x = None /\ g y = None.
Proof. exact (@reshape_A K inp out x y). Qed.
Print Assumptions C80_reshape_A_refuted.
(** arr2vec is the row-major reshape to a vector *)
Theorem C80_arr2vec (K : scalar) shape (x y : arr K) :
  exists fx gy, fst (op_arr2vec shape) x = Some fx /\ snd (op_arr2vec shape) y = Some gy /\
    (forall k, k < size shape -> fx [k] = x (unravel shape k)) /\
    (forall p, in_range shape p -> gy p = y [ravel shape p]) /\
    ndinner [size shape] fx y = ndinner shape x gy.
Proof.
  assert (E : size shape = size [size shape]) by (unfold size at 2; cbn [fold_right]; lia).
  unfold op_arr2vec. cbn [fst snd]. unfold jnp_reshape. rewrite <- E, Nat.eqb_refl. eexists _, _. split; [reflexivity|]. split; [reflexivity|]. split; [|split].
  - intros k Hk. cbn [ravel fold_right]. f_equal. f_equal. lia.
  - intros p Hp. cbn [unravel fold_right]. rewrite Nat.div_1_r. reflexivity.
  - apply reshapeC_inner. exact E.
Qed.
Print Assumptions C80_arr2vec.

(** convolveND: with increasing axes the result is the convolution along those axes,
    shifted by the offsets and cut to the shape of the data *)
Theorem C80_convolve_entries (K : scalar) shape hshape (h : arr K) offset axes :
  length (given (repeat 0 (length hshape)) offset) = length hshape -> length (given (seq 0 (length hshape)) axes) = length hshape ->
  increasing_axes (length shape) (given (seq 0 (length hshape)) axes) ->
  exists c, convolve_nd shape hshape h offset axes = Some c /\
    forall x p, in_range shape p -> conv_times shape c x p =
      ndsum hshape (fun q => smul (h q) (at_difference shape x
        (zip_add (place (length shape) 0 (given (seq 0 (length hshape)) axes) (given (repeat 0 (length hshape)) offset)) p)
        (place (length shape) 0 (given (seq 0 (length hshape)) axes) q))).
Proof. exact (@convolve_nd_entries K shape hshape h offset axes). Qed.
Print Assumptions C80_convolve_entries.
Example C80_convolve_entries_ex : increasing_axes (length [4; 3; 5]) [0; 2] /\ place 3 0 [0; 2] [7; 8] = [7; 0; 8].
Proof. split; [|reflexivity]. split; repeat constructor. Qed.
(** its adjoint, for a filter of real numbers and offsets inside the filter *)
Theorem C80_convolve_adjoint_partial (K : scalar) shape hshape (h : arr K) offset axes c x y :
  convolve_nd shape hshape h offset axes = Some c ->
  Forall2 lt (given (repeat 0 (length hshape)) offset) hshape ->
  (length shape = length hshape -> given (seq 0 (length hshape)) axes = seq 0 (length shape)) ->
  (forall q, star (h q) = h q) ->
  ndinner shape (conv_times shape c x) y = ndinner shape x (conv_trans shape c y).
Proof. exact (@convolve_nd_adjoint K shape hshape h offset axes c x y). Qed.
Print Assumptions C80_convolve_adjoint_partial.
Example C80_convolve_adjoint_ex : exists c, convolve_nd [4; 3] [3; 2] (fun _ => 1%R : Rs) (Some [1; 0]) None = Some c /\
  Forall2 lt (given (repeat 0 2) (Some [1; 0])) [3; 2].
Proof. eexists. split; [reflexivity|]. repeat constructor. Qed.
Theorem C80_convolve_complex_refuted : exists (h x y : arr Cs) c, convolve_nd [1] [1] h None None = Some c /\
  ndinner [1] (conv_times [1] c x) y <> ndinner [1] x (conv_trans [1] c y).
Proof. exact conv_complex. Qed.
Print Assumptions C80_convolve_complex_refuted.
Theorem C80_convolve_scrambled_refuted : exists (h x : arr Rs) c,
  convolve_nd [2; 2; 1] [2; 2] h None (Some [1; 0]) = Some c /\
  conv_times [2; 2; 1] c x [0; 1; 0] <> ndsum [2; 2] (fun q => smul (h q) (at_difference [2; 2; 1] x [0; 1; 0] (place 3 0 [1; 0] q))).
Proof. exact conv_scrambled. Qed.
Print Assumptions C80_convolve_scrambled_refuted.
Theorem C80_convolve_permuted_refuted : exists (h x y : arr Rs) c,
  convolve_nd [2; 2] [2; 3] h (Some [0; 1]) (Some [1; 0]) = Some c /\
  ndinner [2; 2] (conv_times [2; 2] c x) y <> ndinner [2; 2] x (conv_trans [2; 2] c y).
Proof. exact conv_permuted. Qed.
Print Assumptions C80_convolve_permuted_refuted.
(** convolve2D is convolveND restricted to filters with two dimensions *)
Theorem C80_convolve_2d (K : scalar) shape hshape (h : arr K) offset axes :
  (length hshape = 2 -> convolve_2d shape hshape h offset axes = convolve_nd shape hshape h offset axes) /\
  (length hshape <> 2 -> convolve_2d shape hshape h offset axes = None).
Proof. unfold convolve_2d. destruct (Nat.eqb_spec (length hshape) 2); split; intros; auto; contradiction. Qed.
Print Assumptions C80_convolve_2d.

(** fft(m, n, axis) with mode c2c: times is the transform along the axis; trans is right
    on the entries it returns, but it cuts axis 0 instead of the given axis, so its result
    has the right shape only along axis 0 or when there is nothing to cut *)
Theorem C80_fft_partial m n axis a shape (x w : arr Cs) : m <= n -> 0 < n -> axis_is (length shape) axis a -> nth a shape 0 = m ->
  exists fx sh gw, fft_times m n axis shape x = Some (upd a n shape, fx) /\ fft_trans m n axis (upd a n shape) w = Some (sh, gw) /\
    applies n (fun v : list Cs => dft n v) a shape x fx /\
    (sh = shape <-> a = 0 \/ (m = n /\ nth 0 shape 0 <= m)) /\
    ndinner (upd a n shape) fx w = ndinner shape x gw.
Proof. exact (@fft_nd m n axis a shape x w). Qed.
Print Assumptions C80_fft_partial.
Example C80_fft_ex : axis_is (length [2; 1]) 1 1 /\ nth 1 [2; 1] 0 = 1 /\
  exists gw, fft_trans 1 1 1 [2; 1] (fun _ => (0%R, 0%R)) = Some ([1; 1], gw).
Proof. split; [split; [cbn; lia|left; reflexivity]|]. split; [reflexivity|]. eexists. reflexivity. Qed.
