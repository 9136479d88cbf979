(** C11 and C73 (continued): the explicit Fourier basis and the sparse fast clustering. *)
From Coq Require Import List Arith Bool Lia Reals Lra.
From Verif Require Import Scalar Vec RVec RMat Loop SelModel LopSpec LopModel LopLemmas FourierModel FourierProofs FourierMatModel KMeansModel ClusterModel SscModel ClusterProps2 SpectralModel SpectralModel2.
Import ListNotations.
Local Open Scope scal_scope.

(** entry (i,j) of dict.fourier_basis(n) is exp(2 pi i j sqrt(-1) / n) / sqrt n *)
Theorem C11_fourier_matrix_entries n i j : (i < n)%nat -> (j < n)%nat ->
  nth j (nth i (fourier_basis_mat n) []) s0 =
  smul (ofR (/ sqrt (INR n))%R) ((cos (2 * PI * INR (i * j) / INR n), sin (2 * PI * INR (i * j) / INR n))%R : Cs).
Proof.
  intros Hi Hj. change (cos (2 * PI * INR (i * j) / INR n), sin (2 * PI * INR (i * j) / INR n))%R with (root n (i * j)). unfold fourier_basis_mat, hermitian_mat, dft_matrix. rewrite !nth_tab by auto.
  rewrite nth_map_lt with (da := []) by (rewrite tab_length; auto). rewrite vscale_nth, !nth_tab by auto. rewrite star_mul, star_star, ofR_star. rewrite (Nat.mul_comm j i). reflexivity.
Qed.
Print Assumptions C11_fourier_matrix_entries.
(** its columns are orthonormal *)
Theorem C11_fourier_matrix_orthonormal n j k : (j < n)%nat -> (k < n)%nat ->
  Sum n (fun i => smul (star (nth j (nth i (fourier_basis_mat n) []) s0)) (nth k (nth i (fourier_basis_mat n) []) s0)) = if Nat.eqb j k then s1 else s0.
Proof.
  intros Hj Hk. transitivity (ofR (/ sqrt (INR n))%R * ofR (/ sqrt (INR n))%R * Sum n (fun i => star (root n (i * j)) * root n (i * k))).
  - rewrite <- Sum_mul_l. apply Sum_ext. intros i Hi. rewrite !C11_fourier_matrix_entries by auto. fold (root n (i * j)) (root n (i * k)). rewrite star_mul, ofR_star. unfold root, Cexp. ring.
  - rewrite root_orth by auto. destruct (Nat.eqb j k); [|ring]. assert (P : (0 < INR n)%R) by (apply lt_0_INR; lia).
    apply C_eq; cbn; pose proof (sqrt_sqrt (INR n) (Rlt_le _ _ P)) as E; pose proof (sqrt_lt_R0 _ P) as Q; [|ring]. rewrite <- E at 3. field. lra.
Qed.
Print Assumptions C11_fourier_matrix_orthonormal.
(** multiplying by the matrix is what the operator lop.fourier_basis does *)
Theorem C11_fourier_matrix_operator n x : (0 < n)%nat -> length x = n -> matvec (fourier_basis_mat n) x = times (op_fourier_basis n) x.
Proof.
  intros Hn Lx. assert (L : length (fourier_basis_mat n) = n) by apply tab_length. apply list_eq_nth with (d := s0).
  - unfold matvec. rewrite map_length, L. cbn [times op_fourier_basis]. unfold vscale. now rewrite map_length, idft_length.
  - unfold matvec. rewrite map_length, L. intros i Hi. rewrite nth_map_lt with (da := []) by (rewrite L; auto). rewrite fourier_basis_entries by auto.
    assert (Lr : length (nth i (fourier_basis_mat n) []) = n) by (unfold fourier_basis_mat, hermitian_mat; rewrite nth_tab by auto; apply tab_length).
    rewrite (@dotu_Sum Cs n) by auto. rewrite <- Sum_mul_l. apply Sum_ext. intros j Hj. rewrite C11_fourier_matrix_entries by auto. fold (root n (i * j)). rewrite (Nat.mul_comm j i). unfold root, Cexp. ring.
Qed.
Print Assumptions C11_fourier_matrix_operator.
Example C11_fourier_matrix_ex : nth 1 (nth 2 (fourier_basis_mat 4) []) s0 = ((-1 / 2)%R, 0%R) :> Cs.
Proof.
  rewrite C11_fourier_matrix_entries by lia. replace (2 * PI * INR (2 * 1) / INR 4)%R with PI by (cbn; field). rewrite cos_PI, sin_PI. replace (INR 4) with (2 * 2)%R by (cbn; ring). rewrite sqrt_square by lra. apply C_eq; cbn; field.
Qed.

(** the sparse fast variant computes what the dense one computes on the same matrix *)
Theorem C73_sparse_fast_k lansvd keys n W k : (forall p, In p (bc_indices W) -> (fst p < n)%nat) ->
  normalized_symmetric_sparse_fast_k lansvd keys n W k = normalized_symmetric_fast_k lansvd keys n (bcoo_todense n W) k.
Proof.
  intros Hw. unfold normalized_symmetric_sparse_fast_k, normalized_symmetric_fast_k. rewrite <- C66_sparse_agrees by auto. destruct (normalized_symmetric_sparse_w n W); reflexivity.
Qed.
Print Assumptions C73_sparse_fast_k.
Example C73_sparse_fast_ex : (forall p, In p (bc_indices (BCOO [1; 1]%R [(0, 1); (1, 0)]%nat)) -> (fst p < 2)%nat).
Proof. intros p [<-|[<-|[]]]; cbn; lia. Qed.
