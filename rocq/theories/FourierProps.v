(** Property theorems about Fourier, cosine, Hadamard and wavelet bases
    (C11-C13, C59-C61). *)
From Coq Require Import List Arith Bool Lia Reals Lra.
From Verif Require Import Scalar Vec RVec LopSpec LopModel LopOpSpec FourierModel FourierProofs FourierProofs2
  BasisSpec BasisModel BasisProofs.
Import ListNotations.

(** ** C11: Fourier basis *)
Theorem C11_fourier_basis_adjoint n : 0 < n -> has_adjoint (op_fourier_basis n) n n.
Proof. exact (@fourier_basis_adjoint n). Qed.
Print Assumptions C11_fourier_basis_adjoint.
Theorem C11_fourier_basis_inverse n (x : list Cs) : 0 < n -> length x = n ->
  trans (op_fourier_basis n) (times (op_fourier_basis n) x) = x /\
  times (op_fourier_basis n) (trans (op_fourier_basis n) x) = x.
Proof. exact (@fourier_basis_inv n x). Qed.
Print Assumptions C11_fourier_basis_inverse.
(** inner products, hence norms, are preserved *)
Theorem C11_fourier_basis_isometry n (x y : list Cs) : 0 < n -> length x = n -> length y = n ->
  inner (times (op_fourier_basis n) x) (times (op_fourier_basis n) y) = inner x y.
Proof. exact (@fourier_basis_isometry n x y). Qed.
Print Assumptions C11_fourier_basis_isometry.
(** entry i of times(x) is sum_j x_j exp(2 pi sqrt(-1) i j / n) / sqrt n *)
Theorem C11_fourier_basis_entries n (x : list Cs) i : 0 < n -> i < n ->
  nth i (times (op_fourier_basis n) x) s0 =
  smul (ofR (/ sqrt (INR n))%R)
       (Sum n (fun j => smul ((cos (2 * PI * INR (j * i) / INR n), sin (2 * PI * INR (j * i) / INR n))%R : Cs) (nth j x s0))).
Proof. exact (@fourier_basis_entries n x i). Qed.
Print Assumptions C11_fourier_basis_entries.
Theorem C11_dirac_fourier_adjoint n : 0 < n -> has_adjoint (op_dirac_fourier_basis n) n (2 * n).
Proof. exact (@dirac_fourier_adjoint n). Qed.
Print Assumptions C11_dirac_fourier_adjoint.

(** ** C12: Hadamard *)
Theorem C12_hadamard_accepts n : (exists H, hadamard n = Some H) <-> exists k, n = 2 ^ k.
Proof.
  split; [intros [H E]; apply hadamard_spec in E; destruct E as [k [E _]]; eauto|].
  intros [k ->]. rewrite hadamard_pow2. eauto.
Qed.
Print Assumptions C12_hadamard_accepts.
Theorem C12_hadamard n H : hadamard n = Some H ->
  mat_shape n n H /\
  (forall i j, i < n -> j < n -> (entry H i j = 1 \/ entry H i j = -1)%R) /\
  (forall i j, i < n -> j < n -> entry H i j = entry H j i) /\
  (forall i i', i < n -> i' < n -> rsum n (fun j => (entry H i j * entry H i' j)%R) = if i =? i' then INR n else 0%R).
Proof.
  intros E. apply hadamard_spec in E. destruct E as [k [-> ->]].
  exact (conj (sylvester_wf k) (conj (@sylvester_pm1 k) (conj (@sylvester_sym k) (@sylvester_orth k)))).
Qed.
Print Assumptions C12_hadamard.
Example C12_hadamard_ex : hadamard 4 = Some [[1;1;1;1];[1;-1;1;-1];[1;1;-1;-1];[1;-1;-1;1]]%R.
Proof.
  unfold hadamard. cbn. unfold vstack, hstack, mneg. cbn. repeat f_equal; ring.
Qed.
Theorem C12_hadamard_basis n B : hadamard_basis n = Some B ->
  mat_shape n n B /\ orthonormal_rows n B /\ orthonormal_cols n B /\
  forall i j, i < n -> j < n -> Rabs (entry B i j) = (/ sqrt (INR n))%R.
Proof.
  intros E. destruct (@hadamard_basis_spec n B E) as [H1 [_ [H2 [H3 H4]]]]. exact (conj H1 (conj H2 (conj H3 H4))).
Qed.
Print Assumptions C12_hadamard_basis.

(** ** C13: wavelets *)
Theorem C13_wavedec_waverec dwt1 idwt1 : orthogonal_filter_bank dwt1 idwt1 ->
  forall level q x, 1 <= level -> length x = 2 ^ level * q ->
  waverec idwt1 (wavedec dwt1 x level) level = x /\ wavedec dwt1 (waverec idwt1 x level) level = x.
Proof. intros (H1 & H2 & H3 & H4 & H5). exact (@wave_inv dwt1 idwt1 H1 H2 H3 H4). Qed.
Print Assumptions C13_wavedec_waverec.
Theorem C13_dwt_adjoint dwt1 idwt1 : orthogonal_filter_bank dwt1 idwt1 ->
  forall max_level n level T, 1 <= level <= Nat.log2_up n ->
  op_dwt dwt1 idwt1 max_level n level false = Some T ->
  has_adjoint T (2 ^ Nat.log2_up n) n.
Proof. intros (H1 & H2 & H3 & H4 & H5). exact (@op_dwt_adjoint dwt1 idwt1 H1 H2 H5). Qed.
Print Assumptions C13_dwt_adjoint.
Theorem C13_dwt_reconstruction dwt1 idwt1 : orthogonal_filter_bank dwt1 idwt1 ->
  forall max_level n level T (x : list R), 1 <= level <= Nat.log2_up n ->
  op_dwt dwt1 idwt1 max_level n level false = Some T -> length x = n ->
  trans T (times T x) = x.
Proof. intros (H1 & H2 & H3 & H4 & H5). exact (@op_dwt_recon dwt1 idwt1 H1 H2 H3 H4). Qed.
Print Assumptions C13_dwt_reconstruction.
(** for n a power of two no padding happens and the operator is orthogonal *)
Theorem C13_dwt_synthesis dwt1 idwt1 : orthogonal_filter_bank dwt1 idwt1 ->
  forall max_level n level T (c : list R), 1 <= level <= Nat.log2_up n -> 2 ^ Nat.log2_up n = n ->
  op_dwt dwt1 idwt1 max_level n level false = Some T -> length c = n ->
  times T (trans T c) = c.
Proof. intros (H1 & H2 & H3 & H4 & H5). exact (@op_dwt_synth dwt1 idwt1 H1 H2 H3 H4). Qed.
Print Assumptions C13_dwt_synthesis.
(** basis = True returns the same pair with the roles exchanged *)
Theorem C13_dwt_basis dwt1 idwt1 max_level n level T :
  op_dwt dwt1 idwt1 max_level n level true = Some T ->
  exists T', op_dwt dwt1 idwt1 max_level n level false = Some T' /\
    times T = trans T' /\ trans T = times T' /\ om T = on T' /\ on T = om T'.
Proof. exact (@op_dwt_basis dwt1 idwt1 max_level n level T). Qed.
Print Assumptions C13_dwt_basis.
Theorem C13_wavelet_basis dwt1 idwt1 : orthogonal_filter_bank dwt1 idwt1 ->
  forall max_level n level B, 1 <= level <= Nat.log2_up n ->
  wavelet_basis idwt1 max_level n level = Some B -> mat_shape n n B /\ orthonormal_cols n B.
Proof. intros (H1 & H2 & H3 & H4 & H5). exact (@wavelet_basis_orth dwt1 idwt1 H1 H2 H4 H5). Qed.
Print Assumptions C13_wavelet_basis.
(** the Haar filter bank meets the hypotheses *)
Theorem C13_haar : orthogonal_filter_bank haar_dwt haar_idwt.
Proof. exact (conj haar_len (conj haar_ilen (conj haar_idwt_dwt (conj haar_dwt_idwt haar_adj)))). Qed.
Print Assumptions C13_haar.
Example C13_ex : exists T, op_dwt haar_dwt haar_idwt 2 6 2 false = Some T /\ 1 <= 2 <= Nat.log2_up 6.
Proof. eexists. split; [reflexivity|]. cbv. lia. Qed.
(** level = 0 passes the assertion, but trans no longer inverts times *)
Theorem C13_level_zero_refuted :
  exists T (x : list R), op_dwt haar_dwt haar_idwt 1 2 0 false = Some T /\ length x = 2 /\ trans T (times T x) <> x.
Proof. exact dwt_level0_bad. Qed.
Print Assumptions C13_level_zero_refuted.

(** ** C59: cosine basis *)
Theorem C59_cosine_adjoint n : 0 < n -> has_adjoint (op_cosine_basis n) n n.
Proof. exact (@dct_adjoint n). Qed.
Print Assumptions C59_cosine_adjoint.
Theorem C59_cosine_inverse n (x : list R) : 0 < n -> length x = n ->
  trans (op_cosine_basis n) (times (op_cosine_basis n) x) = x /\
  times (op_cosine_basis n) (trans (op_cosine_basis n) x) = x.
Proof. exact (@dct_inv n x). Qed.
Print Assumptions C59_cosine_inverse.
(** times(x)_j = x_0 / sqrt n + sqrt(2/n) sum_{k>=1} x_k cos(pi k (2j+1) / (2n)) *)
Theorem C59_cosine_entries n (x : list R) j : 0 < n -> j < n ->
  nth j (times (op_cosine_basis n) x) 0%R =
  rsum n (fun k => ((if k =? 0 then / sqrt (INR n) else sqrt (2 / INR n)) *
                    cos (PI * INR k * (2 * INR j + 1) / (2 * INR n)) * nth k x 0)%R).
Proof. exact (@dct_times_nth n x j). Qed.
Print Assumptions C59_cosine_entries.
(** the dictionary matrix cosine_basis(n) is orthonormal, and it is the matrix of
    the operator's trans *)
Theorem C59_cosine_matrix n :
  mat_shape n n (cosine_basis_mat n) /\ orthonormal_rows n (cosine_basis_mat n) /\ orthonormal_cols n (cosine_basis_mat n).
Proof. exact (conj (cosine_basis_wf n) (cosine_basis_orth n)). Qed.
Print Assumptions C59_cosine_matrix.

(** ** C60: circulant *)
Theorem C60_circulant_convolution n (c : list R) T (x : list R) i : op_circulant n c = Some T -> length x = n -> i < n ->
  nth i (times T x) 0%R = rsum n (fun j => (nth ((i + n - j) mod n) c 0 * nth j x 0)%R).
Proof. intros H1 H2 H3. rewrite <- Sum_rsum. exact (@circulant_entries n c T x i H1 H2 H3). Qed.
Print Assumptions C60_circulant_convolution.
Theorem C60_circulant_adjoint n c T : 0 < n -> op_circulant n c = Some T -> has_adjoint T n n.
Proof. exact (@circulant_adjoint n c T). Qed.
Print Assumptions C60_circulant_adjoint.
Example C60_ex : exists T, op_circulant 3 [1;2]%R = Some T.
Proof. eexists. reflexivity. Qed.

(** ** C61: FFT operator *)
Theorem C61_fft_adjoint m n T : 0 < n -> op_fft m n false = Some T -> has_adjoint T n m.
Proof. exact (@fft_c2c_adjoint m n T). Qed.
Print Assumptions C61_fft_adjoint.
Theorem C61_fft_real_adjoint m n T (x w : list Cs) : 0 < n -> op_fft m n true = Some T ->
  length x = m -> length w = n -> is_real_vec x -> inner (times T x) w = inner x (trans T w).
Proof. exact (@fft_r2c_adjoint m n T x w). Qed.
Print Assumptions C61_fft_real_adjoint.
(** with real=True the operator is declared linear, but on complex input it
    drops the imaginary part and is no adjoint pair *)
Theorem C61_fft_real_refuted : exists T (x w : list Cs), op_fft 1 1 true = Some T /\ length x = 1 /\ length w = 1 /\
  inner (times T x) w <> inner x (trans T w).
Proof. exact fft_r2c_refuted. Qed.
Print Assumptions C61_fft_real_refuted.
