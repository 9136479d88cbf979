(** Model of the sparse fast spectral clustering, cluster/spectral.py. *)
From Coq Require Import List Arith Bool Reals.
From Verif Require Import Vec RVec RMat Loop SelModel KMeansModel ClusterModel SscModel SpectralModel.
Import ListNotations.
Local Open Scope R_scope.

Section FastSparse.
  (** lasvd.lansvd_simple_jit; it uses the sparse matrix only through products, so it is
      given the matrix those products are taken with *)
  Variable lansvd : mat -> nat -> mat * vec * mat.
  Variable keys : list (list nat).
  (** spectral.py:256-279, normalized_symmetric_sparse_fast_k; the solution stores the
      sparse matrix, here its dense form *)
  Definition normalized_symmetric_sparse_fast_k (n : nat) (W : bcoo) (k : nat) : option spectral_solution :=
    match normalized_symmetric_sparse_w n W with
    | None => None
    | Some W1 =>
      let M := bcoo_todense n W1 in
      let '(_, sv, V) := lansvd M (5 * k) in
      match normalize_l2_rw (first_columns n k V) with
      | None => None
      | Some kernel =>
        match cluster_rows keys kernel k with
        | None => None
        | Some (_, result) => Some (SpectralSolution M sv (km_assignment result) k (-1))
        end
      end
    end.
End FastSparse.
