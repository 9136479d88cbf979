(** Spectral clustering: cr/sparse/_src/cluster/spectral.py.  The Laplacians are
    in SscModel.v and k-means in KMeansModel.v.  Scalars are exact reals.  The
    singular value decompositions (jnp.linalg.svd and, for the fast variants,
    cr.nimble's Lanczos routine) are arguments; each restart of k-means is
    represented by the initial indices its key draws. *)
From Coq Require Import List Arith Bool Reals.
From Verif Require Import Vec RVec RMat Loop SelModel KMeansModel ClusterModel SscModel.
Import ListNotations.
Set Implicit Arguments.
Local Open Scope R_scope.

(** spectral.py:31-43, SpectralclusteringSolution *)
Record spectral_solution := SpectralSolution {
  sp_laplacian : mat;
  sp_singular_values : vec;
  sp_assignment : list nat;
  sp_num_clusters : nat;
  sp_connectivity : R }.

(** jnp.diff *)
Definition diff (l : vec) : vec := tab (length l - 1) (fun i => l@(i + 1) - l@i).
(** spectral.py:69-75 and 152-156: the number of clusters n - argmin(diff(S[:-1])) - 1.
    [None]: jnp.argmin of an empty array raises *)
Definition estimated_clusters (n : nat) (S : vec) : option nat :=
  let sdiff := diff (removelast S) in
  match sdiff with
  | [] => None
  | _ => Some (n - argmin sdiff - 1)%nat
  end.
(** spectral.py:78, 107, 159 and 189: VH.T[:,n-k:], for k <= n *)
Definition last_right_vectors (n k : nat) (VH : mat) : mat :=
  tab n (fun i => tab k (fun j => ent VH (n - k + j) i)).
(** kmeans(key, kernel, k, iter=100) with the defaults thresh=1e-5, max_iters=100
    of kmeans.py:184.  The fuel of the model is the iteration limit. *)
Definition cluster_rows (keys : list (list nat)) (kernel : mat) (k : nat) : option (nat * km_state) :=
  kmeans k keys kernel k (1 / 100000) 100 100.

Section Spectral.
  (** jnp.linalg.svd: U, S, VH *)
  Variable svd : mat -> mat * vec * mat.
  Variable keys : list (list nat).

  (** the common tail of spectral.py:66-90, 104-114, 148-170 and 186-196.  A number of
      clusters above n is not modelled.  S[-2] of an array with one entry is clamped. *)
  Definition spectral_k (n : nat) (L : mat) (k : nat) : option spectral_solution :=
    let '(_, sv, VH) := svd L in
    if Nat.leb k n then
      match cluster_rows keys (last_right_vectors n k VH) k with
      | None => None
      | Some (_, result) => Some (SpectralSolution L sv (km_assignment result) k (sv@(n - 2)))
      end
    else None.
  Definition spectral_auto (n : nat) (L : mat) : option spectral_solution :=
    let '(_, sv, _) := svd L in
    match estimated_clusters n sv with
    | None => None
    | Some k => spectral_k n L k
    end.

  (** spectral.py:92-117, unnormalized_k *)
  Definition unnormalized_k (n : nat) (W : mat) (k : nat) : option spectral_solution :=
    spectral_k n (unnormalized_laplacian n W) k.
  (** spectral.py:54-90, unnormalized *)
  Definition unnormalized (n : nat) (W : mat) : option spectral_solution :=
    spectral_auto n (unnormalized_laplacian n W).
  (** spectral.py:173-196, normalized_random_walk_k; [None] also when a degree is zero *)
  Definition normalized_random_walk_k (n : nat) (W : mat) (k : nat) : option spectral_solution :=
    match normalized_random_walk_laplacian n W with
    | None => None
    | Some L => spectral_k n L k
    end.
  (** spectral.py:133-170, normalized_random_walk *)
  Definition normalized_random_walk (n : nat) (W : mat) : option spectral_solution :=
    match normalized_random_walk_laplacian n W with
    | None => None
    | Some L => spectral_auto n L
    end.
End Spectral.

(** cr.nimble normalize_l2_rw: each row divided by its norm; [None] when a row
    is zero (the quotients are nan) *)
Definition normalize_l2_rw (M : mat) : option mat :=
  if forallb (fun r => negb (Reqb (nrm r) 0)) M then Some (map (fun r => map (fun a => a / nrm r) r) M) else None.

Section Fast.
  (** lasvd.lansvd_simple_jit(W, steps, p0), p0 drawn from the key: U, S, V *)
  Variable lansvd : mat -> nat -> mat * vec * mat.
  Variable keys : list (list nat).
  (** V[:, :k] of a matrix with n rows *)
  Definition first_columns (n k : nat) (V : mat) : mat := tab n (fun i => tab k (fun j => ent V i j)).
  (** spectral.py:211-236, normalized_symmetric_fast_k; the reported connectivity is -1 *)
  Definition normalized_symmetric_fast_k (n : nat) (W : mat) (k : nat) : option spectral_solution :=
    match normalized_symmetric_w n W with
    | None => None
    | Some W1 =>
      let '(_, sv, V) := lansvd W1 (5 * k) in
      match normalize_l2_rw (first_columns n k V) with
      | None => None
      | Some kernel =>
        match cluster_rows keys kernel k with
        | None => None
        | Some (_, result) => Some (SpectralSolution W1 sv (km_assignment result) k (-1))
        end
      end
    end.
End Fast.
