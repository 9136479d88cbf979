(** Sparse subspace clustering and graph Laplacians:
    cr/sparse/_src/cluster/ssc/util.py, ssc/omp.py, spectral.py. *)
From Coq Require Import List Arith Bool Reals.
From Verif Require Import Vec RVec RMat Loop SelModel SolverSpec KMeansModel ClusterModel.
Import ListNotations.
Set Implicit Arguments.
Local Open Scope R_scope.

(** column c of a table given by rows *)
Definition icol (I : list (list nat)) (c : nat) : list nat := map (fun r => nth c r 0%nat) I.
Definition vcol (X : mat) (c : nat) : vec := map (fun r => r@c) X.

(** *** ssc/util.py *)
(** zeros(n).at[idx].set(x): later writes win, indices past the end are dropped *)
Fixpoint write_all (idx : list nat) (x : vec) (f : nat -> R) : nat -> R :=
  match idx, x with
  | i :: idx, a :: x => write_all idx x (fun j => if Nat.eqb j i then a else f j)
  | _, _ => f
  end.
(** util.py:29-36, sparse_to_full_rep; n = X.shape[1].  Row r of the n x n result *)
Definition sparse_to_full_rep (n : nat) (X : mat) (I : list (list nat)) : mat :=
  tab n (fun r => tab n (fun c => write_all (icol I c) (vcol X c) (fun _ => 0) r)).

(** a BCOO matrix: values and (row, column) pairs; the dense matrix adds up repeated positions *)
Record bcoo := BCOO { bc_values : vec; bc_indices : list (nat * nat) }.
Definition bcoo_todense (n : nat) (C : bcoo) : mat :=
  tab n (fun r => tab n (fun c =>
    rlsum (zipw (fun v p => if Nat.eqb (fst p) r && Nat.eqb (snd p) c then v else 0) (bc_values C) (bc_indices C)))).
(** util.py:38-63, sparse_to_bcoo; k = I.shape[0] *)
Definition sparse_to_bcoo (n : nat) (X : mat) (I : list (list nat)) : bcoo :=
  let k := length I in
  let cols := concat (repeat (seq 0 n) k) in
  let rows := concat I in
  BCOO (concat X) (combine rows cols).
(** jnp.reshape(l, (k, n)) *)
Fixpoint reshape {A} (k n : nat) (l : list A) : list (list A) :=
  match k with O => [] | S k => firstn n l :: reshape k n (skipn n l) end.
(** util.py:65-77, bcoo_to_sparse *)
Definition bcoo_to_sparse (C : bcoo) (k : nat) : mat * list (list nat) :=
  let n := (length (bc_values C) / k)%nat in
  (reshape k n (bc_values C), reshape k n (map fst (bc_indices C))).
(** util.py:82-88, rep_to_affinity on a dense n x n matrix *)
Definition rep_to_affinity (n : nat) (Z : mat) : mat :=
  tab n (fun i => tab n (fun j => Rabs (ent Z i j) + Rabs (ent Z j i))).

(** util.py:211-226: statistics of signal i with coefficients ci = |C[:, i]|.
    The error is [None] (NaN) for a zero column. *)
Definition spr_of (ci : vec) (lab : list nat) (k : nat) : bool * option R :=
  let flag := forallb (fun b => b)
    (zipw (fun c l => if Rleb (1/1000) c then Nat.eqb l k else true) ci lab) in
  let cik := zipw (fun c l => if Nat.eqb l k then c else 0) ci lab in
  (flag, if Reqb (rlsum ci) 0 then None else Some (1 - rlsum cik / rlsum ci)).
(** util.py:203-233, subspace_preservation_stats: the per-signal values *)
Definition spr_stats (n : nat) (C : mat) (labels : list nat) : list (bool * option R) :=
  map (fun i => spr_of (map Rabs (vcol C i)) labels (nth i labels 0%nat)) (seq 0 n).
(** util.py:250-268, sparse_subspace_preservation_stats for signal i: labels of
    coefficients below 1e-3 are replaced by k before the in-cluster sum *)
Definition sparse_spr_of (ci : vec) (lab : list nat) (k : nat) : bool * option R :=
  let lab' := zipw (fun c l => if Rltb c (1/1000) then k else l) ci lab in
  let flag := forallb (Nat.eqb k) lab' in
  let cik := zipw (fun c l => if Nat.eqb l k then c else 0) ci lab' in
  (flag, if Reqb (rlsum ci) 0 then None else Some (1 - rlsum cik / rlsum ci)).
Definition sparse_spr_stats (n : nat) (Z : mat) (I : list (list nat)) (labels : list nat) : list (bool * option R) :=
  map (fun i => sparse_spr_of (map Rabs (vcol Z i)) (map (fun a => nth a labels 0%nat) (icol I i)) (nth i labels 0%nat)) (seq 0 n).
(** jnp.mean over the signals; NaN as soon as one entry is *)
Fixpoint all_some (l : list (option R)) : option vec :=
  match l with
  | [] => Some []
  | Some a :: l => match all_some l with Some r => Some (a :: r) | None => None end
  | None :: _ => None
  end.
Definition spr_error (st : list (bool * option R)) : option R :=
  match all_some (map snd st) with Some e => Some (mean e) | None => None end.

(** *** ssc/omp.py.  The data matrix is given by its columns. *)
Section OMP.
  (** cr.nimble solve_on_submatrix: least squares on the selected columns *)
  Variable lstsq : list vec -> vec -> vec.
  (** cnb.normalize_l2_cw (nonzero columns) *)
  Definition unit_cols (X : list vec) : list vec := map (fun x => rscale (/ nrm x) x) X.
  (** omp.py:38-44, 50-52: correlations with the residual, own entry set to 0, best match *)
  Definition ssc_select (Dict : list vec) (i : nat) (r : vec) : nat :=
    abs_max_idx (tab (length Dict) (fun j => if Nat.eqb j i then 0 else rdot (nth j Dict []) r)).
  (** state of column i: selected indices, coefficients, residual *)
  Record ssc_state := SSC { ss_I : list nat; ss_z : vec; ss_r : vec }.
  (** omp.py:50-57 (and 38-47 for the first iteration), for signal i with right-hand side x *)
  Definition ssc_step (Dict : list vec) (i : nat) (x : vec) (s : ssc_state) : ssc_state :=
    let I := ss_I s ++ [ssc_select Dict i (ss_r s)] in
    let cols := map (fun j => nth j Dict []) I in
    let z := lstsq cols x in
    SSC I z (rsub x (lincomb (length x) z cols)).
  Definition ssc_column (Dict : list vec) (K i : nat) (x r0 : vec) : ssc_state :=
    Nat.iter (Nat.max 1 K) (ssc_step Dict i x) (SSC [] [] r0).
  (** omp.py:24-58, build_representation_omp: residuals start from the normalised
      columns, the systems are solved for the original ones *)
  Definition build_representation_omp (X : list vec) (K : nat) : list ssc_state :=
    let Xn := unit_cols X in
    map (fun i => ssc_column Xn K i (nth i X []) (nth i Xn [])) (seq 0 (length X)).
  (** omp.py:71-77: start and end of every batch *)
  Definition batches (N bs : nat) : list (nat * nat) :=
    let nb := ((N + bs - 1) / bs)%nat in
    map (fun b => (b * bs, if Nat.eqb (S b) nb then N else b * bs + bs)%nat) (seq 0 nb).
  (** omp.py:64-124, batch_build_representation_omp: here the systems are solved
      for the normalised columns *)
  Definition batch_build_representation_omp (X : list vec) (K bs : nat) : list ssc_state :=
    let Xn := unit_cols X in
    concat (map (fun se : nat * nat => let (s, e) := se in
      map (fun i => ssc_column Xn K i (nth i Xn []) (nth i Xn [])) (seq s (e - s))) (batches (length X) bs)).
End OMP.

(** *** spectral.py *)
(** jnp.sum(W, 0) *)
Definition degrees (n : nat) (W : mat) : vec := tab n (fun j => rsum n (fun i => ent W i j)).
(** spectral.py:46-51, unnormalized_laplacian *)
Definition unnormalized_laplacian (n : nat) (W : mat) : mat :=
  tab n (fun i => tab n (fun j => (if Nat.eqb i j then (degrees n W)@i else 0) - ent W i j)).
(** spectral.py:122-129, normalized_random_walk_laplacian; [None] when a degree
    is zero (the inverse is inf) *)
Definition all_nonzero (l : vec) : bool := forallb (fun d => negb (Reqb d 0)) l.
Definition normalized_random_walk_laplacian (n : nat) (W : mat) : option mat :=
  let D := degrees n W in
  if all_nonzero D then
    Some (tab n (fun i => tab n (fun j => - (/ D@i * ent W i j) + (if Nat.eqb i j then 1 else 0))))
  else None.
(** spectral.py:200-208, normalized_symmetric_w; [None] when a degree is not positive *)
Definition all_positive (l : vec) : bool := forallb (fun d => Rltb 0 d) l.
Definition normalized_symmetric_w (n : nat) (W : mat) : option mat :=
  let D := degrees n W in
  if all_positive D then
    Some (tab n (fun i => tab n (fun j => / sqrt D@i * ent W i j * / sqrt D@j)))
  else None.
(** spectral.py:241-254, normalized_symmetric_sparse_w: the same on the stored entries *)
Definition bcoo_degrees (n : nat) (W : bcoo) : vec :=
  tab n (fun c => rlsum (zipw (fun v p => if Nat.eqb (snd p) c then v else 0) (bc_values W) (bc_indices W))).
Definition normalized_symmetric_sparse_w (n : nat) (W : bcoo) : option bcoo :=
  let D := bcoo_degrees n W in
  if all_positive D then
    Some (BCOO (zipw (fun v p => v * (/ sqrt D@(fst p)) * (/ sqrt D@(snd p))) (bc_values W) (bc_indices W)) (bc_indices W))
  else None.
