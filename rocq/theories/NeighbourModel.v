(** Angles between points and nearest neighbours of clustered points:
    cluster/ssc/util.py:90-186.  Exact arithmetic. *)
From Coq Require Import List Arith Bool Reals Ratan.
From Verif Require Import Vec RVec RMat Loop KMeansModel ClusterModel SscModel SortedL1Model OptModel.
Import ListNotations.
Local Open Scope R_scope.

(** jnp.rad2deg, called at util.py:99 *)
Definition rad2deg (a : R) : R := a * (180 / PI).
(** util.py:90-99, angles_between_points; X is the list of the points (the columns).
    cr.nimble's normalize_l2_cw divides the columns by their norms. *)
Definition angles_between_points (X : list vec) : mat :=
  let U := unit_cols X in
  let G := map (fun u => map (rdot u) U) U in
  map (map (fun g => rad2deg (acos (Rmin g 1)))) G.

(** cnb.set_diagonal, called at util.py:106 and 140 (cr.nimble, external) *)
Definition set_diagonal (A : mat) (v : R) : mat :=
  tab (length A) (fun i => tab (length A) (fun j => if (i =? j)%nat then v else ent A i j)).
(** jnp.min of a non-empty vector, called at util.py:113 and 131 *)
Definition vmin (l : vec) : R := l@(argmin l).
(** util.py:107, 110-111, start_indices[k] and end_indices[k] *)
Definition starts (sizes : list nat) (k : nat) : nat := nth k (fst (start_end_indices sizes)) 0%nat.
Definition ends (sizes : list nat) (k : nat) : nat := nth k (snd (start_end_indices sizes)) 0%nat.
(** util.py:112, the columns of angles[start:end, start:end] *)
Definition inside_cols (A : mat) (s e : nat) : list vec :=
  tab (e - s) (fun j => tab (e - s) (fun i => ent A (s + i) (s + j))).
(** util.py:127-129, the rows of angles[start:end, :].at[:, start:end].set(10000) *)
Definition outside_rows (A : mat) (s e : nat) : list vec :=
  tab (e - s) (fun i => tab (length A) (fun j => if (s <=? j)%nat && (j <? e)%nat then 10000 else ent A (s + i) j)).
(** util.py:113, 147: jnp.min and jnp.argmin over an empty axis raise *)
Definition no_empty (sizes : list nat) : bool := forallb (fun z => negb (z =? 0)%nat) sizes.
(** util.py:102-116, min_angles_inside_cluster *)
Definition min_angles_inside_cluster (angles : mat) (sizes : list nat) : option vec :=
  let angles := set_diagonal angles 10000 in
  if no_empty sizes then
    Some (concat (map (fun k => map vmin (inside_cols angles (starts sizes k) (ends sizes k))) (seq 0 (length sizes))))
  else None.
(** util.py:118-134, min_angles_outside_cluster *)
Definition min_angles_outside_cluster (angles : mat) (sizes : list nat) : vec :=
  concat (map (fun k => map vmin (outside_rows angles (starts sizes k) (ends sizes k))) (seq 0 (length sizes))).
(** util.py:136-150, nearest_neighbors_inside_cluster *)
Definition nearest_neighbors_inside_cluster (angles : mat) (sizes : list nat) : option (list nat) :=
  let angles := set_diagonal angles 10000 in
  if no_empty sizes then
    Some (concat (map (fun k => map (fun c => argmin c + starts sizes k)%nat (inside_cols angles (starts sizes k) (ends sizes k))) (seq 0 (length sizes))))
  else None.
(** util.py:152-168, nearest_neighbors_outside_cluster *)
Definition nearest_neighbors_outside_cluster (angles : mat) (sizes : list nat) : list nat :=
  concat (map (fun k => map argmin (outside_rows angles (starts sizes k) (ends sizes k))) (seq 0 (length sizes))).
(** util.py:171-178, sorted_neighbors *)
Definition sorted_neighbors (angles : mat) : list (list nat) := map (fun r => skipn 1 (argsort r)) angles.
(** util.py:181-186, inn_positions *)
Definition inn_positions (labels : list nat) (sorted_neighbor_labels : list (list nat)) : list nat :=
  tab (length labels) (fun s => argmax_bool (map (fun l => (l =? nth s labels 0)%nat) (nth s sorted_neighbor_labels []))).
