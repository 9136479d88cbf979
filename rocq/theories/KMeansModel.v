(** k-means: cr/sparse/_src/cluster/kmeans.py.  Points and centroids are the
    rows of matrices, here lists of real vectors; scalars are exact reals.  The
    random choice of the initial centroids is an argument. *)
From Coq Require Import List Arith Bool Reals.
From Verif Require Import Vec RVec RMat Loop SelModel.
Import ListNotations.
Set Implicit Arguments.
Local Open Scope R_scope.

(** jnp.argmin: position of the first smallest entry *)
Definition argmin (l : vec) : nat := argmax (map Ropp l).
(** row j of a matrix *)
Definition row (M : mat) (j : nat) : vec := nth j M [].

(** kmeans.py:56-66, find_nearest *)
Definition find_nearest (point : vec) (centroids : mat) : nat :=
  argmin (map (fun c => nrm (rsub c point)) centroids).

(** kmeans.py:70-88, find_assignment *)
Definition find_assignment (points centroids : mat) : list nat * vec :=
  let assignment := map (fun point => find_nearest point centroids) points in
  let errors := zipw (fun a p => rsub (row centroids a) p) assignment points in
  let distances := map nrm errors in
  (assignment, distances).

(** kmeans.py:92-99, assignment_counts: the comparison, sum and clip(min=1) for row j *)
Definition assignment_counts (assignment : list nat) (k : nat) : list nat :=
  map (fun j => Nat.max 1 (length (filter (Nat.eqb j) assignment))) (seq 0 k).

(** kmeans.py:101-120, find_new_centroids: masked sum over the points, divided
    by the counts.  d is points.shape[1]. *)
Definition masked_sum (d : nat) (assignment : list nat) (points : mat) (j : nat) : vec :=
  fold_right radd (rzero d)
    (zipw (fun a p => if Nat.eqb a j then p else rzero d) assignment points).
Definition find_new_centroids (d : nat) (assignment : list nat) (points : mat) (k : nat) : mat :=
  let counts := assignment_counts assignment k in
  map (fun j => map (fun s => s / INR (nth j counts 0%nat)) (masked_sum d assignment points j)) (seq 0 k).

(** jnp.mean *)
Definition mean (l : vec) : R := rlsum l / INR (length l).

(** kmeans.py:27-40, KMeansState; the initial prev_distortion is inf = [None] *)
Record km_state := KM {
  km_centroids : mat;
  km_assignment : list nat;
  km_distortion : R;
  km_prev : option R;
  km_iters : nat }.

(** kmeans.py:145-156: indices is random.permutation(key, arange(n))[:k] *)
Definition km_init (indices : list nat) (points : mat) : km_state :=
  let centroids := map (row points) indices in
  let '(assignment, distances) := find_assignment points centroids in
  KM centroids assignment (mean distances) None 0.
(** kmeans.py:158-168 *)
Definition km_body (d : nat) (points : mat) (k : nat) (s : km_state) : option km_state :=
  let centroids := find_new_centroids d (km_assignment s) points k in
  let '(assignment, distances) := find_assignment points centroids in
  Some (KM centroids assignment (mean distances) (Some (km_distortion s)) (km_iters s + 1)).
(** kmeans.py:170-174; inf - distortion > thresh holds for every finite thresh *)
Definition km_cond (thresh : R) (max_iters : nat) (s : km_state) : bool :=
  match km_prev s with
  | None => true
  | Some p => Rltb thresh (p - km_distortion s)
  end && Nat.ltb (km_iters s) max_iters.
(** kmeans.py:124-180, kmeans_with_seed *)
Definition kmeans_with_seed (d : nat) (indices : list nat) (points : mat) (k : nat)
    (thresh : R) (max_iters fuel : nat) : outcome km_state :=
  while_ (km_cond thresh max_iters) (km_body d points k) fuel (km_init indices points).

(** kmeans.py:184-227, kmeans: one run per key, the run with least distortion.
    Each key is represented by the initial indices it draws.  [None]: a run did
    not finish within the fuel. *)
Definition run_all (d : nat) (keys : list (list nat)) (points : mat) (k : nat)
    (thresh : R) (max_iters fuel : nat) : list (outcome km_state) :=
  map (fun indices => kmeans_with_seed d indices points k thresh max_iters fuel) keys.
Fixpoint all_done {S} (l : list (outcome S)) : option (list S) :=
  match l with
  | [] => Some []
  | Done s :: l => match all_done l with Some r => Some (s :: r) | None => None end
  | _ => None
  end.
(** the chosen restart and its final state *)
Definition kmeans (d : nat) (keys : list (list nat)) (points : mat) (k : nat)
    (thresh : R) (max_iters fuel : nat) : option (nat * km_state) :=
  match all_done (run_all d keys points k thresh max_iters fuel) with
  | None => None
  | Some results =>
    let i := argmin (map km_distortion results) in
    match nth_error results i with Some s => Some (i, s) | None => None end
  end.
