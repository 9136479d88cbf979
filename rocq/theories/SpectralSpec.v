(** Vocabulary for spectral clustering. *)
From Coq Require Import List Arith Bool Reals.
From Verif Require Import Vec RVec RMat.
Import ListNotations.
Set Implicit Arguments.
Local Open Scope R_scope.

(** i and j are joined by a path of edges with nonzero weight *)
Inductive connected (n : nat) (W : mat) : nat -> nat -> Prop :=
| conn_refl i : connected n W i i
| conn_step i j k : (i < n)%nat -> (j < n)%nat -> ent W i j <> 0 -> connected n W j k -> connected n W i k.

(** The graph of W on the vertices 0..n-1 has exactly k connected components,
    numbered by c. *)
Definition components (n : nat) (W : mat) (k : nat) (c : nat -> nat) : Prop :=
  (forall i, (i < n)%nat -> (c i < k)%nat) /\
  (forall a, (a < k)%nat -> exists i, (i < n)%nat /\ c i = a) /\
  (forall i j, (i < n)%nat -> (j < n)%nat -> (connected n W i j <-> c i = c j)).
(** number of vertices of component a *)
Definition component_size (n : nat) (c : nat -> nat) (a : nat) : nat :=
  length (filter (fun i => Nat.eqb (c i) a) (seq 0 n)).

(** The component of vertex i can be coloured with two colours so that all its
    edges join different colours. *)
Definition two_colourable (n : nat) (W : mat) (i : nat) : Prop :=
  exists colour : nat -> bool, forall p q, (p < n)%nat -> (q < n)%nat ->
    connected n W i p -> ent W p q <> 0 -> colour p <> colour q.

Definition delta (i j : nat) : R := if Nat.eqb i j then 1 else 0.
(** Q Q^T = I = Q^T Q *)
Definition orthogonal (n : nat) (Q : mat) : Prop :=
  forall i j, (i < n)%nat -> (j < n)%nat ->
    rsum n (fun t => ent Q i t * ent Q j t) = delta i j /\
    rsum n (fun t => ent Q t i * ent Q t j) = delta i j.
(** M = U diag(S) VH with orthogonal U, VH and nonnegative nonincreasing S *)
Definition is_svd (n : nat) (M U : mat) (S : vec) (VH : mat) : Prop :=
  orthogonal n U /\ orthogonal n VH /\ length S = n /\
  (forall i, (i < n)%nat -> 0 <= S@i) /\
  (forall i j, (i <= j)%nat -> (j < n)%nat -> S@j <= S@i) /\
  (forall i j, (i < n)%nat -> (j < n)%nat -> ent M i j = rsum n (fun l => ent U i l * S@l * ent VH l j)).
(** the first k columns of V are right singular vectors of M for its k largest
    singular values, the first k entries of S *)
Definition leading_right_vectors (n k : nat) (M : mat) (S : vec) (V : mat) : Prop :=
  exists U T VH, is_svd n M U T VH /\
    forall j, (j < k)%nat -> S@j = T@j /\ forall i, (i < n)%nat -> ent V i j = ent VH j i.

(** The labels say of any two vertices whether they are connected. *)
Definition labels_components (n : nat) (W : mat) (labels : list nat) : Prop :=
  length labels = n /\
  forall i j, (i < n)%nat -> (j < n)%nat -> (nth i labels 0%nat = nth j labels 0%nat <-> connected n W i j).

(** The initial picks of a k-means restart: k vertices. *)
Definition picks (n k : nat) (idx : list nat) : Prop := length idx = k /\ forall i, In i idx -> (i < n)%nat.
(** ... one in each component *)
Definition picks_every_component (n k : nat) (c : nat -> nat) (idx : list nat) : Prop :=
  forall a, (a < k)%nat -> exists i, In i idx /\ c i = a.
