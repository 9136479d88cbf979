(** Label utilities, clustering error, SSC representations and graph Laplacians:
    cr/sparse/_src/cluster/util.py, cluster/ssc/util.py, cluster/spectral.py and
    block/util.py. *)
From Coq Require Import List Arith Bool ZArith Reals.
From Verif Require Import Vec RVec RMat Loop KMeansModel.
Import ListNotations.
Set Implicit Arguments.

(** *** cluster/util.py *)
(** util.py:30-36, sizes_from_labels: number of labels equal to each of 0..k-1 *)
Definition sizes_from_labels (labels : list nat) (k : nat) : list nat :=
  map (fun c => length (filter (Nat.eqb c) labels)) (seq 0 k).

(** jnp.cumsum *)
Fixpoint cumsum_from (acc : nat) (l : list nat) : list nat :=
  match l with [] => [] | a :: l => (acc + a) :: cumsum_from (acc + a) l end.
Definition cumsum (l : list nat) : list nat := cumsum_from 0 l.
(** cr.nimble vec_shift_right: shifts right by one place, filling with 0 *)
Definition vec_shift_right (l : list nat) : list nat :=
  match l with [] => [] | _ => 0 :: removelast l end.
(** util.py:40-48, start_end_indices *)
Definition start_end_indices (sizes : list nat) : list nat * list nat :=
  let start_indices := cumsum sizes in
  let start_indices := vec_shift_right start_indices in
  let end_indices := zipw Nat.add start_indices sizes in
  (start_indices, end_indices).

(** util.py:51-59, labels_from_sizes; enumerate starts at 0 *)
Fixpoint labels_from (k : nat) (sizes : list nat) : list nat :=
  match sizes with [] => [] | s :: sizes => repeat k s ++ labels_from (S k) sizes end.
Definition labels_from_sizes (sizes : list nat) : list nat := labels_from 0 sizes.

(** jnp.unique: the distinct entries in increasing order *)
Fixpoint insert_unique (x : Z) (l : list Z) : list Z :=
  match l with
  | [] => [x]
  | y :: l' => if Z.ltb x y then x :: l else if Z.eqb x y then l else y :: insert_unique x l'
  end.
Definition unique (l : list Z) : list Z := fold_right insert_unique [] l.
(** indexing a JAX array: an index past the end is clamped to the last entry *)
Definition jget (l : list Z) (i : nat) : Z := nth (Nat.min i (length l - 1)) l 0%Z.

(** number of positions where the two label vectors take the given values *)
Definition joint_count {A} (eqb : A -> A -> bool) (t p : list A) (a b : A) : nat :=
  length (filter (fun tp => eqb (fst tp) a && eqb (snd tp) b) (combine t p)).

(** util.py:77-84, the contingency table; np.zeros outside the label ranges *)
Definition best_map_G (t p : list Z) : list (list nat) :=
  let labels_1 := unique t in
  let labels_2 := unique p in
  let n_labels := Nat.max (length labels_1) (length labels_2) in
  map (fun i => map (fun j =>
    if Nat.ltb i (length labels_1) && Nat.ltb j (length labels_2)
    then joint_count Z.eqb t p (nth i labels_1 0%Z) (nth j labels_2 0%Z) else 0) (seq 0 n_labels)) (seq 0 n_labels).
(** util.py:87-91: mapped_labels.at[pred_labels == old].set(new), from zeros *)
Definition set_where {A} (eqb : A -> A -> bool) (p : list A) (old new : A) (m : list A) : list A :=
  zipw (fun q v => if eqb q old then new else v) p m.
(** util.py:62-92, best_map; [lsa] stands for scipy's linear_sum_assignment on -G
    (its column permutation).  [None]: ValueError. *)
Definition best_map (lsa : list (list nat) -> list nat) (t p : list Z) : option (list Z * list nat) :=
  if negb (Nat.eqb (length t) (length p)) then None else
  let labels_1 := unique t in
  let labels_2 := unique p in
  let cols := lsa (best_map_G t p) in
  let mapped := fold_left (fun m i => set_where Z.eqb p (jget labels_2 (nth i cols 0)) (jget labels_1 i) m)
    (seq 0 (length labels_2)) (repeat 0%Z (length p)) in
  Some (mapped, cols).
(** util.py:95-113, best_map_k; labels are indices below k *)
Definition best_map_k_G (t p : list nat) (k : nat) : list (list nat) :=
  map (fun i => map (fun j => joint_count Nat.eqb t p i j) (seq 0 k)) (seq 0 k).
Definition best_map_k (lsa : list (list nat) -> list nat) (t p : list nat) (k : nat) : option (list nat * list nat) :=
  if negb (Nat.eqb (length t) (length p)) then None else
  let cols := lsa (best_map_k_G t p k) in
  let mapped := fold_left (fun m i => set_where Nat.eqb p (nth i cols 0) i m) (seq 0 k) (repeat 0 (length p)) in
  Some (mapped, cols).
(** util.py:146-149, 159-162: num_missed and error *)
Definition num_missed {A} (eqb : A -> A -> bool) (t m : list A) : nat :=
  length (filter (fun tp => negb (eqb (fst tp) (snd tp))) (combine t m)).
Definition clustering_error (lsa : list (list nat) -> list nat) (t p : list Z) : option (nat * R) :=
  match best_map lsa t p with
  | None => None
  | Some (mapped, _) => let missed := num_missed Z.eqb t mapped in Some (missed, (INR missed / INR (length t))%R)
  end.
Definition clustering_error_k (lsa : list (list nat) -> list nat) (t p : list nat) (k : nat) : option (nat * R) :=
  match best_map_k lsa t p k with
  | None => None
  | Some (mapped, _) => let missed := num_missed Nat.eqb t mapped in Some (missed, (INR missed / INR (length t))%R)
  end.

(** *** block/util.py *)
(** block/util.py:17-23, start_locations *)
Definition start_locations (n b : Z) : list Z := map (fun i => (Z.of_nat i * b)%Z) (seq 0 (Z.to_nat (n / b))).
(** block/util.py:25-27, end_locations *)
Definition end_locations (n b : Z) : list Z := map (fun s => (s + b - 1)%Z) (start_locations n b).
(** block/util.py:30-34, block_lens_from_start_locs *)
Fixpoint zdiff (l : list Z) : list Z :=
  match l with a :: l' => match l' with b :: _ => (b - a)%Z :: zdiff l' | [] => [] end | [] => [] end.
Definition block_lens_from_start_locs (starts : list Z) (n : Z) : list Z :=
  zdiff starts ++ [(n - last starts 0)%Z].
