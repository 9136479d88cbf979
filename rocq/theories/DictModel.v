(** Model of cr/sparse/_src/dict/props.py, comparison.py and of
    minimum_coherence in grass.py.  A dictionary is a matrix given as its list
    of rows; atoms are its columns. *)
From Coq Require Import List Arith Bool Reals.
From Verif Require Import Scalar Vec RVec RMat Loop OptModel SelModel.
Import ListNotations.
Local Open Scope R_scope.

(** A.shape[1] *)
Definition ncols {X} (A : list (list X)) : nat := length (hd [] A).
(** A[:, j] *)
Definition col (A : mat) (j : nat) : vec := map (fun r => r@j) A.
(** dict/props.py:20-24, real branch: A.T @ A *)
Definition gram (A : mat) : mat := tab (ncols A) (fun i => tab (ncols A) (fun j => rdot (col A i) (col A j))).
(** dict/props.py:28-32, real branch: A @ A.T *)
Definition frame (A : mat) : mat := map (fun r => map (fun r' => rdot r r') A) A.
(** the matrix product A.T @ B *)
Definition cross (A B : mat) : mat := tab (ncols A) (fun i => tab (ncols B) (fun j => rdot (col A i) (col B j))).
(** jnp.unravel_index for a matrix with n columns *)
Definition unravel (k n : nat) : nat * nat := (k / n, k mod n)%nat.
(** dict/props.py:40-47 given the Gram matrix *)
Definition gram_coherence (G : mat) : R * (nat * nat) :=
  let n := length G in
  let G := tab n (fun i => tab n (fun j => if (i =? j)%nat then 0 else Rabs (ent G i j))) in
  let index := unravel (argmax (concat G)) n in
  (ent G (fst index) (snd index), index).
(** dict/props.py:37-47 *)
Definition coherence_with_index (A : mat) : R * (nat * nat) := gram_coherence (gram A).
(** dict/props.py:50-54 *)
Definition coherence (A : mat) : R := fst (coherence_with_index A).
(** jnp.cumsum *)
Fixpoint cumsum_from (acc : R) (l : vec) : vec :=
  match l with [] => [] | a :: l => (acc + a) :: cumsum_from (acc + a) l end.
(** dict/props.py:77-92; row[-2::-1] is the reversed row without its last (largest) entry *)
Definition babel (A : mat) : vec :=
  let G := map (map Rabs) (gram A) in
  let G := map (@rsort) G in
  let G := map (fun row => tl (rev row)) G in
  let sums := map (cumsum_from 0) G in
  tab (ncols A - 1) (fun p => vmax (map (fun row => row@p) sums)).
(** dict/props.py:95-106, real dictionaries *)
Definition mutual_coherence_with_index (A B : mat) : R * (nat * nat) :=
  let G := map (map Rabs) (cross A B) in
  let index := unravel (argmax (concat G)) (ncols B) in
  (ent G (fst index) (snd index), index).
(** dict/props.py:108-112 *)
Definition mutual_coherence (A B : mat) : R := fst (mutual_coherence_with_index A B).

(** *** complex dictionaries *)
Definition ccol (A : list (list Cx)) (j : nat) : list Cx := map (fun r => nth j r (0, 0)) A.
(** dict/props.py:25-26: the real part of A^H A *)
Definition gram_complex (A : list (list Cx)) : mat :=
  tab (ncols A) (fun i => tab (ncols A) (fun j => fst (@inner Cs (ccol A i) (ccol A j) : Cx))).
Definition coherence_complex (A : list (list Cx)) : R := fst (gram_coherence (gram_complex A)).

(** dict/grass.py:28-33; None is the ValueError of sqrt or a division by zero *)
Definition minimum_coherence (m n : nat) : option R :=
  let numer := INR n - INR m in
  let denom := INR m * (INR n - 1) in
  if Reqb denom 0 then None else if Rltb (numer / denom) 0 then None else Some (sqrt (numer / denom)).

(** dict/comparison.py:18-35 *)
Definition matching_atoms_ratio (A B : mat) (distance_threshold : R) : R :=
  let similarities := map (map Rabs) (cross A B) in
  let max_similarities := map vmax similarities in
  let min_distances := map (fun s => 1 - s) max_similarities in
  let matches := map (fun d => Rltb d distance_threshold) min_distances in
  INR (length (filter (fun b => b) matches)) / INR (ncols A).
