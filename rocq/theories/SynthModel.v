(** Synthetic sparse data (src/cr/sparse/_src/data/synthetic/random.py).

    The draws of the random number generator are arguments of the model: a
    permutation, or a selection of distinct block numbers, and matrices of
    real values.  Nothing is assumed about them in the model; the theorems
    name what they use.  [None] stands for an exception.  Arithmetic is
    exact. *)
From Coq Require Import List Arith Bool Reals.
From Verif Require Import Scalar Vec RVec RMat Loop SortedL1Model PursuitModel.
Import ListNotations.
Local Open Scope R_scope.

(** The array that jnp.squeeze returns for a matrix with D rows and S
    columns (random.py:66,106,155,252): every axis of length one is
    dropped. *)
Inductive squeezed := Num (r : R) | Arr1 (v : vec) | Arr2 (A : mat).

(** Model of jnp.squeeze on a D x S matrix (random.py:66,106,155,252). *)
Definition squeeze (D S : nat) (X : mat) : squeezed :=
  match Nat.eqb D 1, Nat.eqb S 1 with
  | true, true => Num (ent X 0 0)
  | true, false => Arr1 (nth 0 X [])
  | false, true => Arr1 (map (fun r => nth 0 r 0) X)
  | false, false => Arr2 X
  end.

(** Assigns one row (part of random.py:65); indices out of range are
    dropped, as JAX does. *)
Definition set_row (X : mat) (i : nat) (v : vec) : mat :=
  tab (length X) (fun k => if Nat.eqb k i then v else nth k X []).

(** Model of X.at[omega, :].set(values) (random.py:65,105,153,251): the rows
    are assigned one after the other. *)
Definition set_rows (X : mat) (omega : list nat) (values : mat) : mat :=
  fold_left (fun X p => set_row X (fst p) (snd p)) (combine omega values) X.

(** jnp.zeros([D, S]) (random.py:64,104,152,249). *)
Definition zeros (D S : nat) : mat := repeat (rzero S) D.

(** The assignment with its shape check: the values must have one row for
    each index, or a single row, which is then broadcast
    (random.py:64-65,104-105,152-153,249-251). *)
Definition place (D S : nat) (omega : list nat) (values : mat) : option mat :=
  if Nat.eqb (length values) (length omega) then
    Some (set_rows (zeros D S) omega values)
  else if Nat.eqb (length values) 1 then
    Some (set_rows (zeros D S) omega (repeat (nth 0 values []) (length omega)))
  else None.

(** random.py:58-61, 93-96, 149-150: the support. *)
Definition support (perm : list nat) (K : nat) : list nat :=
  nsort (firstn K perm).

(** Applies a function to every entry of a matrix. *)
Definition mmap (f : R -> R) (A : mat) : mat := map (map f) A.
(** Combines two matrices entry by entry. *)
Definition mzip (f : R -> R -> R) (A B : mat) : mat := zipw (zipw f) A B.

(** Model of sparse_normal_representations, random.py:22-67.  [perm] is the
    permutation of line 59 and [values] the draw of line 63. *)
Definition sparse_normal_representations (D K S : nat) (perm : list nat)
    (values : mat) : option (squeezed * list nat) :=
  let omega := support perm K in
  match place D S omega values with
  | Some X => Some (squeeze D S X, omega)
  | None => None
  end.

(** Model of sparse_biuniform_representations, random.py:69-107.  [u] is the
    uniform draw of line 98, [g] the normal draw of line 101. *)
Definition sparse_biuniform_representations (a b : R) (D K S : nat)
    (perm : list nat) (u g : mat) : option (squeezed * list nat) :=
  let omega := support perm K in
  let values := mmap (fun t => a + (b - a) * t) u in
  let sgn := mmap sign g in
  let values := mzip Rmult sgn values in
  match place D S omega values with
  | Some X => Some (squeeze D S X, omega)
  | None => None
  end.

(** Model of sparse_spikes, random.py:112-156.  [g] is the normal draw of
    line 151. *)
Definition sparse_spikes (N K S : nat) (perm : list nat) (g : mat)
  : option (squeezed * list nat) :=
  let omega := support perm K in
  let spikes := mmap sign g in
  match place N S omega spikes with
  | Some X => Some (squeeze N S X, omega)
  | None => None
  end.

(** Transposed matrix with m columns (used for the output axis of
    random.py:164). *)
Definition ntranspose (m : nat) (A : list (list nat)) : list (list nat) :=
  tab m (fun j => map (fun r => nth j r 0%nat) A).

(** Model of index_sets, random.py:158-165.  [perms] are the permutations of
    line 163, one for each signal. *)
Definition index_sets (N K : nat) (out_axis : nat) (perms : list (list nat))
  : list (list nat) :=
  let sets := map (firstn K) perms in
  match out_axis with
  | O => sets
  | _ => ntranspose (Nat.min K N) sets
  end.

(** Model of points_orthogonal_to, random.py:168-179.  [points] is the draw
    of line 176.  Division by a zero norm gives NaN in the code, [None]
    here. *)
Definition points_orthogonal_to (x : vec) (points : mat) : option mat :=
  if Reqb (nrm x) 0 then None
  else
    let x := rscale (/ nrm x) x in
    let correlations := mv points x in
    Some (zipw (fun p c => rsub p (rscale c x)) points correlations).

(** Model of the correlation loop, random.py:240-244, for one row: entry i
    becomes b1 times the updated entry i-1 plus b2 times entry i. *)
Fixpoint ar1 (b1 b2 prev : R) (l : vec) : vec :=
  match l with
  | [] => []
  | c :: l' => let v := b1 * prev + b2 * c in v :: ar1 b1 b2 v l'
  end.

(** Model of the whole loop for one row: the first entry is kept
    (random.py:240-244; the code runs over columns and treats all the rows at
    once). *)
Definition ar1_row (b1 b2 : R) (l : vec) : vec :=
  match l with [] => [] | c :: l' => c :: ar1 b1 b2 c l' end.

(** Row normalisation, random.py:246: cnb.normalize_l2_rw is outside the
    repository; it divides every row by its norm.  Zero rows (NaN) give
    [None]. *)
Definition normalize_rows (A : mat) : option mat :=
  if forallb (fun r => negb (Reqb (nrm r) 0)) A then
    Some (map (fun r => rscale (/ nrm r) r) A)
  else None.

(** jnp.reshape(values, (S, nv)).T of random.py:247 for a matrix with K*S
    rows of length B: entry (p, s) is entry s * nv + p of the flattened
    matrix. *)
Definition reshape_T (S nv : nat) (values : mat) : mat :=
  let flat := concat values in
  tab nv (fun p => tab S (fun s => nth (s * nv + p) flat 0)).

(** random.py:222-225: the positions of the entries of the blocks. *)
Definition block_indices (B : nat) (blocks : list nat) : list nat :=
  flat_map (fun b => map (fun i => (i + B * b)%nat) (seq 0 B)) blocks.

(** Model of sparse_normal_blocks, random.py:188-253.  [chosen] is the draw of
    line 220 (random.choice without replacement raises an exception if
    more than C blocks are asked for), [values] the draw of line 234.
    math.sqrt in line 239 raises an exception for |cor| > 1. *)
Definition sparse_normal_blocks (D K B S : nat) (cor : R) (normalize : bool)
    (chosen : list nat) (values : mat)
  : option (squeezed * list nat * list nat) :=
  let C := (D / B)%nat in
  if Nat.eqb B 0 then None else
  if negb (Nat.eqb D (C * B)) then None else
  if Nat.ltb C K then None else
  let blocks := nsort chosen in
  let indices := block_indices B blocks in
  let nv := (K * B)%nat in
  let correlated :=
    if Reqb cor 0 then Some values
    else if Rltb (1 - cor ^ 2) 0 then None
    else Some (map (ar1_row cor (sqrt (1 - cor ^ 2))) values) in
  match correlated with
  | None => None
  | Some values =>
      match (if normalize then normalize_rows values else Some values) with
      | None => None
      | Some values =>
          match place D S indices (reshape_T S nv values) with
          | Some x => Some (squeeze D S x, blocks, indices)
          | None => None
          end
      end
  end.
