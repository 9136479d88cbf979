(** Selection helpers of cr/sparse/_src/pursuit/util.py and the reductions
    argmax and max of jax.numpy, on real vectors. *)
From Coq Require Import List Arith Bool Reals.
From Verif Require Import Vec RVec Loop OptModel SortedL1Model.
Import ListNotations.
Local Open Scope R_scope.

(** jnp.argmax: position of the first largest entry (0 for the empty vector, where jnp.argmax raises) *)
Fixpoint argmax_from (k best : nat) (bv : R) (l : vec) : nat :=
  match l with
  | [] => best
  | a :: l => if Rltb bv a then argmax_from (S k) k a l else argmax_from (S k) best bv l
  end.
Definition argmax (l : vec) : nat := match l with [] => 0%nat | a :: l => argmax_from 1 0 a l end.
(** jnp.max (0 for the empty vector, where jnp.max raises) *)
Definition vmax (l : vec) : R := match l with [] => 0 | a :: l => fold_left Rmax l a end.
(** pursuit/util.py:20-23 *)
Definition abs_max_idx (h : vec) : nat := argmax (map Rabs h).
(** pursuit/util.py:25-27; indices[:-K-1:-1] lists the last K entries backwards *)
Definition largest_indices (h : vec) (K : nat) : list nat := firstn K (rev (argsort (map Rabs h))).
