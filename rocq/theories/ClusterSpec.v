(** Vocabulary for the clustering properties. *)
From Coq Require Import List Arith Bool ZArith Reals Permutation.
From Verif Require Import Vec RVec RMat.
Import ListNotations.
Set Implicit Arguments.

Fixpoint nsum (l : list nat) : nat := match l with [] => 0 | a :: l => a + nsum l end.
Fixpoint zsum (l : list Z) : Z := match l with [] => 0%Z | a :: l => (a + zsum l)%Z end.

(** total weight of the entries (i, cols[i]) of a square table *)
Definition assignment_value (G : list (list nat)) (cols : list nat) : nat :=
  nsum (map (fun i => nth (nth i cols 0) (nth i G []) 0) (seq 0 (length G))).
(** what scipy.optimize.linear_sum_assignment(-G) promises: a permutation of
    the columns of largest total weight *)
Definition optimal_assignment (G : list (list nat)) (cols : list nat) : Prop :=
  Permutation cols (seq 0 (length G)) /\
  forall cols', Permutation cols' (seq 0 (length G)) -> assignment_value G cols' <= assignment_value G cols.

(** number of positions where two label vectors agree *)
Fixpoint agreements {A} (eq_dec : forall x y : A, {x = y} + {x <> y}) (t m : list A) : nat :=
  match t, m with
  | a :: t, b :: m => (if eq_dec a b then 1 else 0) + agreements eq_dec t m
  | _, _ => 0
  end.
(** f renames the labels occurring in src, one to one, to labels occurring in dst *)
Definition relabelling {A} (f : A -> A) (src dst : list A) : Prop :=
  (forall a, In a src -> In (f a) dst) /\
  (forall a b, In a src -> In b src -> f a = f b -> a = b).
(** number of distinct labels *)
Definition distinct (l : list Z) : nat := length (nodup Z.eq_dec l).
