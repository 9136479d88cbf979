(** Vocabulary for operators between images (lists of rows). *)
From Coq Require Import List Arith Reals.
From Verif Require Import Vec RVec RMat.
Import ListNotations.
Local Open Scope R_scope.

(** sum of the products of the entries of two h x w images *)
Definition dot2 (h w : nat) (X Y : mat) : R := rsum h (fun i => rsum w (fun j => ent X i j * ent Y i j)).
(** f maps n0 x n1 images to m0 x m1 images, and g is its adjoint *)
Definition adjoint_images (m0 m1 n0 n1 : nat) (f g : mat -> mat) : Prop :=
  (forall X, shape n0 n1 X -> shape m0 m1 (f X)) /\ (forall C, shape m0 m1 C -> shape n0 n1 (g C)) /\
  (forall X C, shape n0 n1 X -> shape m0 m1 C -> dot2 m0 m1 (f X) C = dot2 n0 n1 X (g C)).
(** column j of an image with h rows *)
Definition column (h j : nat) (X : mat) : vec := tab h (fun i => ent X i j).
(** the r x c corner *)
Definition corner (r c : nat) (X : mat) : mat := tab r (fun i => tab c (fun j => ent X i j)).
