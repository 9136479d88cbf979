(** Arrays with any number of dimensions, as functions of the list of indices. *)
From Coq Require Import List Arith Bool Sorted ZArith.
From Verif Require Import Scalar Vec.
Import ListNotations.

(** an index of an array of the given shape *)
Definition in_range (shape p : list nat) : Prop := Forall2 lt p shape.
(** the index p with coordinate a replaced by k; the same for shapes *)
Fixpoint upd (a k : nat) (p : list nat) : list nat :=
  match a, p with
  | _, [] => []
  | O, _ :: p => k :: p
  | S a, i :: p => i :: upd a k p
  end.
(** the list of length d with the given values at the given places and dflt elsewhere *)
Fixpoint value_at (dflt : nat) (axes vals : list nat) (k : nat) : nat :=
  match axes, vals with
  | a :: axes, v :: vals => if k =? a then v else value_at dflt axes vals k
  | _, _ => dflt
  end.
Definition place (d dflt : nat) (axes vals : list nat) : list nat := map (value_at dflt axes vals) (seq 0 d).
(** an optional argument and its default *)
Definition given {A : Type} (dflt : A) (o : option A) : A := match o with Some v => v | None => dflt end.
(** axes of a d-dimensional array, listed in increasing order *)
Definition increasing_axes (d : nat) (axes : list nat) : Prop := Sorted.StronglySorted lt axes /\ Forall (fun a => a < d) axes.
(** axis, which may count from the end, names the coordinate a of an array with nd dimensions *)
Definition axis_is (nd : nat) (axis : Z) (a : nat) : Prop :=
  a < nd /\ (axis = Z.of_nat a \/ axis = Z.of_nat a - Z.of_nat nd)%Z.
Section S.
  Variable K : scalar.
  Local Open Scope scal_scope.
  Definition arr : Type := list nat -> K.
  (** the sum over all indices of an array *)
  Fixpoint ndsum (shape : list nat) (f : list nat -> K) : K :=
    match shape with
    | [] => f []
    | n :: shape => Sum n (fun i => ndsum shape (fun p => f (i :: p)))
    end.
  (** jnp.vdot of two arrays of the same shape *)
  Definition ndinner (shape : list nat) (x y : arr) : K := ndsum shape (fun p => star (x p) * y p).
  (** f maps arrays of shape sn to arrays of shape sm, g goes back, and they are adjoint *)
  Definition nd_adjoint (sm sn : list nat) (f g : arr -> arr) : Prop :=
    forall x y, ndinner sm (f x) y = ndinner sn x (g y).
  (** the vector of the entries of x along axis a through the index p *)
  Definition fibre (shape : list nat) (a : nat) (x : arr) (p : list nat) : list K :=
    tab (nth a shape 0%nat) (fun k => x (upd a k p)).
  (** y, of the shape with the size of axis a changed to m, is f applied to every vector of
      entries of x along axis a *)
  Definition applies (m : nat) (f : list K -> list K) (a : nat) (shape : list nat) (x y : arr) : Prop :=
    forall p, in_range shape p -> fibre (upd a m shape) a y p = f (fibre shape a x p).
  (** the same entries at every index of the shape *)
  Definition same_array (shape : list nat) (x y : arr) : Prop := forall p, in_range shape p -> x p = y p.
  (** x continued by zero outside its shape, at the position p - q, where p - q is
      taken coordinate by coordinate *)
  Fixpoint at_difference (shape : list nat) (x : arr) (p q : list nat) : K :=
    match shape, p, q with
    | n :: shape, i :: p, j :: q =>
        if (j <=? i)%nat && (i - j <? n)%nat then at_difference shape (fun r => x ((i - j)%nat :: r)) p q else s0
    | _, _, _ => x []
    end.
End S.
Arguments arr : clear implicits.
Arguments ndsum {K}. Arguments ndinner {K}. Arguments nd_adjoint {K}. Arguments fibre {K}. Arguments applies {K}. Arguments same_array {K}. Arguments at_difference {K}.
