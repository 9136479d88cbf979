(** Specification vocabulary for linear operators.  Nothing here refers to the
    model of the library. *)
From Coq Require Import List Arith.
From Verif Require Import Scalar Vec.
Import ListNotations.

Section Spec.
  Variable K : scalar.
  Notation vec := (list K).

  (** f maps vectors of length n to vectors of length m. *)
  Definition maps_dim (m n : nat) (f : vec -> vec) : Prop :=
    forall x, length x = n -> length (f x) = m.

  (** g is the adjoint of f : K^n -> K^m: shapes, and <f x, y> = <x, g y>
      where <a,b> = sum conj(a_i) b_i. *)
  Definition is_adjoint (m n : nat) (f g : vec -> vec) : Prop :=
    maps_dim m n f /\ maps_dim n m g /\
    forall x y, length x = n -> length y = m -> inner (f x) y = inner x (g y).

  (** g is the (unconjugated) transpose of f. *)
  Definition is_transpose (m n : nat) (f g : vec -> vec) : Prop :=
    maps_dim m n f /\ maps_dim n m g /\
    forall x y, length x = n -> length y = m -> dotu (f x) y = dotu x (g y).

  (** f is linear on K^n. *)
  Definition is_linear (n : nat) (f : vec -> vec) : Prop :=
    (forall x y, length x = n -> length y = n -> f (vadd x y) = vadd (f x) (f y)) /\
    (forall c x, length x = n -> f (vscale c x) = vscale c (f x)).

  (** f maps real vectors to real vectors. *)
  Definition is_real_vec (x : vec) : Prop := forall a, In a x -> star a = a.
  Definition is_real_map (n : nat) (f : vec -> vec) : Prop :=
    forall x, length x = n -> is_real_vec x -> is_real_vec (f x).

  (** well-shaped m x n matrix, as a list of rows *)
  Definition wf_mat (m n : nat) (A : list vec) : Prop :=
    length A = m /\ forall r, In r A -> length r = n.
End Spec.

Arguments maps_dim {K}. Arguments is_adjoint {K}. Arguments is_transpose {K}.
Arguments is_linear {K}. Arguments is_real_vec {K}. Arguments is_real_map {K}.
Arguments wf_mat {K}.
