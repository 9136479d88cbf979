(** Vocabulary for constrained first-order methods. *)
From Coq Require Import List Arith Reals.
From Verif Require Import Vec RVec Loop SelModel.
Import ListNotations.
Local Open Scope R_scope.

(** C contains the segments between its points *)
Definition convex_set (n : nat) (C : vec -> Prop) : Prop :=
  forall x y t, length x = n -> length y = n -> C x -> C y -> 0 <= t <= 1 ->
    C (radd x (rscale t (rsub y x))).
(** quadratic upper bound along segments of C: the gradient is Lipschitz with constant L *)
Definition smooth_on (n : nat) (C : vec -> Prop) (f : vec -> R) (grad : vec -> vec) (L : R) : Prop :=
  forall x d t, length x = n -> length d = n -> C x -> 0 <= t <= 1 -> C (radd x d) ->
    f (radd x (rscale t d)) <= f x + t * rdot (grad x) d + L / 2 * (t * t) * nrm2 d.
