(** Vocabulary for composite convex problems  minimise f(A x + b) + h(x)  with an
    extended-valued h: finite value [hv] on the domain [dom], infinite outside. *)
From Coq Require Import List Arith Reals.
From Verif Require Import Vec RVec RMat XReal OptSpec OptModel SolverSpec SpgSpec.
Import ListNotations.
Local Open Scope R_scope.

Definition convex_on (n : nat) (C : vec -> Prop) (f : vec -> R) : Prop :=
  forall x y t, length x = n -> length y = n -> C x -> C y -> 0 <= t <= 1 ->
    f (radd x (rscale t (rsub y x))) <= (1 - t) * f x + t * f y.
(** p computes the values and proximal points of the function hv on dom, +inf outside *)
Definition capable (n : nat) (dom : vec -> Prop) (hv : vec -> R) (p : proxcap) : Prop :=
  (forall x, length x = n -> (dom x -> pfunc p x = Fin (hv x)) /\ (~ dom x -> pfunc p x = PInf)) /\
  forall v t, length v = n -> 0 < t -> exists z,
    prox_vec_val p v t = (map Fin z, Fin (hv z)) /\ unique_minimiser n dom (prox_obj hv t v) z.
(** the same, except that the computation of a proximal point may fail to deliver one *)
Definition sound (n : nat) (dom : vec -> Prop) (hv : vec -> R) (p : proxcap) : Prop :=
  (forall x, length x = n -> (dom x -> pfunc p x = Fin (hv x)) /\ (~ dom x -> pfunc p x = PInf)) /\
  forall v t, length v = n -> 0 < t -> finite (fst (prox_vec_val p v t)) = None \/ exists z,
    prox_vec_val p v t = (map Fin z, Fin (hv z)) /\ unique_minimiser n dom (prox_obj hv t v) z.
(** first-order convexity: g(u) is a subgradient of f at u *)
Definition first_order_convex (m : nat) (f : vec -> R) (g : vec -> vec) : Prop :=
  forall u v, length u = m -> length v = m -> f u + rdot (g u) (rsub v u) <= f v.
(** gradient Lipschitz along the range of A: quadratic upper bound with constant L in x *)
Definition lipschitz_after (n m : nat) (f : vec -> R) (g : vec -> vec) (times : vec -> vec) (b : vec) (L : R) : Prop :=
  forall x y, length x = n -> length y = n ->
    f (radd (times x) b) <= f (radd (times y) b) + rdot (g (radd (times y) b)) (rsub (times x) (times y)) + L / 2 * nrm2 (rsub x y).
(** phi(x) = f(A x + b) + h(x) *)
Definition composite (f : vec -> R) (times : vec -> vec) (b : vec) (hv : vec -> R) (x : vec) : R :=
  f (radd (times x) b) + hv x.
(** v = max_u <w,u> - f(u) - c/2 |u - x0|^2 over dom, attained at p *)
Definition conjugate_at (n : nat) (dom : vec -> Prop) (f : vec -> R) (c : R) (x0 w p : vec) (v : R) : Prop :=
  length p = n /\ dom p /\ v = rdot w p - f p - c / 2 * nrm2 (rsub p x0) /\
  forall u, length u = n -> dom u -> rdot w u - f u - c / 2 * nrm2 (rsub u x0) <= v.
