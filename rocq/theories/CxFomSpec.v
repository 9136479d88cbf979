(** Vocabulary for composite convex problems over C^n: minimise f(A x + b) + h(x),
    with an extended-valued h, finite value [hv] on [dom] and infinite outside. *)
From Coq Require Import List Arith Reals.
From Verif Require Import Scalar Vec RVec XReal LopModel LopSpec CxSpec FomModel CxFomModel.
Import ListNotations.
Local Open Scope R_scope.
(** admissible options, as for real data *)
Definition cfom_options_ok (opt : fom_options) : Prop :=
  0 < fo_alpha opt <= 1 /\ 0 < fo_beta opt /\ 0 < fo_L0 opt /\ forall e, fo_Lexact opt = Some e -> fo_L0 opt <= e.
(** the point (1 - t) x + t y *)
Definition cbetween (x y : cvec) (t : R) : cvec := vadd (vscale (ofR (1 - t) : Cs) x) (vscale (ofR t : Cs) y).
Definition cconvex_set (n : nat) (C : cvec -> Prop) : Prop :=
  forall x y t, length x = n -> length y = n -> C x -> C y -> 0 <= t <= 1 -> C (cbetween x y t).
Definition cconvex_on (n : nat) (C : cvec -> Prop) (f : cvec -> R) : Prop :=
  forall x y t, length x = n -> length y = n -> C x -> C y -> 0 <= t <= 1 ->
    f (cbetween x y t) <= (1 - t) * f x + t * f y.
(** f returns its gradient and value consistently *)
Definition csmooth_ok (m : nat) (f : csmooth) : Prop :=
  (forall u, cs_grad_val f u = (cs_grad f u, cs_func f u)) /\ forall u, length u = m -> length (cs_grad f u) = m.
(** first-order convexity: g(u) is a subgradient of f at u *)
Definition cfirst_order_convex (m : nat) (f : cvec -> R) (g : cvec -> cvec) : Prop :=
  forall u v, length u = m -> length v = m -> f u + fst (inner (g u) (vsub v u) : Cx) <= f v.
(** gradient Lipschitz along the range of A: quadratic upper bound with constant L in x *)
Definition clipschitz_after (n m : nat) (f : cvec -> R) (g : cvec -> cvec) (times : cvec -> cvec) (b : cvec) (L : R) : Prop :=
  forall x y, length x = n -> length y = n ->
    f (vadd (times x) b) <= f (vadd (times y) b) + fst (inner (g (vadd (times y) b)) (vsub (times x) (times y)) : Cx) + L / 2 * cnsq (vsub x y).
(** phi(x) = f(A x + b) + h(x) *)
Definition ccomposite (f : cvec -> R) (times : cvec -> cvec) (b : cvec) (hv : cvec -> R) (x : cvec) : R :=
  f (vadd (times x) b) + hv x.
(** p computes the values and proximal points of the function hv on dom, +inf outside *)
Definition ccapable (n : nat) (dom : cvec -> Prop) (hv : cvec -> R) (p : cproxcap) : Prop :=
  (forall x, length x = n -> (dom x -> cp_func p x = Fin (hv x)) /\ (~ dom x -> cp_func p x = PInf)) /\
  forall v t, length v = n -> 0 < t -> exists z,
    cp_vec_val p v t = Some (z, Fin (hv z)) /\ length z = n /\ dom z /\
    forall w, length w = n -> dom w ->
      t * hv z + / 2 * cnsq (vsub z v) <= t * hv w + / 2 * cnsq (vsub w v) /\
      (t * hv w + / 2 * cnsq (vsub w v) <= t * hv z + / 2 * cnsq (vsub z v) -> w = z).
