(** Vocabulary for statements about complex vectors (lists of pairs).  Nothing here refers to the
    model of the solvers. *)
From Coq Require Import List Arith Reals.
From Verif Require Import Scalar Vec RVec LopSpec.
Import ListNotations.
Local Open Scope R_scope.
Notation cvec := (list Cs).
(** sum of |z_i|^2, and its square root *)
Definition cnsq (x : cvec) : R := rlsum (map Cnsq x).
Definition cnorm (x : cvec) : R := sqrt (cnsq x).
(** sum of the moduli *)
Definition cl1 (x : cvec) : R := rlsum (map (fun z => sqrt (Cnsq z)) x).
(** times and trans are adjoint and inverse *)
Definition unitary_basis (n : nat) (times trans : cvec -> cvec) : Prop :=
  is_adjoint n n times trans /\ (forall x, length x = n -> times (trans x) = x) /\ (forall x, length x = n -> trans (times x) = x).
(** a convex function on C^n *)
Definition cconvex (n : nat) (f : cvec -> R) : Prop :=
  forall x y s, length x = n -> length y = n -> 0 <= s <= 1 ->
    f (vadd (vscale (ofR (1 - s) : Cs) x) (vscale (ofR s : Cs) y)) <= (1 - s) * f x + s * f y.
(** p is the unique minimiser of f over C^n *)
Definition cunique_minimiser (n : nat) (f : cvec -> R) (p : cvec) : Prop :=
  length p = n /\ forall z, length z = n -> f p <= f z /\ (f z <= f p -> z = p).
(** q is a minimiser of F over C^n *)
Definition cminimises (n : nat) (F : cvec -> R) (q : cvec) : Prop :=
  length q = n /\ forall z, length z = n -> F q <= F z.
(** 1/2 |b - A x|^2 + f(B^H x) *)
Definition creg_objective (A Bt : cvec -> cvec) (b : cvec) (f : cvec -> R) (x : cvec) : R :=
  / 2 * cnsq (vsub b (A x)) + f (Bt x).
(** a Hermitian positive definite operator on C^n *)
Definition hermitian_positive (n : nat) (A : cvec -> cvec) : Prop :=
  is_adjoint n n A A /\ forall x, length x = n -> x <> vzero n -> 0 < fst (inner x (A x) : Cx).
