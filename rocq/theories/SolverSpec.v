(** Vocabulary for statements about iterative solvers on R^n (vectors are lists
    of length n, operators are functions between such lists). *)
From Coq Require Import List Arith Reals.
From Verif Require Import Vec RVec Loop.
Import ListNotations.
Local Open Scope R_scope.

(** A is a linear map from R^n to R^m *)
Definition linear_op (n m : nat) (A : vec -> vec) : Prop :=
  (forall x, length x = n -> length (A x) = m) /\
  (forall x y, length x = n -> length y = n -> A (radd x y) = radd (A x) (A y)) /\
  (forall c x, length x = n -> A (rscale c x) = rscale c (A x)).
Definition symmetric_op (n : nat) (A : vec -> vec) : Prop :=
  forall x y, length x = n -> length y = n -> rdot (A x) y = rdot x (A y).
Definition positive_op (n : nat) (A : vec -> vec) : Prop :=
  forall x, length x = n -> x <> rzero n -> 0 < rdot x (A x).
Definition psd_op (n : nat) (A : vec -> vec) : Prop :=
  forall x, length x = n -> 0 <= rdot x (A x).
(** T is the adjoint of A *)
Definition adjoint_ops (n m : nat) (A T : vec -> vec) : Prop :=
  linear_op n m A /\ linear_op m n T /\
  forall x y, length x = n -> length y = m -> rdot (A x) y = rdot x (T y).

(** energy minimised by the solution of A x = b for symmetric positive A *)
Definition energy (A : vec -> vec) (b x : vec) : R := / 2 * rdot x (A x) - rdot b x.

(** sum of c_i * v_i *)
Fixpoint lincomb (n : nat) (cs : list R) (vs : list vec) : vec :=
  match cs, vs with
  | c :: cs, v :: vs => radd (rscale c v) (lincomb n cs vs)
  | _, _ => rzero n
  end.
(** z is a linear combination of the vectors vs *)
Definition in_span (n : nat) (vs : list vec) (z : vec) : Prop :=
  exists cs, length cs = length vs /\ z = lincomb n cs vs.

(** the vectors v, A v, ..., A^(k-1) v *)
Definition krylov (A : vec -> vec) (v : vec) (k : nat) : list vec := map (fun i => Nat.iter i A v) (seq 0 k).

(** [s] is the state of the loop after exactly k iterations, the loop
    condition having held before each of them *)
Inductive reaches {S : Type} (cond : S -> bool) (body : S -> option S) (s0 : S) : nat -> S -> Prop :=
| reach_0 : reaches cond body s0 0 s0
| reach_S k s s' : reaches cond body s0 k s -> cond s = true -> body s = Some s' -> reaches cond body s0 (Datatypes.S k) s'.

(** B is an orthonormal basis: times and trans are adjoint and inverse *)
Definition orthonormal_basis (n : nat) (times trans : vec -> vec) : Prop :=
  adjoint_ops n n times trans /\
  (forall x, length x = n -> times (trans x) = x) /\ (forall x, length x = n -> trans (times x) = x).
(** composite objective 1/2 |b - A x|^2 + f(B^T x) *)
Definition reg_objective (A Bt : vec -> vec) (b : vec) (f : vec -> R) (x : vec) : R :=
  / 2 * nrm2 (rsub b (A x)) + f (Bt x).
