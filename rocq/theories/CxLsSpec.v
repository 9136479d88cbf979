(** Vocabulary for LSQR, the power iterations and the norm estimate on complex data. *)
From Coq Require Import List Arith Reals.
From Verif Require Import Scalar Vec RVec Loop LopSpec SolverSpec CxSpec CxModel CxLsModel.
Import ListNotations.
Local Open Scope R_scope.
(** the damped least squares objective minimised by LSQR started at x0 *)
Definition cdamped_objective (A : csimple_op) (b x0 : cvec) (damp : R) (x : cvec) : R :=
  cnsq (vsub b (co_times A x)) + damp * damp * cnsq (vsub x x0).
(** half the negative gradient of that objective *)
Definition cdamped_descent (A : csimple_op) (b x0 : cvec) (damp : R) (x : cvec) : cvec :=
  vsub (co_trans A (vsub b (co_times A x))) (vscale (ofR (damp * damp) : Cs) (vsub x x0)).
(** the state after k iterations of the LSQR loop *)
Definition clsqr_after A b x0 damp atol btol conlim mx k (s : clsqr_state) : Prop :=
  reaches (clsqr_cond A b x0 atol btol conlim mx) (clsqr_body A damp) (clsqr_init A b x0) k s.
(** a Hermitian positive semidefinite operator on C^n *)
Definition hermitian_psd (n : nat) (H : cvec -> cvec) : Prop :=
  is_adjoint n n H H /\ forall x, length x = n -> 0 <= fst (inner x (H x) : Cx).
(** lam is the largest eigenvalue of H with an eigenvector that is not orthogonal to b *)
Definition cseen (n : nat) (H : cvec -> cvec) (b : cvec) (lam : R) : Prop :=
  (exists u, length u = n /\ H u = vscale (ofR lam : Cs) u /\ inner b u <> ((0, 0) : Cx)) /\
  forall lam' u, lam < lam' -> length u = n -> H u = vscale (ofR lam' : Cs) u -> inner b u = ((0, 0) : Cx).
(** the squared tangent of the angle between x and the line through the unit vector v, in C^n as a real Euclidean space *)
Definition ctan2 (v x : cvec) : R := (cnsq x - fst (inner x v : Cx) ^ 2) / fst (inner x v : Cx) ^ 2.
(** the sum of c_i * v_i, and the vectors v, H v, ..., H^(k-1) v *)
Fixpoint clincomb (n : nat) (cs : list Cx) (vs : list cvec) : cvec :=
  match cs, vs with
  | c :: cs, v :: vs => vadd (vscale (c : Cs) v) (clincomb n cs vs)
  | _, _ => @vzero Cs n
  end.
Definition cin_span (n : nat) (vs : list cvec) (z : cvec) : Prop := exists cs, length cs = length vs /\ z = clincomb n cs vs.
Definition ckrylov (H : cvec -> cvec) (v : cvec) (k : nat) : list cvec := map (fun i => Nat.iter i H v) (seq 0 k).
