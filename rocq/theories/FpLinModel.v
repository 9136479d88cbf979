(** Sums, inner products, norms, matrix products and running sums in floating point
    arithmetic, and the residual updates of matching pursuit and conjugate gradients.

    XLA does not fix the order of the additions in a reduction and may fuse a
    multiplication with an addition, so a reduction is a relation: any result of any
    evaluation order is possible (sum_eval and dot_eval of FpSpec).  Overflow is not
    modelled. *)
From Coq Require Import List ZArith Reals.
From Flocq Require Import Core.
From Verif Require Import FpSpec.
Import ListNotations.
Local Open Scope R_scope.

Section M.
  Variables emin prec : Z.
  Notation fl := (fl emin prec).
  (** jnp.sum; lop/basic.py:239-242, sum(n).times *)
  Definition fsum (x : list R) (s : R) : Prop := exists d, sum_eval emin prec x d s.
  (** jnp.vdot and x.T @ y of real vectors *)
  Definition fdot (x y : list R) (s : R) : Prop := exists d, dot_eval emin prec (combine x y) d s.
  (** jnp.linalg.norm of a real vector *)
  Definition fnorm (x : list R) (r : R) : Prop := exists s, fdot x x s /\ r = fl (sqrt s).
  (** A @ x; lop/basic.py:48-49, real_matrix(A).times; A as a list of rows *)
  Definition fmatvec (A : list (list R)) (x y : list R) : Prop := Forall2 (fun row yi => fdot row x yi) A y.
  (** x @ A; lop/basic.py:51-52, real_matrix(A).trans; n the number of columns *)
  Definition fvecmat (n : nat) (A : list (list R)) (v x : list R) : Prop :=
    Forall2 (fun j xj => fdot (map (fun row => nth j row 0) A) v xj) (seq 0 n) x.
  (** jnp.cumsum; lop/basic.py:336, cumsum(n).times: every prefix is summed in some order *)
  Definition fcumsum (x y : list R) : Prop := Forall2 (fun i yi => fsum (firstn (S i) x) yi) (seq 0 (length x)) y.
  (** jnp.diff(y, prepend=0); lop/basic.py:375, diff(n).times *)
  Definition fdiff (y : list R) : list R := map (fun ab => fl (fst ab - snd ab)) (combine y (0 :: y)).

  (** lop/util.py:64-66: the gap of the inner products yy and xx against the tolerance *)
  Definition fdot_gap (yy xx eps : R) : R := fl (Rabs (fl (yy - xx)) / fl (fl (fl (yy + xx) + eps) / 2)).
  (** lop/util.py:54-66 for real_matrix(A) with n columns and the vectors u and v *)
  Definition fdot_test (n : nat) (A : list (list R)) (u v : list R) (eps tol : R) (ok : Prop) : Prop :=
    exists y x yy xx, fmatvec A u y /\ fvecmat n A v x /\ fdot y v yy /\ fdot u x xx /\
      (ok <-> fdot_gap yy xx eps < tol).

  (** s + a * b, with the multiplication rounded or fused with the addition *)
  Definition fmuladd (s a b v : R) : Prop := v = fl (s + fl (a * b)) \/ v = fl (s + a * b).
  (** zero_vec.at[i].set(1), mp.py:115 *)
  Definition unit_vec (n i : nat) : list R := map (fun j => if Nat.eqb j i then 1 else 0) (seq 0 n).
  (** jnp.argmax: the first largest magnitude *)
  Definition argmax_abs (h : list R) (i : nat) : Prop :=
    (i < length h)%nat /\ (forall j, (j < length h)%nat -> Rabs (nth j h 0) <= Rabs (nth i h 0)) /\
    (forall j, (j < i)%nat -> Rabs (nth j h 0) < Rabs (nth i h 0)).
  (** pursuit/mp.py:106-118, one iteration for the operator of a matrix A with n columns;
      i and c are best_match_index and coeff *)
  Definition fmp_step (n : nat) (A : list (list R)) (i : nat) (c : R) (x r x' r' : list R) : Prop :=
    exists h atom, fvecmat n A r h /\ argmax_abs h i /\ c = nth i h 0 /\ fmatvec A (unit_vec n i) atom /\
    length x' = length x /\ length r' = length r /\
    (forall j, (j < length x)%nat -> nth j x' 0 = if Nat.eqb j i then fl (nth j x 0 + c) else nth j x 0) /\
    (forall t, (t < length r)%nat -> fmuladd (nth t r 0) (- c) (nth t atom 0) (nth t r' 0)).
  (** the loop, mp.py:134-138: the iterations made, each with its index, its coefficient and
      the new solution and residual *)
  Record mp_iter := MpIter { mi_i : nat; mi_c : R; mi_x : list R; mi_r : list R }.
  Fixpoint fmp_trace (n : nat) (A : list (list R)) (x r : list R) (tr : list mp_iter) : Prop :=
    match tr with
    | [] => True
    | it :: tr => fmp_step n A (mi_i it) (mi_c it) x r (mi_x it) (mi_r it) /\ fmp_trace n A (mi_x it) (mi_r it) tr
    end.
  (** the solution and the residual after the iterations, from the start of mp.py:98-104 *)
  Definition mp_final (n : nat) (y : list R) (tr : list mp_iter) : list R * list R :=
    fold_left (fun _ it => (mi_x it, mi_r it)) tr (repeat 0 n, y).

  (** opt/cg.py:56-78: one iteration from the state x, r, p, rho (r_norm_sqr); q is Ap.
      A division by zero (d = 0 or rho = 0) gives inf or nan and is not modelled *)
  Record cg_iter := CgIter { ci_a : R; ci_p : list R; ci_q : list R; ci_x : list R; ci_r : list R; ci_rho : R }.
  Definition fcg_step (A : list (list R)) (x r p : list R) (rho : R) (it : cg_iter) (p' : list R) : Prop :=
    exists d, ci_p it = p /\ fmatvec A p (ci_q it) /\ fdot p (ci_q it) d /\ d <> 0 /\ rho <> 0 /\ ci_a it = fl (rho / d) /\
    length (ci_x it) = length x /\ length (ci_r it) = length r /\
    (forall j, (j < length x)%nat -> fmuladd (nth j x 0) (ci_a it) (nth j p 0) (nth j (ci_x it) 0)) /\
    (forall t, (t < length r)%nat -> fmuladd (nth t r 0) (- ci_a it) (nth t (ci_q it) 0) (nth t (ci_r it) 0)) /\
    fdot (ci_r it) (ci_r it) (ci_rho it) /\ length p' = length p /\
    (forall j, (j < length p)%nat -> fmuladd (nth j (ci_r it) 0) (fl (ci_rho it / rho)) (nth j p 0) (nth j p' 0)).
  Fixpoint fcg_trace (A : list (list R)) (x r p : list R) (rho : R) (tr : list cg_iter) : Prop :=
    match tr with
    | [] => True
    | it :: tr => exists p', fcg_step A x r p rho it p' /\ fcg_trace A (ci_x it) (ci_r it) p' (ci_rho it) tr
    end.
  (** cg.py:45-54: r = b - A @ x_0, p = r *)
  Definition fcg_run (A : list (list R)) (b x0 r0 : list R) (tr : list cg_iter) : Prop :=
    exists q rho, fmatvec A x0 q /\ r0 = map (fun bq => fl (fst bq - snd bq)) (combine b q) /\ fdot r0 r0 rho /\
    fcg_trace A x0 r0 r0 rho tr.
  Definition cg_final (x0 r0 : list R) (tr : list cg_iter) : list R * list R :=
    fold_left (fun _ it => (ci_x it, ci_r it)) tr (x0, r0).
End M.
