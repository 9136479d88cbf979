(** Vocabulary for FOCUSS: linear solvers, systems of equations and the
    quantities that the iterations decrease. *)
From Coq Require Import List Arith Reals.
From Verif Require Import Vec RVec Loop.
Local Open Scope R_scope.

(** The m x m matrix G is nonsingular. *)
Definition nonsingular (m : nat) (G : nat -> nat -> R) : Prop :=
  forall v : nat -> R,
    (forall i, (i < m)%nat -> rsum m (fun j => G i j * v j) = 0) ->
    forall i, (i < m)%nat -> v i = 0.

(** The linear solver: exact for nonsingular matrices, without (finite)
    result for singular ones. *)
Definition exact_solver (m : nat)
    (solve : (nat -> nat -> R) -> (nat -> R) -> option (nat -> R)) : Prop :=
  forall G y,
    (nonsingular m G -> exists z, solve G y = Some z /\
       forall i, (i < m)%nat -> rsum m (fun j => G i j * z j) = y i) /\
    (~ nonsingular m G -> solve G y = None).

(** Phi x = y *)
Definition solves (m n : nat) (Phi : nat -> nat -> R) (y x : nat -> R) : Prop :=
  forall i, (i < m)%nat -> rsum n (fun j => Phi i j * x j) = y i.

(** Every nonzero entry of x' is at a nonzero entry of x. *)
Definition supported (n : nat) (x x' : nat -> R) : Prop :=
  forall i, (i < n)%nat -> x i = 0 -> x' i = 0.

(** The columns of Phi at the nonzero entries of x are linearly
    independent. *)
Definition independent_support (m n : nat) (Phi : nat -> nat -> R)
    (x : nat -> R) : Prop :=
  forall v, supported n x v ->
    (forall i, (i < m)%nat -> rsum n (fun j => Phi i j * v j) = 0) ->
    forall i, (i < n)%nat -> v i = 0.

(** The rows of Phi restricted to the nonzero entries of x are linearly
    independent. *)
Definition full_row_rank_on (m n : nat) (Phi : nat -> nat -> R)
    (x : nat -> R) : Prop :=
  forall v : nat -> R,
    (forall j, (j < n)%nat -> x j <> 0 -> rsum m (fun i => Phi i j * v i) = 0) ->
    forall i, (i < m)%nat -> v i = 0.

(** |t| ** s, where 0 ** s is 0 *)
Definition apow (t s : R) : R := if Req_EM_T t 0 then 0 else Rpower (Rabs t) s.

(** sum of |x_i| ** s over the entries *)
Definition lp_sum (n : nat) (s : R) (x : nat -> R) : R :=
  rsum n (fun i => apow (x i) s).

(** sum of x'_i ^ 2 / |x_i| ^ (2 p) over the nonzero entries of x *)
Definition weighted_energy (n : nat) (p : R) (x x' : nat -> R) : R :=
  rsum n (fun i => if Req_EM_T (x i) 0 then 0
                   else x' i * x' i / Rpower (Rabs (x i)) (2 * p)).

(** product of f 0, ..., f (n-1) *)
Fixpoint rprod (n : nat) (f : nat -> R) : R :=
  match n with O => 1 | S n => rprod n f * f n end.

(** product of |x'_i| over the nonzero entries of x *)
Definition support_product (n : nat) (x x' : nat -> R) : R :=
  rprod n (fun i => if Req_EM_T (x i) 0 then 1 else Rabs (x' i)).

(** number of nonzero entries *)
Definition nnz (n : nat) (x : nat -> R) : nat :=
  length (filter (fun i => if Req_EM_T (x i) 0 then false else true) (seq 0 n)).
