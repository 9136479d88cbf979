(** Vocabulary for block sparse Bayesian learning: positive definite
    matrices, block diagonal priors, and the posterior mean and covariance of
    a Gaussian linear model. *)
From Coq Require Import List Arith Reals.
From Verif Require Import Scalar Vec RVec Loop BsblModel.
Local Open Scope R_scope.

(** The quadratic form of a k x k matrix. *)
Definition quad (k : nat) (A : fmat) (x : fvec) : R :=
  rsum k (fun i => rsum k (fun j => x i * A i j * x j)).

(** Symmetric and positive semidefinite. *)
Definition psd (k : nat) (A : fmat) : Prop :=
  (forall i j, (i < k)%nat -> (j < k)%nat -> A i j = A j i) /\
  forall x, 0 <= quad k A x.

(** Symmetric and positive definite. *)
Definition spd (k : nat) (A : fmat) : Prop :=
  (forall i j, (i < k)%nat -> (j < k)%nat -> A i j = A j i) /\
  forall x, (exists i, (i < k)%nat /\ x i <> 0) -> 0 < quad k A x.

(** The linear solver solves m x m symmetric positive definite systems. *)
Definition solver_ok (m : nat) (solve : fmat -> fmat -> fmat) : Prop :=
  forall A P, spd m A -> forall i j, (i < m)%nat ->
    rsum m (fun l => A i l * solve A P l j) = P i j.

(** The inverse of a symmetric positive definite b x b matrix is one. *)
Definition inv_ok (b : nat) (inv : fmat -> fmat) : Prop :=
  forall B, spd b B -> forall i j, (i < b)%nat -> (j < b)%nat ->
    rsum b (fun l => B i l * inv B l j) = if Nat.eqb i j then 1 else 0.

(** The n x n matrix with the given b x b blocks on the diagonal. *)
Definition block_diag (b : nat) (P : nat -> fmat) : fmat :=
  fun p q => if Nat.eqb (p / b) (q / b)
             then P (p / b)%nat (p mod b)%nat (q mod b)%nat else 0.

(** The prior covariance of the active blocks; the others have variance
    zero. *)
Definition prior (b : nat) (act : nat -> bool) (S0 : nat -> fmat) : fmat :=
  block_diag b (fun i => if act i then S0 i else fun _ _ => 0).

(** [x] is the mean of the posterior distribution of a vector with prior
    covariance P given y = Phi x + noise of variance lam:
    (lam I + P Phi^T Phi) x = P Phi^T y. *)
Definition posterior_mean (m n : nat) (Phi P : fmat) (lam : R) (y x : fvec)
  : Prop :=
  forall k, (k < n)%nat ->
    lam * x k + rsum n (fun j => P k j * rsum m (fun r => Phi r j *
      rsum n (fun l => Phi r l * x l)))
    = rsum n (fun j => P k j * rsum m (fun r => Phi r j * y r)).

(** [C] is the covariance of that distribution:
    (lam I + P Phi^T Phi) C = lam P. *)
Definition posterior_cov (m n : nat) (Phi P : fmat) (lam : R) (C : fmat)
  : Prop :=
  forall k c, (k < n)%nat -> (c < n)%nat ->
    lam * C k c + rsum n (fun j => P k j * rsum m (fun r => Phi r j *
      rsum n (fun l => Phi r l * C l c)))
    = lam * P k c.

(** A block whose variance exceeds the threshold. *)
Definition is_active (o : bsbl_options) (s : bsbl_state) (i : nat) : bool :=
  Rltb (bo_prune o) (bs_gam s i).

(** The prior of a state: block i has covariance gam_i r^|p-q| and only the
    active blocks count. *)
Definition state_prior (b : nat) (o : bsbl_options) (s : bsbl_state) (r : R)
  : fmat :=
  prior b (is_active o s) (fun i p q => bs_gam s i * r ^ (p - q + (q - p))).
