(** Vocabulary for sparse recovery. *)
From Coq Require Import List Arith Reals.
From Verif Require Import Vec RVec SolverSpec SelSpec PursuitModel.
Import ListNotations.
Local Open Scope R_scope.

(** D has atoms in R^m and d_trans D r lists their inner products with r *)
Definition valid_dict (m : nat) (D : dictionary) : Prop :=
  (forall i, (i < d_n D)%nat -> length (d_atom D i) = m) /\
  (forall r, length r = m -> length (d_trans D r) = d_n D) /\
  (forall r i, length r = m -> (i < d_n D)%nat -> (d_trans D r)@i = rdot (d_atom D i) r).
Definition unit_dict (m : nat) (D : dictionary) : Prop :=
  valid_dict m D /\ forall i, (i < d_n D)%nat -> nrm2 (d_atom D i) = 1.
(** Phi x for a coefficient vector of length n *)
Definition combine_atoms (m : nat) (D : dictionary) (x : vec) : vec := lincomb m x (map (d_atom D) (seq 0 (d_n D))).
(** the atoms listed in I combined with the coefficients x *)
Definition combine_on (m : nat) (D : dictionary) (I : list nat) (x : vec) : vec := lincomb m x (map (d_atom D) I).
(** an exact least squares solver *)
Definition least_squares_solver (lstsq : list vec -> vec -> vec) : Prop :=
  forall m cols y, length y = m -> (forall c, In c cols -> length c = m) ->
    length (lstsq cols y) = length cols /\
    forall z, length z = length cols ->
      nrm2 (rsub y (lincomb m (lstsq cols y) cols)) <= nrm2 (rsub y (lincomb m z cols)).
(** one that returns the solution of least norm *)
Definition min_norm_solver (lstsq : list vec -> vec -> vec) : Prop :=
  least_squares_solver lstsq /\
  forall m cols y z, length y = m -> (forall c, In c cols -> length c = m) -> length z = length cols ->
    nrm2 (rsub y (lincomb m z cols)) = nrm2 (rsub y (lincomb m (lstsq cols y) cols)) ->
    nrm2 (lstsq cols y) <= nrm2 z.
(** a pursuit state for the problem y = Phi x with K atoms: K valid indices, one
    coefficient per index, the residual of exactly these, and its energy *)
Definition consistent (m : nat) (D : dictionary) (y : vec) (K : nat) (s : ps) : Prop :=
  length (p_I s) = K /\ (forall i, In i (p_I s) -> (i < d_n D)%nat) /\ length (p_x s) = K /\
  p_r s = rsub y (combine_on m D (p_I s) (p_x s)) /\ p_rn s = nrm2 (p_r s).
(** the restricted isometry property of order S with constant delta *)
Definition rip (m : nat) (D : dictionary) (S : nat) (delta : R) : Prop :=
  forall z, length z = d_n D -> sparse S z ->
    Rabs (nrm2 (combine_atoms m D z) - nrm2 z) <= delta * nrm2 z.
(** the states of OMP for the problem y = Phi x: distinct valid indices, one
    coefficient each, the residual of exactly these, orthogonal to every selected
    atom, and a lower triangular L with L L^T = Phi_I^T Phi_I *)
Definition omp_correct (m : nat) (D : dictionary) (y : vec) (s : omp_state) : Prop :=
  NoDup (om_I s) /\ (forall i, In i (om_I s) -> (i < d_n D)%nat) /\ length (om_x s) = length (om_I s) /\
  om_r s = rsub y (combine_on m D (om_I s) (om_x s)) /\
  (forall i, In i (om_I s) -> rdot (d_atom D i) (om_r s) = 0) /\
  om_it s = length (om_I s).
Definition omp_factor (D : dictionary) (s : omp_state) : Prop :=
  length (chol_mat (om_L s)) = length (om_I s) /\
  (forall r, In r (chol_mat (om_L s)) -> length r = length (om_I s)) /\
  (forall i j, (i < j < length (om_I s))%nat -> (nth i (chol_mat (om_L s)) [])@j = 0) /\
  (forall i, (i < length (om_I s))%nat -> 0 < (nth i (chol_mat (om_L s)) [])@i) /\
  forall i j, (i < length (om_I s))%nat -> (j < length (om_I s))%nat ->
    rdot (nth i (chol_mat (om_L s)) []) (nth j (chol_mat (om_L s)) []) =
    rdot (d_atom D (nth i (om_I s) 0%nat)) (d_atom D (nth j (om_I s) 0%nat)).
(** any two distinct atoms have inner product at most mu in absolute value *)
Definition coherence_at_most (D : dictionary) (mu : R) : Prop :=
  forall i j, (i < d_n D)%nat -> (j < d_n D)%nat -> i <> j -> Rabs (rdot (d_atom D i) (d_atom D j)) <= mu.
(** T lists the positions of the nonzero entries of x *)
Definition support (T : list nat) (x : vec) : Prop :=
  NoDup T /\ (forall i, In i T -> (i < length x)%nat) /\ forall i, (i < length x)%nat -> (In i T <-> x@i <> 0).
