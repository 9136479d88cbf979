(** Vocabulary for sparse recovery on complex data. *)
From Coq Require Import List Arith Reals.
From Verif Require Import Scalar Vec RVec CxSpec OptModel CxPursuitModel.
Import ListNotations.
Local Open Scope R_scope.
(** D has atoms in C^m and cd_trans D r lists their inner products with r, the atoms conjugated *)
Definition cvalid_dict (m : nat) (D : cdictionary) : Prop :=
  (forall i, (i < cd_n D)%nat -> length (cd_atom D i) = m) /\
  (forall r, length r = m -> length (cd_trans D r) = cd_n D) /\
  (forall r i, length r = m -> (i < cd_n D)%nat -> nth i (cd_trans D r) (0, 0) = inner (cd_atom D i) r).
(** the atoms listed in I combined with the coefficients x *)
Definition ccombine_on (m : nat) (D : cdictionary) (I : list nat) (x : cvec) : cvec := @Vec.lincomb Cs m x (map (cd_atom D) I).
(** an exact least squares solver *)
Definition cleast_squares_solver (lstsq : list cvec -> cvec -> cvec) : Prop :=
  forall m cols y, length y = m -> (forall c, In c cols -> length c = m) ->
    length (lstsq cols y) = length cols /\
    forall z, length z = length cols ->
      cnsq (vsub y (@Vec.lincomb Cs m (lstsq cols y) cols)) <= cnsq (vsub y (@Vec.lincomb Cs m z cols)).
(** a pursuit state for the problem y = Phi x with K atoms: K valid indices, one coefficient per index,
    the residual of exactly these, and its energy *)
Definition cconsistent (m : nat) (D : cdictionary) (y : cvec) (K : nat) (s : cps) : Prop :=
  length (cp_I s) = K /\ (forall i, In i (cp_I s) -> (i < cd_n D)%nat) /\ length (cp_x s) = K /\
  cp_r s = vsub y (ccombine_on m D (cp_I s) (cp_x s)) /\ cp_rn s = cnsq (cp_r s).
(** I lists K distinct positions of h holding K entries of largest modulus *)
Definition ctop_selection (h : cvec) (K : nat) (I : list nat) : Prop :=
  NoDup I /\ length I = K /\ (forall i, In i I -> (i < length h)%nat) /\
  (forall i j, In i I -> (j < length h)%nat -> ~ In j I -> cabs (nth j h (0, 0)) <= cabs (nth i h (0, 0))).
