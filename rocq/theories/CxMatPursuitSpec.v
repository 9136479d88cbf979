(** Vocabulary for sparse recovery with a complex matrix given by its columns. *)
From Coq Require Import List Arith Reals.
From Verif Require Import Scalar Vec RVec CxSpec CxPursuitModel CxMatPursuitModel.
Import ListNotations.
Local Open Scope R_scope.
(** every column has m entries *)
Definition has_rows (m : nat) (Phi : list cvec) : Prop := forall a, In a Phi -> length a = m.
(** the columns listed in I combined with the coefficients x *)
Definition combine_columns (m : nat) (Phi : list cvec) (I : list nat) (x : cvec) : cvec :=
  @Vec.lincomb Cs m x (map (fun i => nth i Phi []) I).
(** K valid column numbers, one coefficient for each, the residual of exactly these, and the sum of the
    squares (not of the squared moduli) of its entries *)
Definition mconsistent (m : nat) (Phi : list cvec) (y : cvec) (K : nat) (s : msol) : Prop :=
  length (ms_I s) = K /\ (forall i, In i (ms_I s) -> (i < length Phi)%nat) /\ length (ms_x s) = K /\
  ms_r s = vsub y (combine_columns m Phi (ms_I s) (ms_x s)) /\
  ms_rn s = fold_right (fun a t => Cadd (Cmul a a) t) (0, 0) (ms_r s).
(** no combination of the returned columns is nearer to y *)
Definition best_on_support (m : nat) (Phi : list cvec) (y : cvec) (K : nat) (s : msol) : Prop :=
  forall z, length z = K -> cnsq (ms_r s) <= cnsq (vsub y (combine_columns m Phi (ms_I s) z)).
(** all entries are real *)
Definition real_entries (Phi : list cvec) : Prop := forall a, In a Phi -> Forall (fun z : Cx => snd z = 0) a.
(** on the factor L (a list of rows) the triangular solver returns w with L w = b *)
Definition solves_lower (solve : list cvec -> cvec -> cvec) (L : list cvec) : Prop :=
  forall b, length b = length L -> length (solve L b) = length b /\ map (fun r => dotu r (solve L b) : Cx) L = b.
(** on the factor L the solver returns x with L L^T x = b *)
Definition solves_gram (spd : list cvec -> cvec -> cvec) (L : list cvec) : Prop :=
  forall b, length b = length L -> length (spd L b) = length b /\
    map (fun r => dotu (map (fun r' => dotu r r' : Cs) L) (spd L b) : Cx) L = b.
