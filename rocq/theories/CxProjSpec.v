(** Vocabulary for projections and thresholding on C^n. *)
From Coq Require Import List Arith Reals.
From Verif Require Import Scalar Vec RVec CxSpec.
Import ListNotations.
Local Open Scope R_scope.

Definition cdist (x y : cvec) : R := cnorm (vsub x y).
(** P maps every x of C^n to the unique point of C nearest to x; it leaves x
    unchanged exactly when x is in C; it is idempotent *)
Definition cprojects_onto (n : nat) (C : cvec -> Prop) (P : cvec -> cvec) : Prop :=
  forall x, length x = n ->
    length (P x) = n /\ C (P x) /\
    (forall z, length z = n -> C z -> cdist x (P x) <= cdist x z) /\
    (forall z, length z = n -> C z -> cdist x z <= cdist x (P x) -> z = P x) /\
    (P x = x <-> C x) /\
    P (P x) = P x.
Definition cnonexpansive (n : nat) (P : cvec -> cvec) : Prop :=
  forall x y, length x = n -> length y = n -> cdist (P x) (P y) <= cdist x y.
(** number of entries that are not zero *)
Fixpoint cnonzeros (x : cvec) : R :=
  match x with [] => 0 | z :: x => (if Req_EM_T (Cnsq z) 0 then 0 else 1) + cnonzeros x end.
(** sum of the square roots of the moduli *)
Definition croots (x : cvec) : R := rlsum (map (fun z => sqrt (sqrt (Cnsq z))) x).
(** a matrix with real entries *)
Definition creal_entries (A : list cvec) : Prop := forall r z, In r A -> In z r -> snd z = 0.
