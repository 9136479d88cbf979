(** Vocabulary for statements about projections, proximal operators and
    gradients on R^n (vectors are lists of length n). *)
From Coq Require Import List Arith Reals.
From Verif Require Import Vec RVec RMat.
Import ListNotations.
Local Open Scope R_scope.

Definition dist (x y : vec) : R := nrm (rsub x y).

(** P maps every x of R^n to the unique point of C nearest to x; it leaves x
    unchanged exactly when x is in C; it is idempotent *)
Definition projects_onto (n : nat) (C : vec -> Prop) (P : vec -> vec) : Prop :=
  forall x, length x = n ->
    length (P x) = n /\ C (P x) /\
    (forall z, length z = n -> C z -> dist x (P x) <= dist x z) /\
    (forall z, length z = n -> C z -> dist x z <= dist x (P x) -> z = P x) /\
    (P x = x <-> C x) /\
    P (P x) = P x.

Definition nonexpansive (n : nat) (P : vec -> vec) : Prop :=
  forall x y, length x = n -> length y = n -> dist (P x) (P y) <= dist x y.

(** p is the unique minimiser of [obj] over the points of R^n in [dom] *)
Definition unique_minimiser (n : nat) (dom : vec -> Prop) (obj : vec -> R) (p : vec) : Prop :=
  length p = n /\ dom p /\
  forall z, length z = n -> dom z -> obj p <= obj z /\ (obj z <= obj p -> z = p).

(** objective of the proximal operator of f with step t *)
Definition prox_obj (f : vec -> R) (t : R) (x z : vec) : R := t * f z + / 2 * nrm2 (rsub z x).

(** g is the gradient of f at x: derivative in every direction d *)
Definition is_gradient (n : nat) (f : vec -> R) (x g : vec) : Prop :=
  length g = n /\
  forall d, length d = n -> derivable_pt_lim (fun s => f (radd x (rscale s d))) 0 (rdot g d).

Definition everywhere (x : vec) : Prop := True.

(** *** sets, orders, shapes *)
Definition above (l : vec) (x : vec) : Prop := forall i, (i < length l)%nat -> l@i <= x@i.
Definition below (u : vec) (x : vec) : Prop := forall i, (i < length u)%nat -> x@i <= u@i.
(** the box described by an optional lower and an optional upper bound *)
Definition box_set (l u : option vec) (x : vec) : Prop :=
  (forall v, l = Some v -> above v x) /\ (forall v, u = Some v -> below v x).
Definition box_ok (n : nat) (l u : option vec) : Prop :=
  (forall v, l = Some v -> length v = n) /\ (forall v, u = Some v -> length v = n) /\
  (forall v w, l = Some v -> u = Some w -> above v w).
(** x = (y, t) with ||y|| <= t *)
Definition cone_set (x : vec) : Prop := nrm (removelast x) <= last x 0.
Definition ascending (l : vec) : Prop := forall i j, (i <= j)%nat -> (j < length l)%nat -> l@i <= l@j.
Definition descending (l : vec) : Prop := forall i j, (i <= j)%nat -> (j < length l)%nat -> l@j <= l@i.
(** *** complex vectors *)
Definition cdot (x y : list (R * R)) : R := rlsum (zipw (fun a b => fst a * fst b + snd a * snd b) x y).
Definition csub (x y : list (R * R)) : list (R * R) := zipw (fun a b => (fst a - fst b, snd a - snd b)) x y.
(** squared Euclidean distance in C^n *)
Definition cdist2 (x y : list (R * R)) : R := cdot (csub x y) (csub x y).
Definition nonneg (x : vec) : Prop := forall i, (i < length x)%nat -> 0 <= x@i.
Definition convex (n : nat) (f : vec -> R) : Prop :=
  forall x y s, length x = n -> length y = n -> 0 <= s <= 1 ->
    f (radd (rscale (1 - s) x) (rscale s y)) <= (1 - s) * f x + s * f y.
Definition symmetric (n : nat) (P : mat) : Prop :=
  forall i j, (i < n)%nat -> (j < n)%nat -> ent P i j = ent P j i.
Definition positive (x : vec) : Prop := forall i, (i < length x)%nat -> 0 < x@i.
(** number of nonzero entries *)
Fixpoint l0 (x : vec) : R := match x with [] => 0 | a :: x => (if Req_EM_T a 0 then 0 else 1) + l0 x end.
(** sum sqrt|z_i|, weighted, plus the squared distance to x *)
Definition half_obj (tau : R) (x z : vec) : R := tau * rlsum (map (fun a => sqrt (Rabs a)) z) + nrm2 (rsub z x).
(** v is the Moreau envelope of f at x: min over z of f z + ||x-z||^2 / (2 mu) *)
Definition envelope_value (n : nat) (f : vec -> R) (mu : R) (x : vec) (v : R) : Prop :=
  (exists z, length z = n /\ v = f z + / (2 * mu) * nrm2 (rsub x z)) /\
  forall z, length z = n -> v <= f z + / (2 * mu) * nrm2 (rsub x z).
