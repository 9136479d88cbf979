(** Vocabulary for frames and singular values. *)
From Coq Require Import List Arith Bool ZArith Permutation Reals.
From Verif Require Import Vec RVec OptSpec SubspSpec SensingSpec.
Import ListNotations.
Local Open Scope R_scope.

(** s are the singular values of the m x n matrix A, largest first: A = U diag(s) V^T *)
Definition singular_values (m n : nat) (A : nat -> nat -> R) (s : list R) : Prop :=
  length s = Nat.min m n /\ (forall a, In a s -> 0 <= a) /\
  (forall i j, (i <= j)%nat -> (j < length s)%nat -> nth j s 0 <= nth i s 0) /\
  exists U V, orthonormal m (length s) U /\ orthonormal n (length s) V /\
    forall i j, (i < m)%nat -> (j < n)%nat -> A i j = rsum (length s) (fun k => U i k * nth k s 0 * V j k).
(** the energy of the inner products of x with the n columns of A *)
Definition analysis_energy (m n : nat) (A : nat -> nat -> R) (x : nat -> R) : R :=
  rsum n (fun j => ip m x (column A j) ^ 2).
(** g = A B with A of shape n x m and B of shape m x n *)
Definition rank_at_most (m n : nat) (g : nat -> nat -> R) : Prop :=
  exists A B, forall i j, (i < n)%nat -> (j < n)%nat -> g i j = rsum m (fun k => A i k * B k j).
(** G = U diag(s) V^T is a singular value decomposition of an n x n matrix, largest
    singular value first *)
Definition svd_of (n : nat) (G U : nat -> nat -> R) (s : nat -> R) (VT : nat -> nat -> R) : Prop :=
  orthonormal n n U /\ orthonormal n n (fun j k => VT k j) /\
  (forall k, (k < n)%nat -> 0 <= s k) /\
  (forall i j, (i <= j)%nat -> (j < n)%nat -> s j <= s i) /\
  forall i j, (i < n)%nat -> (j < n)%nat -> G i j = rsum n (fun k => U i k * s k * VT k j).
(** the routine svd decomposes the matrix G *)
Definition svd_ok (svd : (nat -> nat -> R) -> (nat -> nat -> R) * (nat -> R) * (nat -> nat -> R)) (n : nat) (G : nat -> nat -> R) : Prop :=
  let '(U, s, VT) := svd G in svd_of n G U s VT.
(** the leading 2 x 2 block of G *)
Definition is_matrix2 (G : nat -> nat -> R) (a b c d : R) : Prop :=
  G 0%nat 0%nat = a /\ G 0%nat 1%nat = b /\ G 1%nat 0%nat = c /\ G 1%nat 1%nat = d.

(** t is at position k of the numbers l in ascending order *)
Definition order_stat (l : list R) (k : nat) (t : R) : Prop :=
  exists l', Permutation l' l /\ ascending l' /\ (k < length l')%nat /\ nth k l' 0 = t.
(** the absolute values of the entries of an n x n matrix *)
Definition abs_entries (n : nat) (g : nat -> nat -> R) : list R :=
  map (fun p => Rabs (g (p / n) (p mod n))%nat) (seq 0 (n * n)).
(** the threshold of the fraction f: with K the integer nearest to f (n^2 - n), the
    K-th smallest absolute value of all the entries, the largest one for K = 0 *)
Definition threshold (n : nat) (f : R) (g : nat -> nat -> R) (t : R) : Prop :=
  exists K : Z, Rabs (IZR K - f * (INR n * INR n - INR n)) <= 1 / 2 /\ (0 <= K)%Z /\
    order_stat (abs_entries n g) (if Z.eqb K 0 then n * n - 1 else Z.to_nat K - 1) t.
(** one round of the alternating projections: entries above the upper threshold are
    multiplied by mu where the mask allows it, entries below the lower threshold are
    divided by mu, the m largest singular values are kept, and each column is divided
    by its diagonal entry *)
Definition grass_step (m n : nat) (frac mu : R) (mask : nat -> nat -> Prop) (g g' : nat -> nat -> R) : Prop :=
  exists tu tl E U s VT, threshold n frac g tu /\ threshold n (1 - frac) g tl /\
    (forall i j, (i < n)%nat -> (j < n)%nat -> exists a b, E i j = g i j * a * b /\
       (mask i j /\ tu < Rabs (g i j) -> a = mu) /\ (~ mask i j \/ Rabs (g i j) <= tu -> a = 1) /\
       (Rabs (g i j) < tl -> b = / mu) /\ (tl <= Rabs (g i j) -> b = 1)) /\
    svd_of n E U s VT /\
    forall i j, (i < n)%nat -> (j < n)%nat ->
      let R := fun i j => rsum m (fun k => U i k * s k * VT k j) in 0 < R j j /\ g' i j = R i j / R j j.
