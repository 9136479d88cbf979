(** Vocabulary for synthetic sparse data. *)
From Coq Require Import List Arith Reals Permutation Sorted.
From Verif Require Import Scalar Vec RVec RMat SynthModel.
Import ListNotations.
Local Open Scope R_scope.

(** A D x S array from which the axes of length one have been dropped has the
    right shape. *)
Definition sq_shape (D S : nat) (q : squeezed) : Prop :=
  match q with
  | Num _ => D = 1%nat /\ S = 1%nat
  | Arr1 v => (D = 1%nat /\ S <> 1%nat /\ length v = S) \/
              (D <> 1%nat /\ S = 1%nat /\ length v = D)
  | Arr2 A => D <> 1%nat /\ S <> 1%nat /\ shape D S A
  end.

(** Its entry in row i and column s. *)
Definition sq_entry (D : nat) (q : squeezed) (i s : nat) : R :=
  match q with
  | Num r => r
  | Arr1 v => if Nat.eqb D 1 then v@s else v@i
  | Arr2 A => ent A i s
  end.

(** A draw of random.permutation. *)
Definition permutation_of (n : nat) (perm : list nat) : Prop :=
  Permutation perm (seq 0 n).

(** A draw of K distinct numbers below C. *)
Definition selection_of (C K : nat) (l : list nat) : Prop :=
  NoDup l /\ length l = K /\ forall b, In b l -> (b < C)%nat.

(** Strictly increasing (hence without repetitions). *)
Definition increasing (l : list nat) : Prop := StronglySorted lt l.

(** [q] is a D x S array whose rows outside [omega] vanish and whose row
    omega[j] is row j of [V], where [omega] is an increasing list of K
    positions. *)
Definition row_sparse (D S K : nat) (q : squeezed) (omega : list nat)
    (V : nat -> nat -> R) : Prop :=
  sq_shape D S q /\ increasing omega /\ length omega = K /\
  (forall i, In i omega -> (i < D)%nat) /\
  (forall i s, (i < D)%nat -> (s < S)%nat -> ~ In i omega ->
     sq_entry D q i s = 0) /\
  (forall j s, (j < K)%nat -> (s < S)%nat ->
     sq_entry D q (nth j omega 0%nat) s = V j s).

(** [w] is the first order autoregressive sequence with correlation [cor]
    driven by [z]. *)
Definition autoregressive (cor : R) (z w : vec) : Prop :=
  length w = length z /\ w@0 = z@0 /\
  forall i, (S i < length z)%nat ->
    w@(S i) = cor * w@i + sqrt (1 - cor ^ 2) * z@(S i).

(** The rows of [W] are the contents of the blocks for the draw [values]: the
    autoregressive sequence driven by the row of the draw, scaled to unit norm
    by a positive factor if [normalize] is set. *)
Definition block_rows (cor : R) (normalize : bool) (values W : mat) : Prop :=
  length W = length values /\
  forall r, (r < length values)%nat ->
    length (nth r W []) = length (nth r values []) /\
    exists w c, autoregressive cor (nth r values []) w /\
      nth r W [] = rscale c w /\ 0 < c /\
      (if normalize then nrm (nth r W []) = 1 else c = 1).
