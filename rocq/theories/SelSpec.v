(** Vocabulary: selecting entries of a vector. *)
From Coq Require Import List Arith Bool Reals.
From Verif Require Import Vec RVec.
Import ListNotations.
Local Open Scope R_scope.

(** I lists K distinct positions of [a] holding K largest entries *)
Definition top_selection (a : vec) (K : nat) (I : list nat) : Prop :=
  NoDup I /\ length I = K /\ (forall i, In i I -> (i < length a)%nat) /\
  (forall i j, In i I -> (j < length a)%nat -> ~ In j I -> a@j <= a@i).
Definition mem (i : nat) (I : list nat) : bool := existsb (Nat.eqb i) I.
(** the vector of length n equal to h on I and zero elsewhere *)
Definition keep (h : vec) (I : list nat) : vec := tab (length h) (fun i => if mem i I then h@i else 0).
(** at most K entries of x are nonzero *)
Definition sparse (K : nat) (x : vec) : Prop :=
  exists I, (length I <= K)%nat /\ forall i, ~ In i I -> x@i = 0.
(** sum of f over a list of positions *)
Definition isum (I : list nat) (f : nat -> R) : R := rlsum (map f I).
