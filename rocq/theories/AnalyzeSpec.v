(** Vocabulary: energy of a set of positions. *)
From Coq Require Import List Arith Reals.
From Verif Require Import Vec RVec SelSpec.
Import ListNotations.
Local Open Scope R_scope.
(** sum of the squares of the entries of x at the positions J *)
Definition energy_at (x : vec) (J : list nat) : R := isum J (fun i => x@i * x@i).
(** J lists distinct positions of x *)
Definition positions (x : vec) (J : list nat) : Prop := NoDup J /\ forall i, In i J -> (i < length x)%nat.
