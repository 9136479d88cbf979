(** Vocabulary for clusters stored one after the other. *)
From Coq Require Import List Arith.
Import ListNotations.
Definition total (sizes : list nat) : nat := fold_right Nat.add 0 sizes.
(** point s belongs to cluster k *)
Definition in_cluster (sizes : list nat) (k s : nat) : Prop :=
  k < length sizes /\ total (firstn k sizes) <= s < total (firstn k sizes) + nth k sizes 0.
