(** Model of walsh_hadamard_basis in lop/onb.py. *)
From Coq Require Import List Arith Bool Reals.
From Verif Require Import Scalar Vec RVec LopModel PhaseModel.
Import ListNotations.
Local Open Scope R_scope.

(** lop/onb.py:87-97.  [fwht] is crdsp.fwht (external package cr.nimble); None models the failed assertion.
    n = 0, for which jnp.sqrt(n) is zero, is taken to be rejected. *)
Definition op_walsh_hadamard (fwht : list R -> list R) (n : nat) : option (operator Rs) :=
  if is_power_of_2 n then
    let times := fun x => rscale (1 / sqrt (INR n)) (fwht x) in
    Some (@mkop Rs times times n n)
  else None.
