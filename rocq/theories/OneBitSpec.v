(** Vocabulary for one bit compressive sensing. *)
From Coq Require Import List Arith Bool Reals.
From Verif Require Import Vec RVec SolverSpec SortedL1Model PursuitModel PursuitSpec SelSpec OneBitModel.
Import ListNotations.
Local Open Scope R_scope.

(** the bits of y are +1 or -1 *)
Definition bits (y : vec) : Prop := forall i, (i < length y)%nat -> y@i = 1 \/ y@i = -1.
(** the estimate of a state as a vector of length n *)
Definition estimate (n : nat) (s : biht_state) : vec := scatter n (bi_I s) (bi_x s).
(** the number of positions where the signs of u differ from y *)
Definition disagreements (y u : vec) : nat := length (filter (fun i => if Req_EM_T (y@i) (sign (u@i)) then false else true) (seq 0 (length y))).
(** one-sided l1 and quadratic penalties of the measurements u that disagree with y *)
Definition one_sided_l1 (y u : vec) : R := rsum (length y) (fun i => Rmax 0 (- (y@i * u@i))).
Definition one_sided_quadratic (y u : vec) : R := / 2 * rsum (length y) (fun i => Rmax 0 (- (y@i * u@i)) * Rmax 0 (- (y@i * u@i))).
