(** Concrete instances and counterexamples for the iterative solvers. *)
From Coq Require Import List Arith Bool Lia Reals Lra.
From Verif Require Import Vec RVec RMat Loop SolverSpec LoopLemmas CGModel CGProofs.
Import ListNotations.
Local Open Scope R_scope.
Ltac rdec := repeat match goal with
  | |- context [Reqb ?a ?b] => destruct (Reqb_spec a b); try lra
  | |- context [Rltb ?a ?b] => destruct (Rltb_spec a b); try lra
  | |- context [Rleb ?a ?b] => destruct (Rleb_spec a b); try lra end.
Definition A22 : mat := [[2; 1]; [1; 2]].
Lemma A22_spd : shape 2 2 A22 /\ symmetric_op 2 (mv A22) /\ positive_op 2 (mv A22).
Proof.
  split; [|split].
  - split; [reflexivity|]. intros r [<-|[<-|[]]]; reflexivity.
  - intros [|a [|b [|]]] [|c [|d [|]]] H1 H2; try discriminate. simpl. ring.
  - intros [|a [|b [|]]] H1 H2; try discriminate. simpl.
    assert (a <> 0 \/ b <> 0).
    { destruct (Req_dec a 0) as [->|]; auto. destruct (Req_dec b 0) as [->|]; auto. }
    pose proof (Rle_0_sqr (a + b)). unfold Rsqr in *.
    destruct H; [assert (0 < a * a) by nra|assert (0 < b * b) by nra];
      pose proof (Rle_0_sqr a); pose proof (Rle_0_sqr b); unfold Rsqr in *; nra.
Qed.
(** a symmetric indefinite system on which the first step divides by zero *)
Lemma cg_breakdown : let A := [[1; 0]; [0; -1]] in
  symmetric_op 2 (mv A) /\ forall fuel, cg_solve A [1; 1] None 0 (S fuel) = Fail.
Proof.
  split.
  - intros [|a [|b [|]]] [|c [|d [|]]] H1 H2; try discriminate. simpl. ring.
  - intros fuel. unfold cg_solve, cg_solve_from, cg_init. cbn [length mv map rzero repeat rdot rsub zipw].
    cbn [while_]. unfold cg_cond at 1, cg_max_rn2, cg_limit. cbn [cg_rn2 cg_it length rdot].
    rdec. cbn [Nat.ltb Nat.leb andb]. unfold cg_iteration. cbn [cg_p cg_rn2 mv map rdot].
    unfold fdiv at 1. rdec. reflexivity.
Qed.
