From Coq Require Import List Arith Bool Lia Reals Lra Psatz.
From Verif Require Import Vec RVec RMat Loop LoopLemmas SolverSpec SolverLemmas XReal OptSpec OptModel OptProofs OptProofs2 OptProofs3 SpgSpec
  SortedL1Model SortedL1Proofs FomSpec FomModel FomProofs FomProofs2 OwlModel.
Import ListNotations.
Set Implicit Arguments.
Local Open Scope R_scope.

Lemma owl1_sound n pfuel lam : length lam = n -> descending lam -> nonneg lam ->
  sound n everywhere (owl1_func lam) (prox_owl1_cap pfuel lam).
Proof.
  intros Ll Dl Nl. split.
  - intros x Lx. split; [reflexivity|]. intros H. exfalso. apply H. exact I.
  - intros v t Lv Ht. cbn. destruct (prox_owl1 pfuel lam v t) as [z| |] eqn:E; [right|left; reflexivity|left; reflexivity].
    exists z. rewrite finite_map. split; [reflexivity|].
    destruct (@prox_owl1_min pfuel lam v t z ltac:(lra) ltac:(congruence) Dl Nl E) as [S _]. rewrite Lv in S. exact (strong_min S).
Qed.
Lemma owl1_convex_on n lam : length lam = n -> descending lam -> nonneg lam -> convex_on n everywhere (owl1_func lam).
Proof.
  intros Ll Dl Nl x y t Lx Ly _ _ Ht. replace (radd x (rscale t (rsub y x))) with (radd (rscale (1 - t) x) (rscale t y)) by veq.
  now apply (@owl1_convex n lam).
Qed.
