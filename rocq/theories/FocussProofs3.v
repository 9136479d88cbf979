(** FOCUSS: concrete instances. *)
From Coq Require Import List Arith Bool Reals Lia Lra Psatz ClassicalEpsilon.
From Verif Require Import Vec RVec Loop SolverSpec LoopLemmas BsblModel BsblSpec BsblProofs
  FocussModel FocussSpec LinAlg FocussProofs FocussProofs2.
Local Open Scope R_scope.

Definition phi12 : fmat := fun _ j => match j with O => 1 | _ => 2 end.
Definition two_entries (a b : R) : fvec := fun i => match i with O => a | _ => b end.

Lemma row12_step solve p x y : exact_solver 1 solve -> 0 < p ->
  (x 0%nat <> 0 \/ x 1%nat <> 0) ->
  exists x1, step_noiseless 1 2 phi12 y solve p x = Some x1.
Proof.
  intros Hs Hp Hx. apply (step_defined 1 2 phi12 y solve Hs p Hp x).
  intros v Hv i Hi. replace i with 0%nat by lia. destruct Hx as [Hx|Hx].
  - specialize (Hv 0%nat ltac:(lia) Hx). cbn in Hv. lra.
  - specialize (Hv 1%nat ltac:(lia) Hx). cbn in Hv. lra.
Qed.

Lemma l1_increases solve : exact_solver 1 solve ->
  exists x1, step_noiseless 1 2 phi12 (fun _ => 2) solve 1 (two_entries (6 / 5) (2 / 5)) = Some x1 /\
    solves 1 2 phi12 (fun _ => 2) (two_entries (6 / 5) (2 / 5)) /\
    rsum 2 (fun i => Rabs (two_entries (6 / 5) (2 / 5) i)) < rsum 2 (fun i => Rabs (x1 i)).
Proof.
  intros Hs. pose proof Rlt_0_1 as H01. set (x := two_entries (6 / 5) (2 / 5)).
  assert (Hx0 : x 0%nat <> 0) by (cbn; lra). assert (Hx1 : x 1%nat <> 0) by (cbn; lra).
  destruct (row12_step solve 1 x (fun _ => 2) Hs H01 (or_introl Hx0)) as [x1 E]. exists x1.
  split; auto. split; [intros i Hi; cbn; lra|].
  destruct (step_inv 1 2 phi12 _ solve Hs 1 H01 x x1 E) as [_ [z [Hz HX]]].
  specialize (Hz 0%nat ltac:(lia)). rewrite sysmat_mv in Hz.
  assert (W0 : weight 1 x 0%nat * weight 1 x 0%nat = 36 / 25) by (rewrite weight_sq, Rpower_2 by auto; cbn; lra).
  assert (W1 : weight 1 x 1%nat * weight 1 x 1%nat = 4 / 25) by (rewrite weight_sq, Rpower_2 by auto; cbn; lra).
  unfold fmv, ftr in *. cbn [rsum phi12] in *. rewrite W0, W1 in Hz.
  pose proof (HX 0%nat) as X0. pose proof (HX 1%nat) as X1. rewrite W0 in X0. rewrite W1 in X1.
  cbn [phi12] in *.
  assert (z 0%nat = 25 / 26) by lra. rewrite X0, X1, H. cbn [x two_entries].
  unfold x. cbn [two_entries]. repeat rewrite Rabs_right by lra. lra.
Qed.

Lemma solver_exists m : exists solve, exact_solver m solve.
Proof.
  exists (fun G y => match excluded_middle_informative (nonsingular m G) with
    | left _ => Some (epsilon (inhabits (fun _ : nat => 0))
                  (fun z => forall i, (i < m)%nat -> rsum m (fun j => G i j * z j) = y i))
    | right _ => None end).
  intros G y. destruct (excluded_middle_informative (nonsingular m G)) as [H|H]; split; try contradiction; auto.
  intros _. eexists. split; [reflexivity|]. apply epsilon_spec. now apply nonsingular_solvable.
Qed.

Lemma row12_pos solve x : exact_solver 1 solve -> 0 < x 0%nat -> 0 < x 1%nat ->
  exists x1, step_noiseless 1 2 phi12 (fun _ => 5) solve 1 x = Some x1 /\ 0 < x1 0%nat /\ 0 < x1 1%nat.
Proof.
  intros Hs P0 P1. pose proof Rlt_0_1 as H01.
  assert (N0 : x 0%nat <> 0) by lra. assert (N1 : x 1%nat <> 0) by lra.
  destruct (row12_step solve 1 x (fun _ => 5) Hs H01 (or_introl N0)) as [x1 E]. exists x1.
  destruct (step_inv 1 2 phi12 _ solve Hs 1 H01 x x1 E) as [_ [z [Hz HX]]].
  specialize (Hz 0%nat ltac:(lia)). rewrite sysmat_mv in Hz.
  pose proof (HX 0%nat) as X0. pose proof (HX 1%nat) as X1.
  rewrite weight_sq, Rpower_2 in X0, X1 by auto.
  unfold fmv, ftr in *. cbn [rsum phi12] in *. rewrite !weight_sq, !Rpower_2 in Hz by auto.
  assert (0 < z 0%nat).
  { apply Rnot_le_lt. intros Hn.
    assert (0 < x 0%nat * x 0%nat) by nra. assert (0 < x 1%nat * x 1%nat) by nra. nra. }
  split; auto. rewrite X0, X1. cbn [phi12]. rewrite !Rplus_0_l. split; apply Rmult_lt_0_compat; nra.
Qed.

(** three iterations for x_0 + 2 x_1 = 5 *)
Lemma run_example solve : exact_solver 1 solve ->
  exists s, matrix_solve_noiseless 1 2 phi12 (fun _ => 5) solve 1 3 3 = Done s /\
    0 < fo_x s 0%nat /\ 0 < fo_x s 1%nat.
Proof.
  intros Hs. unfold matrix_solve_noiseless.
  destruct (row12_pos solve (fun _ => 1) Hs ltac:(lra) ltac:(lra)) as [x1 [E1 [A1 B1]]].
  destruct (row12_pos solve x1 Hs A1 B1) as [x2 [E2 [A2 B2]]].
  destruct (row12_pos solve x2 Hs A2 B2) as [x3 [E3 [A3 B3]]].
  cbn [while_ focuss_cond focuss_body focuss_init focuss_at fo_iterations fo_x Nat.ltb Nat.leb].
  unfold focuss_body at 1. cbn [focuss_at focuss_init fo_x fo_iterations]. rewrite E1.
  unfold focuss_body at 1. cbn [focuss_at focuss_init fo_x fo_iterations focuss_cond Nat.ltb Nat.leb]. rewrite E2.
  unfold focuss_body at 1. cbn [focuss_at focuss_init fo_x fo_iterations focuss_cond Nat.ltb Nat.leb]. rewrite E3.
  eexists. split; [reflexivity|]. cbn. auto.
Qed.
