(** C90: matching pursuit converges on every dictionary; orthogonal matching pursuit
    recovers from noisy measurements.  [combine_atoms m D x] is Phi x. *)
From Coq Require Import List Arith Bool Lia Reals Lra Permutation.
From Verif Require Import Vec RVec RMat Loop SlsModel OptModel SortedL1Model SelModel SelSpec DictModel SolverSpec PursuitModel PursuitSpec PursuitProofs PursuitConv PursuitNoise PursuitRefute.
Import ListNotations.
Local Open Scope R_scope.

(** every signal has a best approximation by the atoms *)
Theorem C90_best_fit m D y : unit_dict m D -> length y = m -> exists z, length z = d_n D /\
  forall w, length w = d_n D -> nrm2 (rsub y (combine_atoms m D z)) <= nrm2 (rsub y (combine_atoms m D w)).
Proof. exact (fun U Ly => @best_fit_exists m D U y Ly). Qed.
Print Assumptions C90_best_fit.
(** the approximation of matching pursuit approaches it geometrically, at a rate that depends on the dictionary only *)
Theorem C90_mp_converges m D : unit_dict m D -> (0 < d_n D)%nat -> exists q, 0 <= q < 1 /\
  forall y z max_iters rtol k s, length y = m -> length z = d_n D ->
    (forall w, length w = d_n D -> nrm2 (rsub y (combine_atoms m D z)) <= nrm2 (rsub y (combine_atoms m D w))) ->
    reaches (mp_cond y max_iters rtol) (mp_body D y) (mp_init D y) k s ->
    nrm2 (rsub (combine_atoms m D z) (combine_atoms m D (mp_x s))) <= q ^ k * nrm2 (combine_atoms m D z) /\
    nrm2 (mp_r s) <= nrm2 (rsub y (combine_atoms m D z)) + q ^ k * nrm2 (combine_atoms m D z).
Proof. exact (@mp_converges m D). Qed.
Print Assumptions C90_mp_converges.
(** and its coefficients converge to those of a best approximation, even if the atoms are dependent *)
Theorem C90_mp_limit m D : unit_dict m D -> (0 < d_n D)%nat -> exists q, 0 <= q < 1 /\
  forall y, length y = m -> exists x, length x = d_n D /\
    (forall w, length w = d_n D -> nrm2 (rsub y (combine_atoms m D x)) <= nrm2 (rsub y (combine_atoms m D w))) /\
    forall max_iters rtol k s, reaches (mp_cond y max_iters rtol) (mp_body D y) (mp_init D y) k s ->
      nrm (rsub (mp_x s) x) <= / (1 - q) * q ^ k * nrm y.
Proof. exact (@mp_limit m D). Qed.
Print Assumptions C90_mp_limit.

(** K steps of orthogonal matching pursuit on Phi xs + e find the support of xs if
    every nonzero entry of xs stands out of the noise, and the error is at most
    that of the noise seen by the atoms *)
Theorem C90_omp_matrix_noise m D mu K T xs e eps : unit_dict m D -> coherence_at_most D mu -> 0 <= mu ->
  length xs = d_n D -> length e = m -> support T xs -> length T = K -> (2 <= K)%nat ->
  (forall i, (i < d_n D)%nat -> Rabs (rdot (d_atom D i) e) <= eps) ->
  (forall i, In i T -> 2 * eps < (1 - (2 * INR K - 1) * mu) * Rabs (xs@i)) ->
  exists s, omp_matrix D (radd (combine_atoms m D xs) e) K = Some s /\ Permutation (om_I s) T /\
    (forall i, (i < d_n D)%nat -> Rabs ((scatter (d_n D) (om_I s) (om_x s))@i - xs@i) <= eps / (1 - (INR K - 1) * mu)) /\
    nrm2 (om_r s) <= nrm2 e.
Proof. exact (fun U Hm M0 Lx Le HT LT K2 He B => @nrec_matrix m D mu K T xs e eps U Hm M0 Lx Le HT LT (Nat.lt_le_incl _ _ K2) He B K2). Qed.
Print Assumptions C90_omp_matrix_noise.
(** the operator variant with a tolerance below the level of the signal *)
Theorem C90_omp_operator_noise m D mu K T xs e eps rtol fuel : unit_dict m D -> coherence_at_most D mu -> 0 <= mu ->
  length xs = d_n D -> length e = m -> support T xs -> length T = K -> (1 <= K)%nat ->
  (forall i, (i < d_n D)%nat -> Rabs (rdot (d_atom D i) e) <= eps) ->
  (forall i, In i T -> 2 * eps < (1 - (2 * INR K - 1) * mu) * Rabs (xs@i)) ->
  (forall i, In i T -> rtol * nrm (radd (combine_atoms m D xs) e) + eps < (1 - (INR K - 1) * mu) * Rabs (xs@i)) -> 0 <= rtol -> (K <= fuel)%nat ->
  exists s, omp_operator D (radd (combine_atoms m D xs) e) K rtol fuel = Done s /\ Permutation (om_I s) T /\
    (forall i, (i < d_n D)%nat -> Rabs ((scatter (d_n D) (om_I s) (om_x s))@i - xs@i) <= eps / (1 - (INR K - 1) * mu)) /\
    nrm2 (om_r s) <= nrm2 e.
Proof. exact (fun U Hm M0 Lx Le HT LT K1 He B Hr R0 => @nop m D mu K T xs e eps rtol U Hm M0 Lx Le HT LT K1 He B Hr R0 fuel). Qed.
Print Assumptions C90_omp_operator_noise.
(** the norm of the noise bounds what the atoms see of it *)
Theorem C90_noise_seen m D e i : unit_dict m D -> (i < d_n D)%nat -> Rabs (rdot (d_atom D i) e) <= nrm e.
Proof.
  intros U Hi. eapply Rle_trans; [apply cauchy|]. assert (E := proj2 U i Hi). unfold nrm2 in E. unfold nrm at 1. rewrite E, sqrt_1. lra.
Qed.
Print Assumptions C90_noise_seen.

(** non-vacuity: two equal atoms in the plane and a signal outside their span; the best fit is (1, 0) *)
Definition EqD : dictionary := matrix_dict [[1; 1]; [0; 0]].
Example C90_dependent_atoms : unit_dict 2 EqD /\ (0 < d_n EqD)%nat /\
  (forall w, length w = d_n EqD -> nrm2 (rsub [1; 1] (combine_atoms 2 EqD [1; 0])) <= nrm2 (rsub [1; 1] (combine_atoms 2 EqD w))) /\
  exists s, reaches (mp_cond [1; 1] 5 0) (mp_body EqD [1; 1]) (mp_init EqD [1; 1]) 1 s.
Proof.
  split; [split; [apply (@matrix_dict_valid 2 2); [split; [reflexivity|]; intros r [<-|[<-|[]]]; reflexivity|lia]|]; intros [|[|i]] Hi; [| |exfalso; cbn in Hi; lia]; cbn; field|].
  split; [cbn; lia|]. split.
  - intros [|a [|b [|]]] H; try discriminate. pose proof (Rle_0_sqr (1 - a - b)) as Q. unfold Rsqr in Q. cbn. lra.
  - eexists. eapply reach_S; [apply reach_0| |reflexivity]. unfold mp_cond. cbn. destruct (Rltb_spec ((1 * 1 + (1 * 1 + 0)) * (0 * (0 * 1))) (1 * 1 + (1 * 1 + 0))) as [_|N]; [reflexivity|]. exfalso. apply N. lra.
Qed.
(** (1, 2, 0) measured with noise (0, 0, 1/50) by atoms of coherence 7/25 *)
Example C90_noisy : let y := radd (combine_atoms 3 CoD [1; 2; 0]) [0; 0; 1 / 50] in
  (forall i, (i < d_n CoD)%nat -> Rabs (rdot (d_atom CoD i) [0; 0; 1 / 50]) <= 1 / 50) /\
  (forall i, In i [0; 1]%nat -> 2 * (1 / 50) < (1 - (2 * INR 2 - 1) * (7 / 25)) * Rabs ([1; 2; 0]@i)) /\
  (forall i, In i [0; 1]%nat -> 1 / 10 * nrm y + 1 / 50 < (1 - (INR 2 - 1) * (7 / 25)) * Rabs ([1; 2; 0]@i)).
Proof.
  intros y. split; [|split].
  - intros i Hi. apply Rabs_le. cbn in Hi. destruct i as [|[|[|i]]]; try (exfalso; lia); cbn; lra.
  - intros i [<-|[<-|[]]]; cbn; rewrite Rabs_pos_eq by lra; lra.
  - assert (N : nrm y < 3) by (unfold nrm; rewrite <- (sqrt_square 3) by lra; apply sqrt_lt_1_alt; unfold y; cbn; lra).
    intros i [<-|[<-|[]]]; cbn [nth]; rewrite Rabs_pos_eq by lra; cbn [INR]; lra.
Qed.
