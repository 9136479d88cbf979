(** k-means reaches a locally optimal clustering (property C92). *)
From Coq Require Import List Arith Bool Lia Reals Lra Psatz.
From Verif Require Import Vec RVec RMat Loop SolverSpec KMeansModel KMeansSpec KMeansProofs KMeansStab.
Import ListNotations.
Set Implicit Arguments.
Local Open Scope R_scope.

(** no other centroids are better for the assignment, no other assignment is better for the
    centroids, and each centroid is the mean of its points *)
Definition locally_optimal (n d k : nat) (P C : mat) (a : list nat) : Prop :=
  (forall C', shape k d C' -> sq_cost P C a <= sq_cost P C' a) /\
  (forall a', assigns P k a' -> sq_cost P C a <= sq_cost P C a') /\
  (forall j t, (j < k)%nat -> (t < d)%nat ->
    rsum n (fun i => if Nat.eqb (nth i a 0%nat) j then (nth i P [])@t - (nth j C [])@t else 0) = 0).

(** a step reduces the sum of squares, or changes nothing but moves centroids without
    points to the origin *)
Theorem C92_progress n d k P thresh max_iters idx j s s' : shape n d P -> (0 < n)%nat -> (0 < k)%nat -> length idx = k -> (forall i, In i idx -> (i < n)%nat) ->
  reaches (km_cond thresh max_iters) (km_body d P k) (km_init idx P) j s ->
  reaches (km_cond thresh max_iters) (km_body d P k) (km_init idx P) (S j) s' ->
  sq_cost P (km_centroids s') (km_assignment s') < sq_cost P (km_centroids s) (km_assignment s) \/
  forall l, (l < k)%nat -> nth l (km_centroids s') [] = nth l (km_centroids s) [] \/
    nth l (km_centroids s') [] = rzero d /\ forall i, (i < n)%nat -> nth i (km_assignment s) 0%nat <> l.
Proof. exact (fun HP Hn Hk L B => @reach_progress n d k P HP Hn Hk thresh max_iters idx L B j s s'). Qed.
Print Assumptions C92_progress.

(** after k^n iterations nothing changes any more *)
Theorem C92_stabilises n d k P thresh max_iters idx i j s t : shape n d P -> (0 < n)%nat -> (0 < k)%nat -> length idx = k -> (forall i, In i idx -> (i < n)%nat) ->
  (k ^ n <= i)%nat -> (i <= j)%nat ->
  reaches (km_cond thresh max_iters) (km_body d P k) (km_init idx P) i s ->
  reaches (km_cond thresh max_iters) (km_body d P k) (km_init idx P) j t ->
  km_centroids t = km_centroids s /\ km_assignment t = km_assignment s /\ km_distortion t = km_distortion s.
Proof. exact (fun HP Hn Hk L B => @reach_stable n d k P HP Hn Hk thresh max_iters idx L B i j s t). Qed.
Print Assumptions C92_stabilises.

Lemma fixed_opt n d k P C : shape n d P -> (0 < n)%nat -> (0 < k)%nat -> shape k d C ->
  find_new_centroids d (fst (find_assignment P C)) P k = C -> locally_optimal n d k P C (fst (find_assignment P C)).
Proof.
  intros HP Hn Hk HC E. pose proof HC as [LC _]. assert (Ha := assign_assigns HP Hn Hk C LC). split; [|split].
  - intros C' HC'. pose proof (centroids_opt HP Hn Hk Ha HC') as Q. now rewrite E in Q.
  - intros a' Ha'. now apply (assign_opt HP Hn Hk).
  - intros j t Hj Ht. pose proof (@ctr_balance n d k P HP Hn Hk (fst (find_assignment P C)) j t (assign_len HP C) Hj Ht) as Q.
    unfold ctr in Q. rewrite E in Q. refine (eq_trans _ Q). apply rsum_ext. intros i Hi. destruct (Nat.eqb (nth i (fst (find_assignment P C)) 0%nat) j); [now rewrite Rmult_1_l|now rewrite Rmult_0_l].
Qed.
(** the clustering after k^n iterations is locally optimal *)
Theorem C92_local_optimum n d k P thresh max_iters idx j s : shape n d P -> (0 < n)%nat -> (0 < k)%nat -> length idx = k -> (forall i, In i idx -> (i < n)%nat) ->
  (k ^ n <= j)%nat -> reaches (km_cond thresh max_iters) (km_body d P k) (km_init idx P) j s ->
  locally_optimal n d k P (km_centroids s) (km_assignment s).
Proof.
  intros HP Hn Hk L B Hj H. pose proof (reach_fixed HP Hn Hk L B Hj H) as F. destruct (reach_Cs Hn Hk L H) as (Ec & Ea & _).
  rewrite Ea, Ec in *. apply fixed_opt; auto. apply (Cs_shape HP Hk (C0_shape HP L B)).
Qed.
Print Assumptions C92_local_optimum.

(** a threshold so negative that the reported distortion cannot rise by as much lets the
    solver run to its limit: from k^n iterations on it returns a locally optimal clustering,
    the same for all limits *)
Theorem C92_solves n d k P idx thresh : shape n d P -> (0 < n)%nat -> (0 < k)%nat -> length idx = k -> (forall i, In i idx -> (i < n)%nat) ->
  thresh < - sqrt (sq_cost P (map (row P) idx) (km_assignment (km_init idx P))) ->
  exists C a, locally_optimal n d k P C a /\ forall max_iters fuel, (k ^ n <= max_iters)%nat -> (max_iters <= fuel)%nat ->
    exists s, kmeans_with_seed d idx P k thresh max_iters fuel = Done s /\ km_centroids s = C /\ km_assignment s = a /\ km_iters s = max_iters.
Proof.
  intros HP Hn Hk L B Ht. set (C := Cs d k P (map (row P) idx) (k ^ n)). exists C, (fst (find_assignment P C)).
  assert (SC : shape k d C) by (apply (Cs_shape HP Hk (C0_shape HP L B))). split.
  - apply fixed_opt; auto. exact (stable HP Hn Hk (C0_shape HP L B) (le_n (k ^ n)) (Nat.le_succ_diag_r (k ^ n))).
  - intros mi fuel Hm Hf. destruct (km_total HP Hn Hk thresh _ L B Hf) as [s Hs]. exists s. split; [exact Hs|].
    destruct (runs_on HP Hn Hk L B Ht Hs) as [Ei Hr]. destruct (reach_Cs Hn Hk L Hr) as (Ec & Ea & _).
    rewrite (stable HP Hn Hk (C0_shape HP L B) (le_n _) Hm) in Ec, Ea. auto.
Qed.
Print Assumptions C92_solves.

(** four points on a line, two clusters, both initial centroids in one of the groups *)
Example C92_nonvacuous : let P := [[0]; [1]; [10]; [11]] in let idx := [0; 1]%nat in
  shape 4 1 P /\ length idx = 2%nat /\ (forall i, In i idx -> (i < 4)%nat) /\
  - 14 < - sqrt (sq_cost P (map (row P) idx) (km_assignment (km_init idx P))).
Proof.
  cbv zeta. set (P := [[0]; [1]; [10]; [11]]). assert (SP : shape 4 1 P) by (split; [reflexivity|intros r [<-|[<-|[<-|[<-|[]]]]]; reflexivity]).
  split; [exact SP|]. split; [reflexivity|]. split; [intros i [<-|[<-|[]]]; lia|].
  rewrite init_eq. cbn [km_assignment]. match goal with |- _ < - ?r => enough (r < 14) by lra end. rewrite <- (sqrt_square 14) by lra. apply sqrt_lt_1_alt.
  assert (Q : sq_cost P (map (row P) [0%nat; 1%nat]) (fst (find_assignment P (map (row P) [0%nat; 1%nat]))) <= sq_cost P (map (row P) [0%nat; 1%nat]) [0; 1; 1; 1]%nat).
  { apply (assign_opt SP (k := 2)); [lia|lia|reflexivity|]. split; [reflexivity|]. intros [|[|[|[|i]]]] Hi; cbn in *; lia. }
  assert (V : sq_cost P (map (row P) [0%nat; 1%nat]) [0; 1; 1; 1]%nat = 181).
  { unfold sq_cost, row_dist, P, row. cbn [length map nth rsum rsub zipw]. rewrite !nrm_1. rewrite <- !Rabs_mult. rewrite !Rabs_right by lra. ring. }
  split; [|lra]. apply rsum_pos. intros; apply Rle_0_sqr.
Qed.
