(** Properties C47 and C48: k-means. *)
From Coq Require Import List Arith Reals Lra Lia.
From Verif Require Import Vec RVec RMat Loop SolverSpec KMeansModel KMeansSpec KMeansProofs.
Import ListNotations.
Local Open Scope R_scope.

(** ** C47: assignments and distortion *)
(** find_assignment sends every point to a nearest centroid and returns its distance *)
Theorem C47_nearest_assignment n d P C i : shape n d P -> (0 < length C)%nat -> (i < n)%nat ->
  let (a, dist) := find_assignment P C in
  length a = n /\ length dist = n /\
  nearest P C i (nth i a 0%nat) /\ dist@i = row_dist P i C (nth i a 0%nat).
Proof.
  exact (fun HP HC Hi => let Hn := Nat.lt_lt_0 _ _ Hi in conj (assign_len HP C) (conj (dist_len HP Hn HC C) (conj (assign_nearest HP Hn HC C eq_refl Hi) (dist_nth HP Hn HC C Hi)))).
Qed.
Print Assumptions C47_nearest_assignment.
(** every state of the loop: the centroids are k points of the ambient space, the
    assignment is a nearest one for the state's own centroids, and the distortion
    is the mean distance of that assignment *)
Theorem C47_state_consistent n d k P thresh max_iters idx j s : shape n d P -> (0 < n)%nat -> (0 < k)%nat ->
  length idx = k -> (forall i, In i idx -> (i < n)%nat) ->
  reaches (km_cond thresh max_iters) (km_body d P k) (km_init idx P) j s ->
  shape k d (km_centroids s) /\ assigns P k (km_assignment s) /\
  (forall i, (i < n)%nat -> nearest P (km_centroids s) i (nth i (km_assignment s) 0%nat)) /\
  km_distortion s = mean_dist P (km_centroids s) (km_assignment s) /\
  km_iters s = j /\ (j <= max_iters)%nat.
Proof.
  exact (fun HP Hn Hk L B H => match reach_inv HP Hn Hk L B H with
    | conj (conj A1 (conj A2 (conj A3 A4))) (conj A5 A6) => conj A1 (conj A2 (conj A3 (conj A4 (conj A5 A6)))) end).
Qed.
Print Assumptions C47_state_consistent.
(** the loop ends, within max_iters iterations, and the returned state is consistent;
    if it stopped before the limit the last decrease was at most thresh *)
Theorem C47_terminates n d k P thresh max_iters idx fuel : shape n d P -> (0 < n)%nat -> (0 < k)%nat ->
  length idx = k -> (forall i, In i idx -> (i < n)%nat) -> (max_iters <= fuel)%nat ->
  exists s, kmeans_with_seed d idx P k thresh max_iters fuel = Done s.
Proof. exact (fun HP Hn Hk L B => @km_total n d k P HP Hn Hk thresh max_iters idx L B fuel). Qed.
Print Assumptions C47_terminates.
Theorem C47_returned_state n d k P thresh max_iters idx fuel s : shape n d P -> (0 < n)%nat -> (0 < k)%nat ->
  length idx = k -> (forall i, In i idx -> (i < n)%nat) ->
  kmeans_with_seed d idx P k thresh max_iters fuel = Done s ->
  (forall i, (i < n)%nat -> nearest P (km_centroids s) i (nth i (km_assignment s) 0%nat)) /\
  km_distortion s = mean_dist P (km_centroids s) (km_assignment s) /\
  (km_iters s <= max_iters)%nat /\
  ((km_iters s < max_iters)%nat -> exists p, km_prev s = Some p /\ p - km_distortion s <= thresh).
Proof.
  exact (fun HP Hn Hk L B H => match @km_final n d k P HP Hn Hk thresh max_iters idx L B fuel s H with
    | conj (conj _ (conj _ (conj A3 A4))) (conj A5 (conj _ A7)) => conj A3 (conj A4 (conj A5 A7)) end).
Qed.
Print Assumptions C47_returned_state.
(** kmeans returns the restart of least distortion *)
Theorem C47_best_restart d keys P k thresh max_iters fuel i s :
  kmeans d keys P k thresh max_iters fuel = Some (i, s) ->
  (i < length keys)%nat /\
  kmeans_with_seed d (nth i keys []) P k thresh max_iters fuel = Done s /\
  forall j, (j < length keys)%nat -> exists s',
    kmeans_with_seed d (nth j keys []) P k thresh max_iters fuel = Done s' /\ km_distortion s <= km_distortion s'.
Proof. exact (@kmeans_best d keys P k thresh max_iters fuel i s). Qed.
Print Assumptions C47_best_restart.
Theorem C47_kmeans_total n d k P keys thresh max_iters fuel : shape n d P -> keys <> [] ->
  (forall idx, In idx keys -> length idx = k /\ forall i, In i idx -> (i < n)%nat) ->
  (0 < n)%nat -> (0 < k)%nat -> (max_iters <= fuel)%nat ->
  exists i s, kmeans d keys P k thresh max_iters fuel = Some (i, s).
Proof. exact (@kmeans_total n d k P keys thresh max_iters fuel). Qed.
Print Assumptions C47_kmeans_total.

(** ** C48: monotonicity *)
(** the new centroids are optimal for the assignment, empty clusters included *)
Theorem C48_centroids_optimal n d k P a C : shape n d P -> (0 < n)%nat -> (0 < k)%nat -> assigns P k a -> shape k d C ->
  sq_cost P (find_new_centroids d a P k) a <= sq_cost P C a.
Proof. exact (fun HP Hn Hk => @centroids_opt n d k P HP Hn Hk a C). Qed.
Print Assumptions C48_centroids_optimal.
Theorem C48_assignment_optimal n d k P C a : shape n d P -> (0 < n)%nat -> (0 < k)%nat -> length C = k -> assigns P k a ->
  sq_cost P C (fst (find_assignment P C)) <= sq_cost P C a /\
  mean_dist P C (fst (find_assignment P C)) <= mean_dist P C a.
Proof. exact (fun HP Hn Hk HC Ha => conj (assign_opt HP Hn Hk C HC Ha) (assign_opt_mean HP Hn Hk C HC Ha)). Qed.
Print Assumptions C48_assignment_optimal.
Theorem C48_squares_nonincreasing n d k P thresh max_iters idx i s j s' : shape n d P -> (0 < n)%nat -> (0 < k)%nat ->
  length idx = k -> (forall l, In l idx -> (l < n)%nat) -> (i <= j)%nat ->
  reaches (km_cond thresh max_iters) (km_body d P k) (km_init idx P) i s ->
  reaches (km_cond thresh max_iters) (km_body d P k) (km_init idx P) j s' ->
  sq_cost P (km_centroids s') (km_assignment s') <= sq_cost P (km_centroids s) (km_assignment s).
Proof. exact (fun HP Hn Hk L B Hij Hi Hj => reach_mono_le HP Hn Hk L B Hj Hij Hi). Qed.
Print Assumptions C48_squares_nonincreasing.
(** the reported distortion is not monotone: on the points 0, 0, 3 with k = 1 and
    initial centroid 0, every run with a nonnegative threshold takes one step,
    raises the distortion from 1 to 4/3, and returns the worse state *)
Theorem C48_distortion_monotone_refuted : exists P idx k, shape 3 1 P /\ length idx = k /\
  forall thresh max_iters, 0 <= thresh -> (1 <= max_iters)%nat -> exists s,
    kmeans_with_seed 1 idx P k thresh max_iters max_iters = Done s /\ km_iters s = 1%nat /\
    km_distortion (km_init idx P) < km_distortion s.
Proof.
  exists km_pts, [0%nat], 1%nat. split; [split; [reflexivity|intros r [<-|[<-|[<-|[]]]]; reflexivity]|].
  split; [reflexivity|]. intros t mi Ht Hm. destruct (km_worse Ht Hm) as [s [A [B [C D]]]].
  exists s. rewrite C, D. split; [exact A|]. split; [exact B|lra].
Qed.
Print Assumptions C48_distortion_monotone_refuted.

(** the hypotheses are met by the three points above *)
Example C47_nonvacuous : exists s, kmeans_with_seed 1 [0%nat] km_pts 1 0 5 5 = Done s /\
  shape 3 1 km_pts /\ reaches (km_cond 0 5) (km_body 1 km_pts 1) (km_init [0%nat] km_pts) 0 (km_init [0%nat] km_pts).
Proof.
  destruct (@km_worse 0 5 (Rle_refl 0) ltac:(lia)) as [s [A _]]. exists s. split; [exact A|].
  split; [split; [reflexivity|intros r [<-|[<-|[<-|[]]]]; reflexivity]|constructor].
Qed.
