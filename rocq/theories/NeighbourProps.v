(** C77: angles between points, nearest neighbours inside and outside a cluster,
    sorted neighbours. *)
From Coq Require Import List Arith Bool Lia Reals Lra Permutation.
From Verif Require Import Vec RVec RMat ClusterModel NeighbourModel NeighbourSpec NeighbourProofs.
Import ListNotations.
Local Open Scope R_scope.

(** The table of angles between nonzero points is square and symmetric, its entries
    lie between 0 and 180 degrees and are the angles: <x, y> = |x| |y| cos(angle). *)
Theorem C77_angles X : (forall x, In x X -> nrm x <> 0) ->
  let A := angles_between_points X in
  shape (length X) (length X) A /\
  forall i j, (i < length X)%nat -> (j < length X)%nat ->
    ent A i j = ent A j i /\ 0 <= ent A i j <= 180 /\
    cos (ent A i j * (PI / 180)) * (nrm (nth i X []) * nrm (nth j X [])) = rdot (nth i X []) (nth j X []).
Proof. exact (@angles_spec X). Qed.
Print Assumptions C77_angles.

(** The angle is 0 exactly for positive multiples; it is 180 for negative ones. *)
Theorem C77_angles_extreme X i j : (i < length X)%nat -> (j < length X)%nat ->
  nrm (nth i X []) <> 0 -> nrm (nth j X []) <> 0 -> length (nth i X []) = length (nth j X []) ->
  (ent (angles_between_points X) i j = 0 <-> exists c, 0 < c /\ nth j X [] = rscale c (nth i X [])) /\
  ((exists c, c < 0 /\ nth j X [] = rscale c (nth i X [])) -> ent (angles_between_points X) i j = 180).
Proof.
  intros Hi Hj Ni Nj L. split; [split|].
  - now apply angle_zero.
  - intros [c [Hc E]]. exact (angle_pos X Hi Hj Ni Hc E).
  - intros [c [Hc E]]. exact (angle_neg X Hi Hj Ni Hc E).
Qed.
Print Assumptions C77_angles_extreme.

(** For a point s of a cluster with another point, the nearest neighbour inside the
    cluster is another point of the cluster, the minimum angle is the angle to it, and
    no other point of the cluster is nearer. *)
Theorem C77_inside A sizes k s t : (forall z, In z sizes -> z <> 0%nat) -> length A = total sizes ->
  in_cluster sizes k s -> in_cluster sizes k t -> t <> s -> (forall i j, ent A i j < 10000) ->
  exists ms ns, min_angles_inside_cluster A sizes = Some ms /\ nearest_neighbors_inside_cluster A sizes = Some ns /\
    length ms = total sizes /\ length ns = total sizes /\
    in_cluster sizes k (nth s ns 0%nat) /\ nth s ns 0%nat <> s /\
    ms@s = ent A (nth s ns 0%nat) s /\
    forall u, in_cluster sizes k u -> u <> s -> ms@s <= ent A u s.
Proof. intros HZ. exact (@inside_spec A sizes k s t (no_empty_true _ HZ)). Qed.
Print Assumptions C77_inside.

(** A point alone in its cluster is reported as its own nearest neighbour, at 10000 degrees. *)
Theorem C77_inside_alone_refuted A sizes k s : (forall z, In z sizes -> z <> 0%nat) -> length A = total sizes ->
  in_cluster sizes k s -> nth k sizes 0%nat = 1%nat ->
  exists ms ns, min_angles_inside_cluster A sizes = Some ms /\ nearest_neighbors_inside_cluster A sizes = Some ns /\
    ms@s = 10000 /\ nth s ns 0%nat = s.
Proof. intros HZ. exact (@inside_single A sizes k s (no_empty_true _ HZ)). Qed.
Print Assumptions C77_inside_alone_refuted.

(** An empty cluster makes both inside functions raise. *)
Theorem C77_inside_empty_refuted A sizes : In 0%nat sizes ->
  min_angles_inside_cluster A sizes = None /\ nearest_neighbors_inside_cluster A sizes = None.
Proof.
  intros H. unfold min_angles_inside_cluster, nearest_neighbors_inside_cluster. now rewrite no_empty_false.
Qed.
Print Assumptions C77_inside_empty_refuted.

(** With a point outside the cluster of s, the nearest neighbour outside is a point of
    another cluster, the minimum angle is the angle to it, and no point outside is nearer. *)
Theorem C77_outside A sizes k s t : length A = total sizes -> in_cluster sizes k s ->
  (t < total sizes)%nat -> ~ in_cluster sizes k t -> (forall i j, ent A i j < 10000) ->
  let mo := min_angles_outside_cluster A sizes in let on := nearest_neighbors_outside_cluster A sizes in
  length mo = total sizes /\ length on = total sizes /\
  (nth s on 0 < total sizes)%nat /\ ~ in_cluster sizes k (nth s on 0%nat) /\
  mo@s = ent A s (nth s on 0%nat) /\
  forall u, (u < total sizes)%nat -> ~ in_cluster sizes k u -> mo@s <= ent A s u.
Proof. exact (@outside_spec A sizes k s t). Qed.
Print Assumptions C77_outside.

(** With a single cluster the "outside" neighbour is a point of the cluster itself, at 10000 degrees. *)
Theorem C77_outside_single_refuted A n s : length A = n -> (s < n)%nat ->
  (min_angles_outside_cluster A [n])@s = 10000 /\
  in_cluster [n] 0 (nth s (nearest_neighbors_outside_cluster A [n]) 0%nat).
Proof.
  intros L Hs. assert (T : total [n] = n) by (simpl; lia).
  destruct (@outside_gen A [n] 0 s) as [_ [_ [I1 [_ [V _]]]]]; [lia|split; simpl; lia|].
  rewrite T in I1. split; [|split; simpl; lia]. rewrite V. cbn [firstn total fold_right nth Nat.add].
  destruct (Nat.ltb_spec (nth s (nearest_neighbors_outside_cluster A [n]) 0%nat) n); [reflexivity|lia].
Qed.
Print Assumptions C77_outside_single_refuted.

(** When its own angle is strictly the smallest of its row, the sorted neighbours of a
    point are all the other points, each once, by increasing angle. *)
Theorem C77_sorted n A s : shape n n A -> (s < n)%nat -> (forall t, (t < n)%nat -> t <> s -> ent A s s < ent A s t) ->
  let l := nth s (sorted_neighbors A) [] in
  Permutation (s :: l) (seq 0 n) /\
  forall p q, (p <= q < length l)%nat -> ent A s (nth p l 0%nat) <= ent A s (nth q l 0%nat).
Proof. exact (@sorted_spec n A s). Qed.
Print Assumptions C77_sorted.

(** A point that repeats an earlier one (or is a positive multiple of it) appears among
    its own neighbours: the dropped first entry is the earlier copy. *)
Theorem C77_sorted_duplicate_refuted X i j c : (i < j)%nat -> (j < length X)%nat -> nrm (nth i X []) <> 0 -> 0 < c ->
  nth j X [] = rscale c (nth i X []) -> In j (nth j (sorted_neighbors (angles_between_points X)) []).
Proof.
  intros Hij Hj Ni Hc E. assert (Hi : (i < length X)%nat) by lia.
  assert (Nj : nrm (nth j X []) <> 0).
  { rewrite E, nrm_scale, Rabs_right by lra. apply Rmult_integral_contrapositive_currified; lra. }
  apply (@sorted_tie (length X) _ i j (angles_shape X) Hij Hj).
  rewrite (@angle_pos X j i (/ c)); auto; try (apply Rinv_0_lt_compat; exact Hc).
  2: { rewrite E. apply vec_eq; [now rewrite !rscale_len|]. intros q _. rewrite !rscale_nth. field. lra. }
  rewrite (@angle_pos X j j 1); auto; try lra.
  apply vec_eq; [now rewrite rscale_len|]. intros q _. rewrite rscale_nth. ring.
Qed.
Print Assumptions C77_sorted_duplicate_refuted.

(** inn_positions is the first position that carries the point's own label... *)
Theorem C77_positions labels N s : (s < length labels)%nat ->
  let l := nth s N [] in let p := nth s (inn_positions labels N) 0%nat in
  In (nth s labels 0%nat) l ->
  (p < length l)%nat /\ nth p l 0%nat = nth s labels 0%nat /\ forall q, (q < p)%nat -> nth q l 0%nat <> nth s labels 0%nat.
Proof. exact (@positions_spec labels N s). Qed.
Print Assumptions C77_positions.
(** ... and 0, indistinguishable from "the nearest of all", when no neighbour carries it. *)
Theorem C77_positions_absent_refuted labels N s : (s < length labels)%nat -> ~ In (nth s labels 0%nat) (nth s N []) ->
  nth s (inn_positions labels N) 0%nat = 0%nat.
Proof. exact (@positions_absent labels N s). Qed.
Print Assumptions C77_positions_absent_refuted.

(** From points to positions: for nonzero points none of which is a positive multiple of
    s, the neighbour at the reported position of the sorted list is another point of the
    cluster of s, no earlier neighbour is, and its angle is the minimum angle inside the cluster. *)
Theorem C77_pipeline X d sizes k s t : (forall x, In x X -> nrm x <> 0 /\ length x = d) -> total sizes = length X ->
  (forall z, In z sizes -> z <> 0%nat) ->
  in_cluster sizes k s -> in_cluster sizes k t -> t <> s ->
  (forall u c, (u < length X)%nat -> u <> s -> 0 < c -> nth u X [] <> rscale c (nth s X [])) ->
  let A := angles_between_points X in
  let N := sorted_neighbors A in
  let labels := labels_from_sizes sizes in
  let p := nth s (inn_positions labels (map (map (fun i => nth i labels 0%nat)) N)) 0%nat in
  let b := nth p (nth s N []) 0%nat in
  in_cluster sizes k b /\ b <> s /\
  (forall q, (q < p)%nat -> ~ in_cluster sizes k (nth q (nth s N []) 0%nat)) /\
  exists ms, min_angles_inside_cluster A sizes = Some ms /\ ent A s b = ms@s.
Proof. exact (@pipeline_points X d sizes k s t). Qed.
Print Assumptions C77_pipeline.

(** *** concrete cases *)
Definition pts : list vec := [[1;0]; [1;1]; [0;1]; [-1;2]].
Lemma pts_nz x : In x pts -> nrm x <> 0 /\ length x = 2%nat.
Proof.
  intros H. assert (E : rdot x x <> 0 /\ length x = 2%nat).
  { simpl in H. destruct H as [<-|[<-|[<-|[<-|[]]]]]; (split; [unfold rdot; simpl; lra|reflexivity]). }
  destruct E as [E ?]. split; auto. intros N. apply E. rewrite <- nrm_sq, N. ring.
Qed.
(** two clusters of two points: the hypotheses of the pipeline hold for the first point *)
Example C77_pipeline_inhabited :
  total [2;2]%nat = length pts /\ (forall z, In z [2;2]%nat -> z <> 0%nat) /\
  in_cluster [2;2]%nat 0 0 /\ in_cluster [2;2]%nat 0 1 /\
  (forall u c, (u < length pts)%nat -> u <> 0%nat -> 0 < c -> nth u pts [] <> rscale c (nth 0 pts [])).
Proof.
  split; [reflexivity|]. split; [simpl; lia|]. split; [split; simpl; lia|]. split; [split; simpl; lia|].
  intros u c Hu Hu0 Hc E. simpl in Hu.
  assert (Hc' : u = 1%nat \/ u = 2%nat \/ u = 3%nat) by lia.
  apply (f_equal (fun v => v@1)) in E. rewrite rscale_nth in E.
  destruct Hc' as [->|[->| ->]]; simpl in E; lra.
Qed.
(** the third point has neighbours outside and inside; the sizes 1 and 3 leave the first point alone *)
Example C77_outside_inhabited : in_cluster [2;2]%nat 1 2 /\ ~ in_cluster [2;2]%nat 1 0 /\ in_cluster [1;3]%nat 0 0 /\
  forall i j, ent (angles_between_points pts) i j < 10000.
Proof.
  split; [split; simpl; lia|]. split; [intros [_ H]; simpl in H; lia|]. split; [split; simpl; lia|].
  apply angles_all. intros x Hx. now apply pts_nz.
Qed.
