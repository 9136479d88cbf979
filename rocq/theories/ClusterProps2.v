(** Properties C49, C50, C51, C65 and C66: cluster labels, sparse representations,
    SSC-OMP and graph Laplacians. *)
From Coq Require Import List Arith Bool ZArith Reals Lra Lia Permutation.
From Verif Require Import Vec RVec RMat Loop SelModel SolverSpec KMeansModel ClusterModel ClusterSpec ClusterProofs
  SscModel SscSpec PursuitModel PursuitSpec LsqrMinNorm SscProofs SscProofs2 SscProofs3 LaplacianProofs.
Import ListNotations.
Local Open Scope R_scope.

(** ** C49: best label maps.  [lsa] is scipy's assignment solver, of which only
    optimality on the table at hand is assumed. *)
Theorem C49_best_map_partial lsa t p : length t = length p -> distinct t = distinct p ->
  optimal_assignment (best_map_G t p) (lsa (best_map_G t p)) ->
  exists mapped cols, best_map lsa t p = Some (mapped, cols) /\
  (exists f, relabelling f p t /\ mapped = map f p) /\
  forall f, relabelling f p t -> (agreements Z.eq_dec t (map f p) <= agreements Z.eq_dec t mapped)%nat.
Proof. exact (best_map_opt lsa t p). Qed.
Print Assumptions C49_best_map_partial.
Theorem C49_best_map_k lsa t p k : length t = length p -> (forall x, In x p -> (x < k)%nat) ->
  optimal_assignment (best_map_k_G t p k) (lsa (best_map_k_G t p k)) ->
  exists mapped cols, best_map_k lsa t p k = Some (mapped, cols) /\
  (exists f, relabelling f (seq 0 k) (seq 0 k) /\ mapped = map f p) /\
  forall f, relabelling f (seq 0 k) (seq 0 k) -> (agreements Nat.eq_dec t (map f p) <= agreements Nat.eq_dec t mapped)%nat.
Proof. exact (best_map_k_opt lsa t p (k := k)). Qed.
Print Assumptions C49_best_map_k.
(** a relabelled truth has error zero *)
Theorem C49_error_zero lsa t f : (forall a b, In a t -> In b t -> f a = f b -> a = b) ->
  optimal_assignment (best_map_G t (map f t)) (lsa (best_map_G t (map f t))) ->
  clustering_error lsa t (map f t) = Some (0%nat, 0).
Proof. exact (error_zero lsa t f). Qed.
Print Assumptions C49_error_zero.
Theorem C49_error_partial lsa t p : length t = length p -> distinct t = distinct p -> (0 < length t)%nat ->
  optimal_assignment (best_map_G t p) (lsa (best_map_G t p)) ->
  exists missed err, clustering_error lsa t p = Some (missed, err) /\ 0 <= err <= 1 /\ err * INR (length t) = INR missed /\
    (exists f, relabelling f p t /\ (missed + agreements Z.eq_dec t (map f p) = length t)%nat) /\
    forall f, relabelling f p t -> (missed + agreements Z.eq_dec t (map f p) <= length t)%nat.
Proof. exact (error_bounds lsa t p). Qed.
Print Assumptions C49_error_partial.
Theorem C49_error_k lsa t p k : length t = length p -> (0 < length t)%nat -> (forall x, In x p -> (x < k)%nat) ->
  optimal_assignment (best_map_k_G t p k) (lsa (best_map_k_G t p k)) ->
  exists missed err, clustering_error_k lsa t p k = Some (missed, err) /\ 0 <= err <= 1 /\ err * INR (length t) = INR missed /\
    (exists f, relabelling f (seq 0 k) (seq 0 k) /\ (missed + agreements Nat.eq_dec t (map f p) = length t)%nat) /\
    forall f, relabelling f (seq 0 k) (seq 0 k) -> (missed + agreements Nat.eq_dec t (map f p) <= length t)%nat.
Proof. exact (error_k_bounds lsa t p (k := k)). Qed.
Print Assumptions C49_error_k.
(** the premise on the assignment solver can be met for every table *)
Theorem C49_assignment_exists G : exists cols, optimal_assignment G cols.
Proof. exact (assignment_exists G). Qed.
Print Assumptions C49_assignment_exists.
(** unequal numbers of labels.  With more true than predicted labels the result
    need not be optimal; with more predicted labels distinct predictions are
    merged, and the error can be 0 although no one-to-one relabelling exists *)
Theorem C49_more_true_labels_refuted : exists t p, length t = length p /\ forall lsa,
  optimal_assignment (best_map_G t p) (lsa (best_map_G t p)) ->
  exists mapped cols, best_map lsa t p = Some (mapped, cols) /\
  exists f, relabelling f p t /\ (agreements Z.eq_dec t mapped < agreements Z.eq_dec t (map f p))%nat.
Proof.
  exists [0; 1; 1]%Z, [5; 5; 5]%Z. split; [reflexivity|]. intros lsa. change (best_map_G [0; 1; 1]%Z [5; 5; 5]%Z) with [[1; 0]; [2; 0]]%nat.
  intros [P O]. unfold best_map. cbn [length Nat.eqb negb]. cbv zeta. change (best_map_G [0; 1; 1]%Z [5; 5; 5]%Z) with [[1; 0]; [2; 0]]%nat.
  set (cols := lsa _) in *. assert (E : cols = [1; 0]%nat).
  { apply Permutation_sym in P. apply Permutation_length_2_inv in P. destruct P as [E|E]; auto.
    exfalso. specialize (O [1; 0]%nat (perm_swap 0%nat 1%nat [])). rewrite E in O. vm_compute in O. lia. }
  rewrite E. exists [0; 0; 0]%Z, [1; 0]%nat. split; [reflexivity|]. exists (fun _ => 1%Z). split.
  - split; [intros a _; simpl; auto|]. intros a b [<-|[<-|[<-|[]]]] [<-|[<-|[<-|[]]]] _; reflexivity.
  - vm_compute. lia.
Qed.
Print Assumptions C49_more_true_labels_refuted.
Theorem C49_more_predicted_labels_refuted : exists t p, length t = length p /\ (forall f, ~ relabelling f p t) /\ forall lsa,
  optimal_assignment (best_map_G t p) (lsa (best_map_G t p)) -> clustering_error lsa t p = Some (0%nat, 0).
Proof.
  exists [3; 3; 3]%Z, [0; 1; 1]%Z. split; [reflexivity|]. split.
  - intros f [A B]. pose proof (A 0%Z ltac:(simpl; auto)) as A0. pose proof (A 1%Z ltac:(simpl; auto)) as A1.
    assert (f 0%Z = 3%Z) by (simpl in A0; intuition). assert (f 1%Z = 3%Z) by (simpl in A1; intuition).
    assert (0 = 1)%Z by (apply B; simpl; auto; congruence). discriminate.
  - intros lsa. change (best_map_G [3; 3; 3]%Z [0; 1; 1]%Z) with [[1; 2]; [0; 0]]%nat.
    intros [P O]. unfold clustering_error, best_map. cbn [length Nat.eqb negb]. cbv zeta. change (best_map_G [3; 3; 3]%Z [0; 1; 1]%Z) with [[1; 2]; [0; 0]]%nat.
    set (cols := lsa _) in *. assert (E : cols = [1; 0]%nat).
    { apply Permutation_sym in P. apply Permutation_length_2_inv in P. destruct P as [E|E]; auto.
      exfalso. specialize (O [1; 0]%nat (perm_swap 0%nat 1%nat [])). rewrite E in O. vm_compute in O. lia. }
    rewrite E. cbn. f_equal. f_equal. unfold Rdiv. apply Rmult_0_l.
Qed.
Print Assumptions C49_more_predicted_labels_refuted.
Example C49_nonvacuous : exists lsa, optimal_assignment (best_map_G [0; 1; 1]%Z [7; 4; 4]%Z) (lsa (best_map_G [0; 1; 1]%Z [7; 4; 4]%Z)) /\
  distinct [0; 1; 1]%Z = distinct [7; 4; 4]%Z.
Proof.
  destruct (assignment_exists (best_map_G [0; 1; 1]%Z [7; 4; 4]%Z)) as [cols H]. exists (fun _ => cols). split; [exact H|reflexivity].
Qed.

(** ** C50: labels, sizes and index ranges *)
Theorem C50_sizes_of_labels sizes : sizes_from_labels (labels_from_sizes sizes) (length sizes) = sizes.
Proof. exact (sizes_labels sizes). Qed.
Print Assumptions C50_sizes_of_labels.
Theorem C50_sizes_sum labels k : (forall l, In l labels -> (l < k)%nat) -> nsum (sizes_from_labels labels k) = length labels.
Proof. exact (sizes_sum labels (k := k)). Qed.
Print Assumptions C50_sizes_sum.
(** blocks are consecutive, of the given sizes, and labelled by their position *)
Theorem C50_start_end sizes i : (i < length sizes)%nat ->
  nth i (fst (start_end_indices sizes)) 0%nat = nsum (firstn i sizes) /\
  nth i (snd (start_end_indices sizes)) 0%nat = (nsum (firstn i sizes) + nth i sizes 0)%nat.
Proof. exact (fun H => conj (starts_nth sizes H) (ends_nth sizes H)). Qed.
Print Assumptions C50_start_end.
Theorem C50_labels_by_block sizes i x : (i < length sizes)%nat ->
  (nth i (fst (start_end_indices sizes)) 0 <= x < nth i (snd (start_end_indices sizes)) 0)%nat ->
  length (labels_from_sizes sizes) = nsum sizes /\ nth x (labels_from_sizes sizes) 0%nat = i.
Proof.
  exact (fun H Hx => conj (labels_from_len sizes 0) (labels_block sizes 0 H
    (eq_ind _ (fun e => (nsum (firstn i sizes) <= x < e)%nat)
      (eq_ind _ (fun e => (nsum (firstn i sizes) <= x < e)%nat)
         (eq_ind _ (fun b => (b <= x < nth i (snd (start_end_indices sizes)) 0)%nat) Hx _ (starts_nth sizes H)) _ (ends_nth sizes H))
      _ (eq_sym (nsum_firstn_S sizes H))))).
Qed.
Print Assumptions C50_labels_by_block.
(** block lengths add up to the rest of the signal; for uniform blocks all lengths
    are b except the last, which takes the remainder *)
Theorem C50_block_lens_sum l n : l <> [] -> zsum (block_lens_from_start_locs l n) = (n - hd 0 l)%Z.
Proof. exact (zdiff_sum n (l := l)). Qed.
Print Assumptions C50_block_lens_sum.
Theorem C50_block_lens_uniform n b : (0 < b)%Z -> (b <= n)%Z ->
  block_lens_from_start_locs (start_locations n b) n = (repeat b (Z.to_nat (n / b) - 1) ++ [b + n mod b])%Z.
Proof. exact (block_lens_uniform (n := n) (b := b)). Qed.
Print Assumptions C50_block_lens_uniform.
(** uniform blocks lie inside the signal, and every position before the remainder
    lies in exactly one block, from its start to its end inclusive *)
Theorem C50_uniform_blocks n b : (0 < b)%Z -> (0 <= n)%Z ->
  length (start_locations n b) = Z.to_nat (n / b) /\ length (end_locations n b) = Z.to_nat (n / b) /\
  (forall i, (i < Z.to_nat (n / b))%nat ->
     (0 <= nth i (start_locations n b) 0)%Z /\ (nth i (end_locations n b) 0 < n)%Z) /\
  forall x, (0 <= x < n - n mod b)%Z -> exists i, (i < Z.to_nat (n / b))%nat /\
    (nth i (start_locations n b) 0 <= x <= nth i (end_locations n b) 0)%Z /\
    forall j, (j < Z.to_nat (n / b))%nat ->
      (nth j (start_locations n b) 0 <= x <= nth j (end_locations n b) 0)%Z -> j = i.
Proof. exact (blocks_cover (n := n) (b := b)). Qed.
Print Assumptions C50_uniform_blocks.
Example C50_nonvacuous : labels_from_sizes [2; 0; 3]%nat = [0; 0; 2; 2; 2]%nat /\ start_end_indices [2; 0; 3]%nat = ([0; 2; 2], [2; 2; 5])%nat.
Proof. split; reflexivity. Qed.

(** ** C51: conversions and statistics *)
Theorem C51_roundtrip k n X I : shape k n X -> ishape k n I -> (0 < k)%nat -> bcoo_to_sparse (sparse_to_bcoo n X I) k = (X, I).
Proof. exact (roundtrip (k := k) (n := n) (X := X) (I := I)). Qed.
Print Assumptions C51_roundtrip.
Theorem C51_dense_agree k n X I r c : shape k n X -> ishape k n I -> (r < n)%nat -> (c < n)%nat -> NoDup (icol I c) ->
  ent (bcoo_todense n (sparse_to_bcoo n X I)) r c = ent (sparse_to_full_rep n X I) r c.
Proof. exact (@dense_agree k n X I r c). Qed.
Print Assumptions C51_dense_agree.
(** with a repeated index one conversion keeps the last value, the other adds *)
Theorem C51_duplicate_indices_refuted : exists X I, shape 2 1 X /\ ishape 2 1 I /\
  ent (sparse_to_full_rep 1 X I) 0 0 = 2 /\ ent (bcoo_todense 1 (sparse_to_bcoo 1 X I)) 0 0 = 3.
Proof.
  exists [[1]; [2]], [[0]; [0]]%nat. split; [split; [reflexivity|intros r [<-|[<-|[]]]; reflexivity]|].
  split; [split; [reflexivity|intros r [<-|[<-|[]]]; reflexivity]|]. split; cbn; [reflexivity|ring].
Qed.
Print Assumptions C51_duplicate_indices_refuted.
Theorem C51_affinity n Z i j : (i < n)%nat -> (j < n)%nat ->
  ent (rep_to_affinity n Z) i j = ent (rep_to_affinity n Z) j i /\ 0 <= ent (rep_to_affinity n Z) i j /\
  (ent (rep_to_affinity n Z) i j = 0 <-> ent Z i j = 0 /\ ent Z j i = 0).
Proof. exact (@affinity_spec n Z i j). Qed.
Print Assumptions C51_affinity.
(** the preservation error is the share of the weight outside the cluster *)
Theorem C51_preservation_error ci lab k : (forall x, In x ci -> 0 <= x) -> length lab = length ci ->
  match snd (spr_of ci lab k) with
  | None => forall i, (i < length ci)%nat -> ci@i = 0
  | Some e => 0 <= e <= 1 /\
     (e = 0 <-> forall i, (i < length ci)%nat -> nth i lab 0%nat <> k -> ci@i = 0) /\
     e * rlsum ci = rlsum (zipw (fun c l => if Nat.eqb l k then 0 else c) ci lab)
  end.
Proof. exact (@spr_error_spec ci lab k). Qed.
Print Assumptions C51_preservation_error.
Theorem C51_preservation_flag ci lab k : length lab = length ci ->
  (fst (spr_of ci lab k) = true <-> forall i, (i < length ci)%nat -> 1/1000 <= ci@i -> nth i lab 0%nat = k).
Proof. exact (@flag_spec ci lab k). Qed.
Print Assumptions C51_preservation_flag.
Theorem C51_mean_error n C labels e : (0 < n)%nat -> length C = length labels -> spr_error (spr_stats n C labels) = Some e -> 0 <= e <= 1.
Proof. exact (@spr_mean_bounds n C labels e). Qed.
Print Assumptions C51_mean_error.
(** the sparse version counts coefficients below 1e-3 as in-cluster, so its error
    can be zero although weight lies outside the cluster *)
Theorem C51_sparse_error_zero_refuted : exists ci lab k, (forall x, In x ci -> 0 <= x) /\ length lab = length ci /\
  snd (sparse_spr_of ci lab k) = Some 0 /\ exists e, snd (spr_of ci lab k) = Some e /\ 0 < e.
Proof.
  exists [1/2000], [1%nat], 0%nat. split; [intros x [<-|[]]; lra|]. split; [reflexivity|].
  unfold sparse_spr_of, spr_of. cbv zeta. cbn [snd zipw rlsum fold_right Nat.eqb].
  destruct (Rltb_spec (1/2000) (1/1000)); [|lra]. cbn [Nat.eqb].
  destruct (Reqb_spec (1/2000 + 0) 0); [lra|]. split; [f_equal; field|]. eexists. split; [reflexivity|]. replace (1 - (0 + 0) / (1/2000 + 0)) with 1 by field. lra.
Qed.
Print Assumptions C51_sparse_error_zero_refuted.
(** the statistics of d coefficients per signal with their indices: the flag says
    that the coefficients of at least 1e-3 belong to the cluster of the signal, the
    error is the share of the other ones, and it is zero exactly when the flag is set *)
Theorem C51_sparse_stats d n Z I labels c : shape d n Z -> ishape d n I -> (c < n)%nat ->
  let s := nth c (sparse_spr_stats n Z I labels) (false, None) in
  let label i := nth (nth c (nth i I []) 0%nat) labels 0%nat in
  let k := nth c labels 0%nat in
  (fst s = true <-> forall i, (i < d)%nat -> 1/1000 <= Rabs (ent Z i c) -> label i = k) /\
  match snd s with
  | None => forall i, (i < d)%nat -> ent Z i c = 0
  | Some e => 0 <= e <= 1 /\ (e = 0 <-> fst s = true) /\
     e * rsum d (fun i => Rabs (ent Z i c)) =
     rsum d (fun i => if Nat.eqb (label i) k then 0 else if Rltb (Rabs (ent Z i c)) (1/1000) then 0 else Rabs (ent Z i c))
  end.
Proof. exact (@sparse_stats_spec d n Z I labels c). Qed.
Print Assumptions C51_sparse_stats.
Theorem C51_sparse_mean_error d n Z I labels e : (0 < n)%nat -> shape d n Z -> ishape d n I ->
  spr_error (sparse_spr_stats n Z I labels) = Some e -> 0 <= e <= 1.
Proof. exact (@sparse_mean_bounds d n Z I labels e). Qed.
Print Assumptions C51_sparse_mean_error.
(** both functions set the same flag; the sparse error is not larger, and the
    difference is at most d * 1e-3 over the weight of the signal *)
Theorem C51_sparse_full d n Z I labels c : shape d n Z -> ishape d n I -> length labels = n -> (c < n)%nat ->
  NoDup (icol I c) -> (forall i, In i (icol I c) -> (i < n)%nat) ->
  let s := nth c (sparse_spr_stats n Z I labels) (false, None) in
  let f := nth c (spr_stats n (sparse_to_full_rep n Z I) labels) (false, None) in
  fst s = fst f /\
  match snd s, snd f with
  | None, None => True
  | Some e, Some e' => 0 <= e <= e' /\ (e' - e) * rsum d (fun i => Rabs (ent Z i c)) <= INR d * (1 / 1000)
  | _, _ => False
  end.
Proof. exact (@sparse_full d n Z I labels c). Qed.
Print Assumptions C51_sparse_full.
Example C51_sparse_ex : shape 2 3 [[1; 1; 2]; [3; 1; 0]] /\ ishape 2 3 [[1; 0; 0]; [2; 2; 1]]%nat /\
  NoDup (icol [[1; 0; 0]; [2; 2; 1]]%nat 0) /\
  sparse_spr_stats 3 [[1; 1; 2]; [3; 1; 0]] [[1; 0; 0]; [2; 2; 1]]%nat [0; 0; 1]%nat =
    [(false, Some (3 / 4)); (false, Some (1 / 2)); (false, Some 1)].
Proof.
  split; [split; [reflexivity|intros r [<-|[<-|[]]]; reflexivity]|]. split; [split; [reflexivity|intros r [<-|[<-|[]]]; reflexivity]|].
  split; [cbn; repeat constructor; simpl; intuition lia|].
  unfold sparse_spr_stats. cbn [seq map vcol icol nth]. rewrite Rabs_R0, !(Rabs_right) by lra.
  unfold sparse_spr_of. cbv zeta. cbn [zipw rlsum fold_right].
  repeat (match goal with |- context[Rltb ?a ?b] => destruct (Rltb_spec a b); try lra end).
  repeat (match goal with |- context[Reqb ?a ?b] => destruct (Reqb_spec a b); try lra end).
  cbn [Nat.eqb forallb andb]. repeat (f_equal; try lra).
Qed.
Example C51_nonvacuous : shape 1 2 [[1; 2]] /\ ishape 1 2 [[1; 0]]%nat /\ NoDup (icol [[1; 0]]%nat 1).
Proof.
  split; [split; [reflexivity|intros r [<-|[]]; reflexivity]|]. split; [split; [reflexivity|intros r [<-|[]]; reflexivity]|].
  cbn. repeat constructor. simpl. auto.
Qed.

(** ** C65: SSC-OMP.  X holds the data points; point i is written as a combination
    of normalised points. *)
Theorem C65_representation lstsq d X K i : least_squares_solver lstsq -> shape (length X) d X -> (i < length X)%nat ->
  let s := nth i (build_representation_omp lstsq X K) (SSC [] [] []) in
  let atoms := map (unit_point X) (ss_I s) in
  length (ss_I s) = Nat.max 1 K /\ (forall j, In j (ss_I s) -> (j < length X)%nat) /\ length (ss_z s) = Nat.max 1 K /\
  ss_r s = rsub (nth i X []) (lincomb d (ss_z s) atoms) /\
  (forall v, In v atoms -> rdot v (ss_r s) = 0) /\
  (forall z, length z = Nat.max 1 K -> nrm2 (ss_r s) <= nrm2 (rsub (nth i X []) (lincomb d z atoms))).
Proof.
  intros LS HX Hi s atoms. destruct (@col_ok lstsq LS d X i HX Hi K) as [A [B [C [E [F G]]]]]. fold s in A, B, C, E, F, G.
  assert (Q : map (fun j => nth j (unit_cols X) []) (ss_I s) = atoms) by (apply map_ext_in; intros j Hj; apply unit_nth; auto).
  rewrite Q in E, G. repeat split; auto. intros v Hv. rewrite <- Q in Hv. apply in_map_iff in Hv. destruct Hv as [j [<- Hj]]. auto.
Qed.
Print Assumptions C65_representation.
Theorem C65_energy_nonincreasing lstsq d X K i : least_squares_solver lstsq -> shape (length X) d X -> (i < length X)%nat -> (1 <= K)%nat ->
  nrm2 (ss_r (nth i (build_representation_omp lstsq X (S K)) (SSC [] [] []))) <= nrm2 (ss_r (nth i (build_representation_omp lstsq X K) (SSC [] [] []))).
Proof. exact (fun LS HX Hi => @col_energy lstsq LS d X i HX Hi K). Qed.
Print Assumptions C65_energy_nonincreasing.
(** as long as each residual correlates with some other point, a point is not
    used in its own representation and no point is used twice *)
Theorem C65_self_expressive_partial lstsq d X K i : least_squares_solver lstsq -> shape (length X) d X -> (i < length X)%nat -> (1 <= K)%nat ->
  (exists j, (j < length X)%nat /\ j <> i /\ rdot (nth j X []) (nth i X []) <> 0) ->
  (forall u, (1 <= u < K)%nat -> exists j, (j < length X)%nat /\ j <> i /\
     rdot (nth j X []) (ss_r (nth i (build_representation_omp lstsq X u) (SSC [] [] []))) <> 0) ->
  NoDup (ss_I (nth i (build_representation_omp lstsq X K) (SSC [] [] []))) /\ ~ In i (ss_I (nth i (build_representation_omp lstsq X K) (SSC [] [] []))).
Proof. exact (fun LS HX Hi => @col_fresh lstsq LS d X i HX Hi K). Qed.
Print Assumptions C65_self_expressive_partial.
(** without that premise a point may represent itself *)
Theorem C65_self_expressive_refuted : exists X, shape 2 2 X /\ (forall x, In x X -> nrm x = 1) /\
  forall lstsq, In 0%nat (ss_I (nth 0 (build_representation_omp lstsq X 1) (SSC [] [] []))).
Proof.
  exists [[1; 0]; [0; 1]]. split; [split; [reflexivity|intros r [<-|[<-|[]]]; reflexivity]|].
  split; [intros x [<-|[<-|[]]]; [apply nrm_e1|apply nrm_e2]|]. intros lstsq. rewrite self_selected. simpl. auto.
Qed.
Print Assumptions C65_self_expressive_refuted.
(** the batched version: same indices, coefficients and residual divided by the
    norm of the point *)
Theorem C65_batch_partial lstsq d X K bs i : min_norm_solver lstsq -> shape (length X) d X -> (forall x, In x X -> 0 < nrm x) ->
  (0 < bs)%nat -> (i < length X)%nat ->
  let s := nth i (build_representation_omp lstsq X K) (SSC [] [] []) in
  let b := nth i (batch_build_representation_omp lstsq X K bs) (SSC [] [] []) in
  ss_I b = ss_I s /\ ss_z b = rscale (/ nrm (nth i X [])) (ss_z s) /\ ss_r b = rscale (/ nrm (nth i X [])) (ss_r s).
Proof.
  intros MN HX Hp Hb Hi s b. unfold b. rewrite (@batch_scaled lstsq d X K bs i MN HX Hp Hb Hi). fold s. repeat split.
Qed.
Print Assumptions C65_batch_partial.
Theorem C65_batch_complete lstsq X K bs : (0 < bs)%nat -> (0 < length X)%nat ->
  concat (map (fun se : nat * nat => seq (fst se) (snd se - fst se)) (batches (length X) bs)) = seq 0 (length X) /\
  length (batch_build_representation_omp lstsq X K bs) = length X.
Proof.
  intros Hb HX. split; [|now apply batch_len]. rewrite <- (@batches_cover (length X) bs) by auto. f_equal. apply map_ext. intros [s e]. reflexivity.
Qed.
Print Assumptions C65_batch_complete.
Theorem C65_batch_agrees_refuted : exists X, shape 2 1 X /\ forall lstsq, least_squares_solver lstsq ->
  ss_z (nth 0 (build_representation_omp lstsq X 1) (SSC [] [] [])) = [2] /\
  ss_z (nth 0 (batch_build_representation_omp lstsq X 1 2) (SSC [] [] [])) = [1].
Proof.
  exists [[2]; [2]]. split; [split; [reflexivity|intros r [<-|[<-|[]]]; reflexivity]|]. exact batch_differs.
Qed.
Print Assumptions C65_batch_agrees_refuted.
Example C65_nonvacuous : exists lstsq, min_norm_solver lstsq /\ shape 2 1 [[2]; [2]] /\ (forall x, In x [[2]; [2]] -> 0 < nrm x) /\
  rdot (nth 1 [[2]; [2]] []) (nth 0 [[2]; [2]] []) <> 0.
Proof.
  exists exact_lstsq. split; [exact exact_lstsq_ok|]. split; [split; [reflexivity|intros r [<-|[<-|[]]]; reflexivity]|].
  split; [intros x [<-|[<-|[]]]; rewrite nrm_1, Rabs_right; lra|]. cbn. lra.
Qed.

(** ** C66: graph Laplacians of a symmetric nonnegative affinity W *)
Theorem C66_quadratic_form n W x : symmetric n W -> length x = n ->
  rdot x (mv (unnormalized_laplacian n W) x) = edge_energy n W (fun i => x@i).
Proof. exact (@lap_quad n W x). Qed.
Print Assumptions C66_quadratic_form.
Theorem C66_symmetric_psd n W : symmetric n W -> nonnegative n W ->
  symmetric n (unnormalized_laplacian n W) /\ forall x, length x = n -> 0 <= rdot x (mv (unnormalized_laplacian n W) x).
Proof.
  exact (fun S P => conj (@lap_symmetric n W S) (fun x Hx => eq_ind_r (fun q => 0 <= q) (@energy_pos n W (fun i => x@i) P) (@lap_quad n W x S Hx))).
Qed.
Print Assumptions C66_symmetric_psd.
(** the null vectors are exactly those constant along edges (hence on components) *)
Theorem C66_kernel n W x : symmetric n W -> nonnegative n W -> length x = n ->
  (mv (unnormalized_laplacian n W) x = rzero n <-> forall i j, (i < n)%nat -> (j < n)%nat -> ent W i j <> 0 -> x@i = x@j).
Proof. exact (@lap_kernel n W x). Qed.
Print Assumptions C66_kernel.
Theorem C66_random_walk n W M : normalized_random_walk_laplacian n W = Some M -> symmetric n W ->
  mv M (repeat 1 n) = rzero n /\
  forall x i, length x = n -> (i < n)%nat -> degree n W i * (mv M x)@i = (mv (unnormalized_laplacian n W) x)@i.
Proof. exact (fun H S => conj (@rw_ones n W M H S) (fun x i => @rw_mv n W M H x i S)). Qed.
Print Assumptions C66_random_walk.
Theorem C66_normalized_symmetric n W M : normalized_symmetric_w n W = Some M -> symmetric n W ->
  symmetric n M /\
  mv M (tab n (fun i => sqrt (degree n W i))) = tab n (fun i => sqrt (degree n W i)) /\
  forall x, length x = n -> nrm2 x - rdot x (mv M x) = edge_energy n W (fun i => x@i / sqrt (degree n W i)).
Proof. exact (fun H S => conj (@nsym_symmetric n W M H S) (conj (@nsym_fix n W M H S) (fun x => @nsym_quad n W M H x S))). Qed.
Print Assumptions C66_normalized_symmetric.
Theorem C66_normalized_bound n W M x : normalized_symmetric_w n W = Some M -> symmetric n W -> nonnegative n W -> length x = n ->
  rdot x (mv M x) <= nrm2 x.
Proof. exact (fun H => @nsym_bound n W M H x). Qed.
Print Assumptions C66_normalized_bound.
Theorem C66_sparse_agrees n W : (forall p, In p (bc_indices W) -> (fst p < n)%nat) ->
  option_map (bcoo_todense n) (normalized_symmetric_sparse_w n W) = normalized_symmetric_w n (bcoo_todense n W).
Proof. exact (@sparse_w_agrees n W). Qed.
Print Assumptions C66_sparse_agrees.
Example C66_nonvacuous : exists M, normalized_symmetric_w 2 [[0; 1]; [1; 0]] = Some M /\ symmetric 2 [[0; 1]; [1; 0]] /\ nonnegative 2 [[0; 1]; [1; 0]].
Proof.
  unfold normalized_symmetric_w. cbv zeta. unfold all_positive, degrees, tab. cbn [seq map forallb]. unfold rsum, Sum, ent. cbn.
  destruct (Rltb_spec 0 (0 + 0 + 1)); [|lra]. destruct (Rltb_spec 0 (0 + 1 + 0)); [|lra]. cbn. eexists. split; [reflexivity|].
  split; intros i j Hi Hj; destruct i as [|[|]]; destruct j as [|[|]]; try lia; unfold ent; simpl; lra.
Qed.
