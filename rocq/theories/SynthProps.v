(** C54: synthetic sparse data has the advertised support and values. *)
From Coq Require Import List Arith Bool Reals Permutation Sorted Lia Lra.
From Verif Require Import Scalar Vec RVec RMat Loop SortedL1Model PursuitModel
  SynthModel SynthSpec SynthProofs.
Import ListNotations.
Local Open Scope R_scope.

(** sparse_normal_representations returns K rows of drawn values at an
    increasing list of positions, and zero elsewhere. *)
Theorem C54_normal : forall D K S perm values,
  (K <= D)%nat -> permutation_of D perm -> shape K S values ->
  exists q omega,
    sparse_normal_representations D K S perm values = Some (q, omega) /\
    row_sparse D S K q omega (ent values) /\
    (forall i, In i omega <-> In i (firstn K perm)).
Proof. exact normal_ok. Qed.
Print Assumptions C54_normal.

(** Asking for more nonzero entries than there are positions is an error. *)
Theorem C54_too_many : forall D K S perm values,
  (D < K)%nat -> K <> 1%nat -> permutation_of D perm -> shape K S values ->
  sparse_normal_representations D K S perm values = None.
Proof. exact normal_fail. Qed.
Print Assumptions C54_too_many.

(** sparse_biuniform_representations: in addition every value at the support
    has a magnitude between a and b, for all uniform draws in [0, 1] and all
    nonzero sign draws. *)
Theorem C54_biuniform : forall a b D K S perm u g,
  0 <= a -> a <= b ->
  (K <= D)%nat -> permutation_of D perm -> shape K S u -> shape K S g ->
  (forall j s, (j < K)%nat -> (s < S)%nat ->
     0 <= ent u j s <= 1 /\ ent g j s <> 0) ->
  exists q omega V,
    sparse_biuniform_representations a b D K S perm u g = Some (q, omega) /\
    row_sparse D S K q omega V /\
    (forall j s, (j < K)%nat -> (s < S)%nat ->
       a <= Rabs (V j s) <= b /\ (0 < ent g j s -> 0 <= V j s) /\
       (ent g j s < 0 -> V j s <= 0) /\
       Rabs (V j s) = a + (b - a) * ent u j s).
Proof.
  intros a b D K S perm u g Ha Hb HK HP HU HG HD.
  destruct (biuniform_ok a b D K S perm u g HK HP HU HG)
    as [q [omega [E [HR _]]]].
  exists q, omega, (fun j s => sign (ent g j s) * (a + (b - a) * ent u j s)).
  split; auto. split; auto. intros j s Hj Hs.
  destruct (HD j s Hj Hs) as [Hu Hg].
  split; [apply biuniform_range; auto|].
  assert (0 <= (b - a) * ent u j s) by (apply Rmult_le_pos; lra).
  split; [|split].
  - intros H0. destruct (sign_cases (ent g j s)) as [[_ ->]|[[? _]|[? _]]]; lra.
  - intros H0. destruct (sign_cases (ent g j s)) as [[? _]|[[_ ->]|[? _]]]; lra.
  - rewrite Rabs_mult, sign_abs by auto. rewrite Rabs_pos_eq; lra.
Qed.
Print Assumptions C54_biuniform.

(** sparse_spikes: the values at the support are +1 or -1, unless the normal
    draw of an entry is exactly zero. *)
Theorem C54_spikes : forall N K S perm g,
  (K <= N)%nat -> permutation_of N perm -> shape K S g ->
  exists q omega V,
    sparse_spikes N K S perm g = Some (q, omega) /\
    row_sparse N S K q omega V /\
    (forall j s, (j < K)%nat -> (s < S)%nat ->
       (0 < ent g j s -> V j s = 1) /\ (ent g j s < 0 -> V j s = -1) /\
       (ent g j s = 0 -> V j s = 0)) /\
    (forall i, In i omega <-> In i (firstn K perm)).
Proof.
  intros N K S perm g HK HP HG.
  destruct (spikes_ok N K S perm g HK HP HG) as [q [omega [E [HR HI]]]].
  exists q, omega, (fun j s => sign (ent g j s)).
  split; auto. split; auto. split; auto. intros j s _ _.
  destruct (sign_cases (ent g j s)) as [[? ->]|[[? ->]|[? ->]]]; repeat split; lra.
Qed.
Print Assumptions C54_spikes.

(** index_sets: every set consists of distinct indices in range; with the
    other output axis the array is the transposed one. *)
Theorem C54_index_sets : forall N K perms,
  (forall p, In p perms -> permutation_of N p) ->
  (forall s, (s < length perms)%nat ->
     selection_of N (Nat.min K N) (nth s (index_sets N K 0 perms) [])) /\
  (forall a s j, (j < Nat.min K N)%nat ->
     nth s (nth j (index_sets N K (S a) perms) []) 0%nat =
     nth j (nth s (index_sets N K 0 perms) []) 0%nat).
Proof.
  intros N K perms H. split.
  - intros s Hs. exact (index_sets_row N K perms s H Hs).
  - intros a s j Hj. exact (index_sets_axis N K a perms s j Hj).
Qed.
Print Assumptions C54_index_sets.

(** points_orthogonal_to: every point returned is orthogonal to x and differs
    from the drawn point by a multiple of x. *)
Theorem C54_orthogonal : forall n x points,
  length x = n -> nrm x <> 0 -> (forall p, In p points -> length p = n) ->
  exists Q, points_orthogonal_to x points = Some Q /\
    length Q = length points /\
    forall i, (i < length points)%nat ->
      length (nth i Q []) = n /\ rdot (nth i Q []) x = 0 /\
      exists c, nth i points [] = radd (nth i Q []) (rscale c x).
Proof. exact ortho_ok. Qed.
Print Assumptions C54_orthogonal.

(** sparse_normal_blocks: the returned block numbers are the chosen ones in
    increasing order, the indices are exactly the positions of these blocks,
    everything else is zero, and each block holds the autoregressive sequence
    driven by its draw, normalised if asked for. *)
Theorem C54_blocks : forall D K B S cor normalize chosen values q blocks indices,
  selection_of (D / B) K chosen -> shape (K * S) B values ->
  sparse_normal_blocks D K B S cor normalize chosen values
    = Some (q, blocks, indices) ->
  increasing blocks /\ length blocks = K /\
  (forall b, In b blocks <-> In b chosen) /\
  sq_shape D S q /\ increasing indices /\ length indices = (K * B)%nat /\
  (forall i, In i indices <-> In (i / B)%nat blocks) /\
  (forall i s, (i < D)%nat -> (s < S)%nat -> ~ In (i / B)%nat blocks ->
     sq_entry D q i s = 0) /\
  exists W, block_rows cor normalize values W /\
    forall j i s, (j < K)%nat -> (i < B)%nat -> (s < S)%nat ->
      sq_entry D q (B * nth j blocks 0 + i)%nat s = ent W (s * K + j) i.
Proof. exact blocks_ok2. Qed.
Print Assumptions C54_blocks.

(** When sparse_normal_blocks succeeds and when it raises an exception. *)
Theorem C54_blocks_defined : forall D K B S cor normalize chosen values,
  (0 < B)%nat ->
  ((D mod B = 0)%nat -> (K * B <= D)%nat -> Rabs cor <= 1 ->
   selection_of (D / B) K chosen -> shape (K * S) B values ->
   (normalize = false \/ forall r, (r < K * S)%nat -> ent values r 0 <> 0) ->
   sparse_normal_blocks D K B S cor normalize chosen values <> None) /\
  ((D mod B <> 0)%nat \/ (D < K * B)%nat \/ 1 < Rabs cor ->
   sparse_normal_blocks D K B S cor normalize chosen values = None).
Proof.
  intros D K B S cor normalize chosen values HB. split.
  - intros. apply blocks_defined; auto.
  - intros. apply blocks_errors; auto.
Qed.
Print Assumptions C54_blocks_defined.

(** The note in the documentation that each active block has unit norm is
    false for the default arguments. *)
Theorem C54_unit_blocks_refuted : exists D K B S chosen values q blocks indices,
  selection_of (D / B) K chosen /\ shape (K * S) B values /\
  sparse_normal_blocks D K B S 0 false chosen values
    = Some (q, blocks, indices) /\
  nrm (map (fun i => sq_entry D q i 0) indices) <> 1.
Proof.
  exists 2%nat, 1%nat, 1%nat, 1%nat, [1%nat], [[2]],
    (Arr1 [0; 2]), [1%nat], [1%nat].
  split; [|split; [|split]].
  - split; [repeat constructor; cbn; tauto|]. split; auto.
    intros b [<-|[]]. cbn. lia.
  - split; auto. intros r [<-|[]]; auto.
  - unfold sparse_normal_blocks. rewrite (proj2 (Reqb_true 0 0) eq_refl).
    reflexivity.
  - cbn. unfold nrm, nrm2, rdot. cbn.
    replace (2 * 2 + 0) with (2 * 2) by ring.
    rewrite sqrt_square by lra. lra.
Qed.
Print Assumptions C54_unit_blocks_refuted.

Example C54_nonvacuous :
  permutation_of 3 [2; 0; 1]%nat /\ shape 2 2 [[1; 2]; [3; -4]] /\
  sparse_normal_representations 3 2 2 [2; 0; 1]%nat [[1; 2]; [3; -4]] =
    Some (Arr2 [[1; 2]; [0; 0]; [3; -4]], [0; 2]%nat) /\
  selection_of (4 / 2) 1 [1%nat] /\
  sparse_normal_blocks 4 1 2 1 0 false [1%nat] [[1; 2]] =
    Some (Arr1 [0; 0; 1; 2], [1%nat], [2; 3]%nat).
Proof.
  split; [|split; [|split; [|split]]].
  - unfold permutation_of. cbn.
    apply Permutation_sym. apply (Permutation_cons_app [2%nat] [1%nat] 0%nat).
    apply perm_swap.
  - split; auto. intros r [<-|[<-|[]]]; auto.
  - reflexivity.
  - split; [repeat constructor; cbn; tauto|]. split; auto.
    intros b [<-|[]]. cbn. lia.
  - unfold sparse_normal_blocks. rewrite (proj2 (Reqb_true 0 0) eq_refl).
    reflexivity.
Qed.
