(** Properties C12 (coherence part), C36, C52, C53 and C62: selection of
    largest entries, coherence, Babel function, Welch bound. *)
From Coq Require Import List Arith Reals.
From Verif Require Import Scalar Vec RVec RMat BasisModel BasisSpec SelModel SelSpec SelProofs DictModel DictSpec DictProofs DictProofs2 DictProofs3 DictProofs4.
Import ListNotations.
Local Open Scope R_scope.

(** ** C36: largest_indices *)
Theorem C36_selects_largest h K : (K <= length h)%nat -> top_selection (map Rabs h) K (largest_indices h K).
Proof. exact (@largest_top h K). Qed.
Print Assumptions C36_selects_largest.
(** keeping the selected entries is a best K-term approximation *)
Theorem C36_best_k_term h K z : (K <= length h)%nat -> sparse K z -> length z = length h ->
  sparse K (keep h (largest_indices h K)) /\
  nrm2 (rsub h (keep h (largest_indices h K))) <= nrm2 (rsub h z).
Proof.
  exact (fun H Hz Lz => conj (keep_sparse h (largest_indices h K) (proj1 (proj2 (largest_top h H)))) (best_k_term h (largest_top h H) Hz Lz)).
Qed.
Print Assumptions C36_best_k_term.
Theorem C36_abs_max_idx h : h <> [] ->
  (abs_max_idx h < length h)%nat /\ forall i, Rabs (h@i) <= Rabs (h@(abs_max_idx h)).
Proof. exact (@abs_max_spec h). Qed.
Print Assumptions C36_abs_max_idx.

(** ** C52: coherence and the Babel function *)
Theorem C52_coherence_upper m n A i j : shape m n A -> (0 < m)%nat -> (i < n)%nat -> (j < n)%nat -> i <> j ->
  Rabs (rdot (col A i) (col A j)) <= coherence A.
Proof. exact (fun HA Hm => @coherence_ge m n A HA Hm i j). Qed.
Print Assumptions C52_coherence_upper.
Theorem C52_coherence_attained m n A : shape m n A -> (0 < m)%nat -> (2 <= n)%nat ->
  exists i j, (i < n)%nat /\ (j < n)%nat /\ i <> j /\ Rabs (rdot (col A i) (col A j)) = coherence A.
Proof. exact (fun HA Hm => @coherence_attained m n A HA Hm). Qed.
Print Assumptions C52_coherence_attained.
Theorem C52_coherence_index m n A : shape m n A -> (0 < m)%nat -> (0 < n)%nat -> 0 < coherence A ->
  let (i, j) := snd (coherence_with_index A) in
  (i < n)%nat /\ (j < n)%nat /\ i <> j /\ Rabs (rdot (col A i) (col A j)) = coherence A.
Proof. exact (fun HA Hm => @coherence_index m n A HA Hm). Qed.
Print Assumptions C52_coherence_index.
Theorem C52_babel_upper m n A p i T : unit_atoms m n A -> (1 <= p <= n - 1)%nat -> (i < n)%nat ->
  NoDup T -> length T = p -> (forall j, In j T -> (j < n)%nat /\ j <> i) ->
  isum T (fun j => Rabs (rdot (col A i) (col A j))) <= (babel A)@(p - 1).
Proof. exact (fun HA => @babel_upper m n A HA p i T). Qed.
Print Assumptions C52_babel_upper.
Theorem C52_babel_attained m n A p : unit_atoms m n A -> (1 <= p <= n - 1)%nat ->
  exists i T, (i < n)%nat /\ NoDup T /\ length T = p /\ (forall j, In j T -> (j < n)%nat /\ j <> i) /\
    isum T (fun j => Rabs (rdot (col A i) (col A j))) = (babel A)@(p - 1).
Proof. exact (fun HA => @babel_attained m n A HA p). Qed.
Print Assumptions C52_babel_attained.
Theorem C52_babel_starts_at_coherence m n A : unit_atoms m n A -> (2 <= n)%nat -> (babel A)@0 = coherence A.
Proof. exact (@babel_1 m n A). Qed.
Print Assumptions C52_babel_starts_at_coherence.
Theorem C52_babel_nondecreasing m n A p : unit_atoms m n A -> (1 <= p)%nat -> (S p <= n - 1)%nat -> (babel A)@(p - 1) <= (babel A)@p.
Proof. exact (fun HA => @babel_mono m n A HA p). Qed.
Print Assumptions C52_babel_nondecreasing.
Theorem C52_babel_bound m n A p : unit_atoms m n A -> (1 <= p <= n - 1)%nat -> (babel A)@(p - 1) <= INR p * coherence A.
Proof. exact (fun HA => @babel_le m n A HA p). Qed.
Print Assumptions C52_babel_bound.
Theorem C52_mutual_coherence m p q A B : shape m p A -> shape m q B -> (0 < m)%nat -> (0 < p)%nat -> (0 < q)%nat ->
  let (i, j) := snd (mutual_coherence_with_index A B) in
  (i < p)%nat /\ (j < q)%nat /\ Rabs (rdot (col A i) (col B j)) = mutual_coherence A B /\
  forall i j, (i < p)%nat -> (j < q)%nat -> Rabs (rdot (col A i) (col B j)) <= mutual_coherence A B.
Proof. exact (@mutual_spec m p q A B). Qed.
Print Assumptions C52_mutual_coherence.
(** for complex dictionaries the imaginary part of the inner products is dropped: two parallel atoms have coherence 0 *)
Theorem C52_complex_coherence_refuted :
  (exists c : Cx, Cnsq c = 1 /\ @inner Cs (ccol parallel_atoms 0) (ccol parallel_atoms 1) = c) /\
  coherence_complex parallel_atoms = 0.
Proof. exact coherence_complex_wrong. Qed.
Print Assumptions C52_complex_coherence_refuted.

(** the frame matrix applies the adjoint and then the dictionary, it is symmetric and
    positive, and for unit atoms its trace is the number of atoms *)
Theorem C52_frame m n A x : shape m n A -> length x = m ->
  mv (frame A) x = mv A (mtv n A x) /\ rdot x (mv (frame A) x) = nrm2 (mtv n A x) /\
  (forall i j, (i < m)%nat -> (j < m)%nat -> ent (frame A) i j = ent (frame A) j i).
Proof.
  intros S Lx. split; [exact (@frame_mv m n A x S Lx)|]. split; [exact (@frame_quad m n A x S Lx)|].
  destruct S as [L _]. intros i j Hi Hj. rewrite !frame_ent by (rewrite L; assumption). apply rdot_sym.
Qed.
Print Assumptions C52_frame.
Theorem C52_frame_trace m n A : unit_atoms m n A -> rsum m (fun i => ent (frame A) i i) = INR n.
Proof. exact (@frame_trace m n A). Qed.
Print Assumptions C52_frame_trace.

(** ** C53: Welch bound *)
Theorem C53_welch m n A : unit_atoms m n A -> (2 <= n)%nat -> (m <= n)%nat ->
  exists w, minimum_coherence m n = Some w /\ w <= coherence A.
Proof. exact (@welch m n A). Qed.
Print Assumptions C53_welch.

(** ** C12: coherence of unions with the standard basis *)
Theorem C12_dirac_hadamard_coherence n D : dirac_hadamard_basis n = Some D ->
  unit_atoms n (n + n) D /\ coherence D = / sqrt (INR n).
Proof. exact (@dirac_hadamard_coherence n D). Qed.
Print Assumptions C12_dirac_hadamard_coherence.
Theorem C12_dirac_cosine_coherence n : (0 < n)%nat ->
  unit_atoms n (n + n) (dirac_cosine_basis n) /\ coherence (dirac_cosine_basis n) <= sqrt (2 / INR n).
Proof. exact (@dirac_cosine_coherence n). Qed.
Print Assumptions C12_dirac_cosine_coherence.
(** three orthonormal blocks side by side *)
Theorem C12_three_bases n D : dirac_hadamard_cosine_basis n = Some D ->
  unit_atoms n (3 * n) D /\
  (forall b i j, (b < 3)%nat -> (i < n)%nat -> (j < n)%nat ->
     rdot (col D (b * n + i)) (col D (b * n + j)) = if (i =? j)%nat then 1 else 0) /\
  / sqrt (INR n) <= coherence D.
Proof. exact (@three_bases n D). Qed.
Print Assumptions C12_three_bases.
(** the blocks are the standard basis, the Hadamard basis and the cosine basis *)
Theorem C12_three_bases_atoms n D : dirac_hadamard_cosine_basis n = Some D ->
  exists H, hadamard_basis n = Some H /\ forall i j, (i < n)%nat -> (j < n)%nat ->
    ent D i j = (if (i =? j)%nat then 1 else 0) /\ ent D i (n + j) = entry H i j /\
    ent D i (2 * n + j) = (if (i =? 0)%nat then / sqrt (INR n) else sqrt (2 / INR n)) * cos (PI * INR i * (2 * INR j + 1) / (2 * INR n)).
Proof. exact (@three_bases_atoms n D). Qed.
Print Assumptions C12_three_bases_atoms.
(** the atoms need not be distinct *)
Theorem C12_three_bases_distinct_refuted :
  exists D, dirac_hadamard_cosine_basis 2 = Some D /\ col D 2 = col D 4 /\ coherence D = 1.
Proof. exact three_bases_two. Qed.
Print Assumptions C12_three_bases_distinct_refuted.
Example C12_three_bases_ex : exists D, dirac_hadamard_cosine_basis 4 = Some D /\ (0 < coherence D).
Proof.
  assert (X : exists D, dirac_hadamard_cosine_basis 4 = Some D) by (eexists; reflexivity). destruct X as [D E]. exists D. split; [exact E|].
  destruct (C12_three_bases _ _ E) as [_ [_ Q]]. eapply Rlt_le_trans; [|exact Q]. apply Rinv_0_lt_compat, sqrt_lt_R0, lt_0_INR. apply Nat.lt_0_succ.
Qed.

(** ** C62: matching_atoms_ratio *)
Theorem C62_ratio m p q A B t (matched : nat -> bool) :
  shape m p A -> shape m q B -> (0 < m)%nat -> (0 < p)%nat -> (0 < q)%nat ->
  (forall i, (i < p)%nat -> (matched i = true <-> exists j, (j < q)%nat /\ 1 - Rabs (rdot (col A i) (col B j)) < t)) ->
  matching_atoms_ratio A B t = INR (length (filter matched (seq 0 p))) / INR p.
Proof. exact (fun HA HB Hm Hp Hq => @match_ratio m p q A B t HA HB Hm Hp Hq matched). Qed.
Print Assumptions C62_ratio.
Theorem C62_self m n A t : unit_atoms m n A -> (0 < n)%nat -> 0 < t -> matching_atoms_ratio A A t = 1.
Proof. exact (@match_self m n A t). Qed.
Print Assumptions C62_self.
Example C36_C52_hyps : top_selection (map Rabs [1; -3; 2]) 2 (largest_indices [1; -3; 2] 2) /\ unit_atoms 2 2 [[1; 0]; [0; 1]].
Proof. exact sel_hyps. Qed.
