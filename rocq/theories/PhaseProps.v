(** C57: the table of phase transition experiments. *)
From Coq Require Import List Arith ZArith QArith Sorted Lia.
From Verif Require Import PhaseModel PhaseSpec PhaseProofs.
Import ListNotations.
Open Scope nat_scope.

(** A size is accepted exactly when it is a power of two that is at
    least 32. *)
Theorem C57_rejects : forall N,
  configuration N = None <-> ~ admissible_N N.
Proof. exact rejects. Qed.
Print Assumptions C57_rejects.

(** Every listed configuration is admissible: 1 <= K <= M/2 <= N/4, its
    ratios are grid values that belong to its counts, the reverse map sends
    its ratios back to its counts, and its sparsity ratio is the smallest one
    of the grid that leads to these counts. *)
Theorem C57_admissible : forall N pc c,
  configuration N = Some pc ->
  In c (pc_configurations pc) ->
  1 <= pt_K c /\ 2 * pt_K c <= pt_M c /\ 2 * pt_M c <= N /\
  admissible_M N (pt_M c) /\ admissible_rho N (pt_rho c) /\
  (pt_eta c == qn (pt_M c) / qn N)%Q /\
  rounds_up (pt_K c) (pt_rho c) (pt_M c) /\
  dict_get (pt_rho c, pt_eta c) (pc_map pc) = Some (pt_K c, pt_M c) /\
  (forall rho, admissible_rho N rho -> rounds_up (pt_K c) rho (pt_M c) ->
     (pt_rho c <= rho)%Q).
Proof. exact config_ok. Qed.
Print Assumptions C57_admissible.

(** No pair (K, M) is listed twice; the list is ordered by M, then by K. *)
Theorem C57_distinct : forall N pc,
  configuration N = Some pc ->
  NoDup (map (fun c => (pt_K c, pt_M c)) (pc_configurations pc)) /\
  StronglySorted conf_lt (pc_configurations pc).
Proof.
  intros N pc H. split; [apply ss_nodup|]; exact (conf_sorted N pc H).
Qed.
Print Assumptions C57_distinct.

(** Every point of the grid of ratios is mapped to a pair (K, M) that belongs
    to it and is listed; nothing else is in the map, which has one entry for
    each pair of ratios. *)
Theorem C57_complete : forall N pc rho eta,
  configuration N = Some pc ->
  (admissible_rho N rho /\ admissible_eta N eta ->
   exists K M, dict_get (rho, eta) (pc_map pc) = Some (K, M) /\
     (eta == qn M / qn N)%Q /\ rounds_up K rho M /\
     exists c, In c (pc_configurations pc) /\ pt_K c = K /\ pt_M c = M) /\
  (forall v, dict_get (rho, eta) (pc_map pc) = Some v ->
     admissible_rho N rho /\ admissible_eta N eta) /\
  length (pc_map pc) = length (pc_rhos pc) * length (pc_etas pc).
Proof.
  intros N pc rho eta H. split; [|split].
  - intros [H1 H2]. exact (grid_complete N pc rho eta H H1 H2).
  - intros v. exact (grid_sound N pc rho eta v H).
  - exact (grid_size N pc H).
Qed.
Print Assumptions C57_complete.

(** The returned lists of ratios and of measurement counts are the grid. *)
Theorem C57_grid : forall N pc,
  configuration N = Some pc ->
  pc_N pc = N /\
  (forall M, In M (pc_Ms pc) <-> admissible_M N M) /\
  (forall eta, (exists e, In e (pc_etas pc) /\ (e == eta)%Q)
     <-> admissible_eta N eta) /\
  (forall rho, (exists r, In r (pc_rhos pc) /\ (r == rho)%Q)
     <-> admissible_rho N rho).
Proof.
  intros N pc H. destruct (configuration_some N pc H) as [HA ->].
  split; [reflexivity|]. split; [|split].
  - intros M. exact (in_Ms N M HA).
  - intros eta. exact (in_etas N eta HA).
  - intros rho. exact (in_rhos N rho HA).
Qed.
Print Assumptions C57_grid.

(** When M is at most twice the number of sparsity levels, every sparsity
    from 1 to M/2 is listed for M; when it is at least that, different levels
    lead to different sparsities. *)
Theorem C57_sparsities : forall N pc M,
  configuration N = Some pc -> admissible_M N M ->
  (M <= 2 * levels N -> forall K,
   (exists c, In c (pc_configurations pc) /\ pt_K c = K /\ pt_M c = M) <->
   1 <= K /\ 2 * K <= M) /\
  (2 * levels N <= M -> forall j1 j2 K,
   1 <= j1 <= levels N -> 1 <= j2 <= levels N ->
   rounds_up K (qn j1 / qn (2 * levels N)) M ->
   rounds_up K (qn j2 / qn (2 * levels N)) M -> j1 = j2).
Proof.
  intros N pc M H HM. split.
  - intros Hl K. exact (all_sparsities N pc M K H HM Hl).
  - intros Hl j1 j2 K. exact (levels_distinct N pc M j1 j2 K H HM Hl).
Qed.
Print Assumptions C57_sparsities.

(** 64 atoms: two measurement counts and sixteen levels, where the smaller
    count meets every sparsity twice. *)
Example C57_nonvacuous : exists pc,
  configuration 64 = Some pc /\ admissible_N 64 /\
  pc_Ms pc = [16; 32] /\
  map (fun c => (pt_K c, pt_M c)) (pc_configurations pc) =
    map (fun K => (K, 16)) (seq 1 8) ++ map (fun K => (K, 32)) (seq 1 16) /\
  length (pc_map pc) = 32.
Proof.
  eexists. split; [vm_compute; reflexivity|]. split.
  - exists 6. split; [lia|reflexivity].
  - repeat split; vm_compute; reflexivity.
Qed.
