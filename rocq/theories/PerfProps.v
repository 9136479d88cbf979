(** C71 and C72: recovery performance and recovery trials. *)
From Coq Require Import List Arith Bool Reals Lia Lra.
From Verif Require Import Vec RVec RMat Loop SolverSpec CGProofs SortedL1Model SelModel SelSpec PursuitModel PursuitSpec PerfModel PerfProofs.
Import ListNotations.
Local Open Scope R_scope.

(** C71: T0 is the support of x, R0 consists of K positions whose entries of
    the reconstruction dominate all others, the overlap is their intersection,
    the ratio lies in [0, 1], and perfect recovery means that R0 is the support. *)
Theorem C71_support : forall phi y x x_hat, length x_hat = length x ->
  let rp := recovery_performance phi y x x_hat in
  support (rp_T0 rp) x /\ rp_K rp = length (rp_T0 rp) /\
  NoDup (rp_R0 rp) /\ length (rp_R0 rp) = rp_K rp /\
  (forall i, In i (rp_R0 rp) -> (i < length x)%nat) /\
  (forall i j, In i (rp_R0 rp) -> (j < length x)%nat -> ~ In j (rp_R0 rp) -> Rabs (x_hat@j) <= Rabs (x_hat@i)) /\
  (forall i, In i (rp_overlap rp) <-> In i (rp_T0 rp) /\ In i (rp_R0 rp)) /\
  rp_num_correct rp = length (rp_overlap rp) /\ NoDup (rp_overlap rp) /\
  (forall q, support_recovery_ratio rp = Some q ->
     0 <= q <= 1 /\ q * INR (rp_K rp) = INR (rp_num_correct rp) /\
     (q = 1 <-> perfect_support_recovery rp = true)) /\
  (perfect_support_recovery rp = true <->
     forall i, (i < length x)%nat -> (x@i <> 0 <-> In i (rp_R0 rp))).
Proof.
  intros phi y x x_hat L rp. destruct (rp_R0_spec phi y x x_hat L) as (A & B & C & D).
  split; [exact (nz_support x)|]. split; [reflexivity|]. repeat (split; [assumption|]).
  split; [intros i; apply intersect_in|]. split; [reflexivity|].
  split; [apply NoDup_filter, nz_nodup|]. split.
  - intros q Hq. destruct (ratio_bounds phi y x x_hat L q Hq) as (E & F & G). auto.
  - exact (perfect_iff phi y x x_hat L).
Qed.
Print Assumptions C71_support.

(** Success is reported exactly when more than three quarters of the support
    are found and the energy of the signal is more than 1000 times (30 dB) that
    of the error. *)
Theorem C71_success : forall phi y x x_hat b, length x_hat = length x ->
  let rp := recovery_performance phi y x x_hat in
  success rp = Some b ->
  (b = true <-> 3 * INR (rp_K rp) < 4 * INR (rp_num_correct rp) /\ 1000 * nrm2 (rsub x x_hat) < nrm2 x).
Proof. intros phi y x x_hat b L. exact (success_iff phi y x x_hat L b). Qed.
Print Assumptions C71_success.

(** Exact recovery of a nonzero signal is a success with perfect support and
    no residual. *)
Theorem C71_exact : forall phi x, (exists i, (i < length x)%nat /\ x@i <> 0) ->
  let rp := recovery_performance phi (phi x) x x in
  success rp = Some true /\ perfect_support_recovery rp = true /\
  nrm2 (rp_r rp) = 0 /\ nrm2 (rp_h rp) = 0.
Proof. intros phi x H. exact (exact_recovery phi x H). Qed.
Print Assumptions C71_exact.

(** The error splits into the parts over T0, T1 and the rest, provided T1
    avoids the support; if it does not, the error off the support is zero
    outside T1. *)
Theorem C71_energy : forall phi y x x_hat, length x_hat = length x ->
  let rp := recovery_performance phi y x x_hat in
  ((forall i, In i (rp_T1 rp) -> x@i = 0) ->
     nrm2 (rp_h rp) = nrm2 (rp_h_T0 rp) + nrm2 (rp_h_T1 rp) + nrm2 (rp_h_TRest rp)) /\
  ((forall i, In i (rp_T1 rp) -> x@i = 0) \/
   (forall i, (i < length x)%nat -> x@i = 0 -> ~ In i (rp_T1 rp) -> (rp_h rp)@i = 0)).
Proof.
  intros phi y x x_hat L rp. split.
  - exact (split_energy phi y x x_hat L).
  - destruct (T1_off phi y x x_hat L); auto.
Qed.
Print Assumptions C71_energy.

(** T1 need not avoid the support: for x = (0, 1) and x_hat = (0, 2) the
    error on the support is counted in T0 and again in T1. *)
Theorem C71_energy_refuted :
  let rp := recovery_performance (fun v => v) [0; 1] [0; 1] [0; 2] in
  rp_T0 rp = [1%nat] /\ rp_T1 rp = [1%nat] /\
  nrm2 (rp_h rp) = 1 /\ nrm2 (rp_h_T0 rp) + nrm2 (rp_h_T1 rp) + nrm2 (rp_h_TRest rp) = 2.
Proof.
  assert (E0 : nonzero_indices [0; 1] = [1%nat]).
  { unfold nonzero_indices. cbn. destruct (Reqb_spec 0 0); [|lra]. destruct (Reqb_spec 1 0); [lra|]. reflexivity. }
  cbv zeta. unfold recovery_performance. cbn [rp_T0 rp_T1 rp_h rp_h_T0 rp_h_T1 rp_h_TRest]. rewrite E0.
  assert (ET : largest_indices (zero_at (rsub [0; 1] [0; 2]) [1%nat]) (length [1%nat]) = [1%nat]).
  { unfold largest_indices, zero_at. cbn. rewrite ?Rminus_0_r, ?Rabs_R0.
    unfold argsort. cbn. repeat (match goal with |- context [Rleb ?a ?b] => destruct (Rleb_spec a b); try lra end). cbn. reflexivity. }
  rewrite ET. split; [reflexivity|]. split; [reflexivity|]. unfold nrm2, take_at, setdiff. cbn. lra.
Qed.
Print Assumptions C71_energy_refuted.

(** For the zero signal the ratio divides by zero: there is no verdict. *)
Theorem C71_zero_refuted : forall phi y x x_hat,
  (forall i, (i < length x)%nat -> x@i = 0) <->
  support_recovery_ratio (recovery_performance phi y x x_hat) = None /\
  success (recovery_performance phi y x x_hat) = None.
Proof.
  intros phi y x x_hat. rewrite <- (ratio_none phi y x x_hat). unfold success. split.
  - intros H. now rewrite H.
  - tauto.
Qed.
Print Assumptions C71_zero_refuted.

(** The hypotheses hold and success is decided for a nonzero signal. *)
Example C71_nonvacuous : exists b,
  success (recovery_performance (fun v => v) [1; 0; 2] [1; 0; 2] [1; 0; 1]) = Some b /\ b = false.
Proof.
  destruct (success (recovery_performance (fun v => v) [1; 0; 2] [1; 0; 2] [1; 0; 1])) as [b|] eqn:E.
  - exists b. split; auto. destruct b; auto. exfalso.
    destruct (proj1 (C71_success (fun v => v) [1; 0; 2] [1; 0; 2] [1; 0; 1] true eq_refl E) eq_refl) as [_ H].
    unfold nrm2 in H. cbn in H. lra.
  - exfalso. pose proof (C71_zero_refuted (fun v => v) [1; 0; 2] [1; 0; 2] [1; 0; 1]) as [_ H].
    assert (Hr : support_recovery_ratio (recovery_performance (fun v => v) [1; 0; 2] [1; 0; 2] [1; 0; 1]) = None).
    { unfold success in E. destruct (support_recovery_ratio _); [discriminate|auto]. }
    specialize (H (conj Hr E) 0%nat ltac:(cbn; lia)). cbn in H. lra.
Qed.

(** ** C72 *)
(** With at least two trials per sparsity level the simulation writes one row
    per requested sparsity level, in order; each has num_dict_trials *
    num_signal_trials trials, successes and failures add up, the success rate
    is their quotient in [0, 1], and the iteration statistics are those of the
    trials. *)
Theorem C72_rows : forall (key : Type) (key0 : key) split trial nd ns k Ks, (1 < nd * ns)%nat ->
  exists rows, process key key0 split trial nd ns k Ks = (rows, true) /\
  Forall2 (fun K r => exists k',
    row_k r = K /\ row_trials r = (nd * ns)%nat /\
    (row_successes r + row_failures r = row_trials r)%nat /\
    row_successes r = length (filter (fun p => fst p) (trials_of key key0 split trial nd ns K k')) /\
    row_success_rate r = INR (row_successes r) / INR (row_trials r) /\
    0 <= row_success_rate r <= 1 /\
    INR (row_min_iters r) <= row_mean_iters r <= INR (row_max_iters r) /\
    (exists b, In (b, row_min_iters r) (trials_of key key0 split trial nd ns K k')) /\
    (exists b, In (b, row_max_iters r) (trials_of key key0 split trial nd ns K k')) /\
    (forall b it, In (b, it) (trials_of key key0 split trial nd ns K k') -> (row_min_iters r <= it <= row_max_iters r)%nat)) Ks rows.
Proof.
  intros key key0 split trial nd ns k Ks Hn. destruct (process_rows key0 split trial nd ns Hn Ks k) as [rows [E F]].
  exists rows. split; auto. clear E. induction F as [|K r Ks rows [k' H] F IH]; constructor; auto.
  exists k'. pose proof (make_row_ok K _ r H) as G. rewrite trials_len in G. exact G.
Qed.
Print Assumptions C72_rows.

(** The trial of dictionary i and signal j uses the i-th dictionary key and
    the j-th signal key derived from it, as long as there are at least as many
    dictionaries as signals per dictionary. *)
Theorem C72_trials : forall (key : Type) (key0 : key) split trial nd ns K k i j d,
  (forall k n, length (split k n) = n) -> (i < nd)%nat -> (j < ns)%nat -> (ns <= nd)%nat ->
  let dk := nth i (split k nd) key0 in
  nth (i * ns + j) (trials_of key key0 split trial nd ns K k) d = trial K dk (nth j (split dk nd) key0).
Proof.
  intros key key0 split trial nd ns K k i j d HL Hi Hj Hn dk.
  rewrite (trials_nth key0 split trial nd ns K k i j d HL Hi Hj). fold dk.
  replace (Nat.min j (nd - 1)) with j by lia. reflexivity.
Qed.
Print Assumptions C72_trials.

(** With fewer dictionaries than signals the remaining signals repeat: all
    trials j >= num_dict_trials - 1 of one dictionary are the same trial. *)
Theorem C72_signals_refuted : forall (key : Type) (key0 : key) split trial nd ns K k i j d,
  (forall k n, length (split k n) = n) -> (i < nd)%nat -> (j < ns)%nat -> (nd <= j + 1)%nat ->
  nth (i * ns + j) (trials_of key key0 split trial nd ns K k) d =
  nth (i * ns + (nd - 1)) (trials_of key key0 split trial nd ns K k) d.
Proof.
  intros key key0 split trial nd ns K k i j d HL Hi Hj Hn.
  rewrite !(trials_nth key0 split trial nd ns K k i _ d HL Hi) by lia.
  replace (Nat.min j (nd - 1)) with (nd - 1)%nat by lia.
  replace (Nat.min (nd - 1) (nd - 1)) with (nd - 1)%nat by lia. reflexivity.
Qed.
Print Assumptions C72_signals_refuted.

(** In particular one dictionary gives a success rate of 0 or 1, whatever
    the solver. *)
Theorem C72_one_dictionary_refuted : forall (key : Type) (key0 : key) split trial ns K k r,
  (forall k n, length (split k n) = n) ->
  make_row K (trials_of key key0 split trial 1 ns K k) = Some r ->
  row_success_rate r = 0 \/ row_success_rate r = 1.
Proof.
  intros key key0 split trial ns K k r HL H.
  destruct (trials_one_dict key0 split trial 1 ns K k eq_refl HL) as [d [s E]]. rewrite E in H.
  destruct (make_row_ok K _ r H) as (_ & Ht & _ & Hs & Hr & _). rewrite Hr, Hs, Ht, repeat_length.
  unfold make_row in H. rewrite repeat_length in H. destruct (Nat.leb_spec ns 1); [discriminate|].
  assert (0 < INR ns) by (apply lt_0_INR; lia).
  destruct (trial K d s) as [[] it].
  - right. replace (filter (fun p => fst p) (repeat (true, it) ns)) with (repeat (true, it) ns).
    + rewrite repeat_length. field. lra.
    + clear. induction ns as [|n IH]; [reflexivity|]. cbn. now f_equal.
  - left. replace (filter (fun p => fst p) (repeat (false, it) ns)) with (@nil (bool * nat)).
    + cbn. unfold Rdiv. ring.
    + clear. induction ns as [|n IH]; [reflexivity|]. cbn. exact IH.
Qed.
Print Assumptions C72_one_dictionary_refuted.

(** A single trial per level divides by zero: no row is ever written. *)
Theorem C72_single_refuted : forall (key : Type) (key0 : key) split trial nd ns k K Ks,
  (nd * ns <= 1)%nat -> process key key0 split trial nd ns k (K :: Ks) = ([], false).
Proof. intros key key0 split trial nd ns k K Ks H. exact (process_short key0 split trial nd ns H K Ks k). Qed.
Print Assumptions C72_single_refuted.

(** Keys as numbers: a splitting with the assumed lengths whose trials differ
    in success and iterations. *)
Example C72_nonvacuous :
  let split := fun (k n : nat) => map (fun i => (10 * k + i)%nat) (seq 0 n) in
  let trial := fun K d s : nat => (Nat.even s, s) in
  (forall k n, length (split k n) = n) /\
  trials_of nat 0%nat split trial 2 2 1%nat 0%nat = [(true, 0%nat); (false, 1%nat); (true, 10%nat); (false, 11%nat)].
Proof. split; [intros; now rewrite map_length, seq_length|reflexivity]. Qed.

(** C71: with measurements y = Phi x + e the residual is e plus the image of
    the recovery error. *)
Theorem C71_residual : forall phi m e x x_hat, linear_op (length x) m phi -> length x_hat = length x -> length e = m ->
  let rp := recovery_performance phi (radd (phi x) e) x x_hat in
  rp_r rp = radd (phi (rp_h rp)) e /\ rp_h rp = rsub x x_hat /\
  rp_r_norm rp = nrm (rp_r rp) /\ rp_h_norm rp = nrm (rp_h rp) /\ rp_x_norm rp = nrm x.
Proof.
  intros phi m e x x_hat HL L He rp. split; [|auto]. change (rsub (radd (phi x) e) (phi x_hat) = radd (phi (rsub x x_hat)) e).
  rewrite (@lin_sub (length x) m phi x x_hat HL eq_refl L). pose proof (proj1 HL x eq_refl). pose proof (proj1 HL x_hat L).
  apply vec_eq; [rewrite !rsub_len, !radd_len, rsub_len; lia|]. intros i Hi.
  rewrite rsub_nth, !radd_nth, rsub_nth by (rewrite ?radd_len, ?rsub_len; lia). ring.
Qed.
Print Assumptions C71_residual.
