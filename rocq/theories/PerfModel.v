(** Recovery performance and recovery trials
    (src/cr/sparse/_src/tools/performance.py and trials_at_fixed_m_n.py). *)
From Coq Require Import List Arith Bool Reals.
From Verif Require Import Vec RVec RMat Loop SelModel PursuitModel.
Import ListNotations.
Local Open Scope R_scope.

(** nonzero_indices of cr.nimble, used in performance.py:85 *)
Definition nonzero_indices (x : vec) : list nat :=
  filter (fun i => negb (Reqb (x@i) 0)) (seq 0 (length x)).
(** jnp.setdiff1d and jnp.intersect1d of increasing lists without
    repetitions, performance.py:114, 122, 128 *)
Definition setdiff (I J : list nat) : list nat := filter (fun i => negb (existsb (Nat.eqb i) J)) I.
Definition intersect (I J : list nat) : list nat := filter (fun i => existsb (Nat.eqb i) J) I.
(** h[I] *)
Definition take_at (h : vec) (I : list nat) : vec := map (fun i => h@i) I.

(** The fields set by RecoveryPerformance.__init__, performance.py:75-139,
    without the dynamic ranges and the decibel values (see [success]). *)
Record performance := {
  rp_T0 : list nat; rp_K : nat; rp_h : vec; rp_x_norm : R; rp_h_norm : R;
  rp_h_T0 : vec; rp_T0C : list nat; rp_h_T0C : vec; rp_T1 : list nat; rp_h_T1 : vec;
  rp_TRest : list nat; rp_h_TRest : vec; rp_R0 : list nat; rp_overlap : list nat;
  rp_num_correct : nat; rp_r : vec; rp_r_norm : R
}.

(** Model of RecoveryPerformance.__init__ given x_hat, performance.py:75-139.
    [phi] is the product with the dictionary (line 131). *)
Definition recovery_performance (phi : vec -> vec) (y x x_hat : vec) : performance :=
  let T0 := nonzero_indices x in
  let K := length T0 in
  let h := rsub x x_hat in
  let T0C := setdiff (seq 0 (length x)) T0 in
  let hT0C := zero_at h T0 in
  let T1 := largest_indices hT0C K in
  let TRest := setdiff T0C T1 in
  let R0 := nsort (largest_indices x_hat K) in
  let overlap := intersect T0 R0 in
  let r := rsub y (phi x_hat) in
  {| rp_T0 := T0; rp_K := K; rp_h := h; rp_x_norm := nrm x; rp_h_norm := nrm h;
     rp_h_T0 := take_at h T0; rp_T0C := T0C; rp_h_T0C := hT0C; rp_T1 := T1;
     rp_h_T1 := take_at h T1; rp_TRest := TRest; rp_h_TRest := take_at h TRest;
     rp_R0 := R0; rp_overlap := overlap; rp_num_correct := length overlap;
     rp_r := r; rp_r_norm := nrm r |}.

(** Model of support_recovery_ratio, performance.py:155-158; [None]: division
    of the integers 0 / 0 raises. *)
Definition support_recovery_ratio (rp : performance) : option R :=
  if Nat.eqb (rp_K rp) 0 then None else Some (INR (rp_num_correct rp) / INR (rp_K rp)).
(** Model of perfect_support_recovery, performance.py:160-163. *)
Definition perfect_support_recovery (rp : performance) : bool :=
  Nat.leb (rp_K rp) (rp_num_correct rp).
(** recovery_snr > 30 with recovery_snr = 20 log10(x_norm / h_norm),
    performance.py:110, 168; the quotient is infinite for h_norm = 0 and
    x_norm > 0, NaN for 0 / 0 and its logarithm -inf for x_norm = 0. *)
Definition snr_above_30 (rp : performance) : bool :=
  if Reqb (rp_x_norm rp) 0 then false
  else if Reqb (rp_h_norm rp) 0 then true
  else Rltb 30 (20 * (ln (rp_x_norm rp / rp_h_norm rp) / ln 10)).
(** Model of success, performance.py:165-168. *)
Definition success (rp : performance) : option bool :=
  match support_recovery_ratio rp with
  | None => None
  | Some q => Some (Rltb (75 / 100) q && snr_above_30 rp)
  end.

(** ** Trials *)
(** Indexing of a JAX array by an integer: indices beyond the end are clamped
    to the last entry (trials_at_fixed_m_n.py:138, 144). *)
Definition clamped {A} (d : A) (l : list A) (i : nat) : A := nth (Nat.min i (length l - 1)) l d.

(** Row, trials_at_fixed_m_n.py:32-45, without the runtime. *)
Record row := {
  row_k : nat; row_trials : nat; row_successes : nat; row_failures : nat;
  row_success_rate : R; row_min_iters : nat; row_max_iters : nat; row_mean_iters : R
}.

Section Trials.
  (** keys of the random number generator and jax.random.split *)
  Variable key : Type.
  Variable key0 : key.
  Variable split : key -> nat -> list key.
  (** One trial with sparsity K, dictionary key and signal key: whether
      RecoveryPerformance reports success, and the iterations (lines 146-163;
      everything in there is a function of the keys and of the solver). *)
  Variable trial : nat -> key -> key -> bool * nat.
  Variables (num_dict_trials num_signal_trials : nat).

  (** The inner loops, lines 135-164: the results in order. *)
  Definition trials_of (K : nat) (k : key) : list (bool * nat) :=
    let dict_keys := split k num_dict_trials in
    flat_map (fun ndt =>
      let dict_key := clamped key0 dict_keys ndt in
      let signal_keys := split dict_key num_dict_trials in
      map (fun nst => trial K dict_key (clamped key0 signal_keys nst)) (seq 0 num_signal_trials))
      (seq 0 num_dict_trials).
  (** Lines 166-183; [None]: an exception (empty results, or the division of
      line 174 by trials - 1 = 0). *)
  Definition make_row (K : nat) (res : list (bool * nat)) : option row :=
    let trials := length res in
    let successes := length (filter (fun p => fst p) res) in
    let iters := map snd res in
    if Nat.leb trials 1 then None
    else Some {| row_k := K; row_trials := trials; row_successes := successes;
                 row_failures := trials - successes;
                 row_success_rate := INR successes / INR trials;
                 row_min_iters := fold_right Nat.min (hd 0%nat iters) iters;
                 row_max_iters := fold_right Nat.max 0%nat iters;
                 row_mean_iters := rlsum (map INR iters) / INR trials |}.
  (** Model of _process, lines 116-186: the rows that are saved, and whether
      the loop runs to its end. *)
  Fixpoint process (k : key) (Ks : list nat) : list row * bool :=
    match Ks with
    | [] => ([], true)
    | K :: Ks =>
        let k := nth 0 (split k 2) key0 in
        match make_row K (trials_of K k) with
        | None => ([], false)
        | Some r => let '(rows, ok) := process k Ks in (r :: rows, ok)
        end
    end.
End Trials.
