(** Progress trackers: tracker.py.  Real data, exact arithmetic. *)
From Coq Require Import List Arith Bool Reals.
From Verif Require Import RVec Loop SortedL1Model.
Import ListNotations.
Local Open Scope R_scope.

(** the attributes a solver state may have; hasattr is [Some] *)
Record tracked := Tracked {
  ts_x_I : option vec; ts_I : list nat; ts_x : option vec;
  ts_r_norm_sqr : option R; ts_r : option vec; ts_iterations : nat }.
(** the value of a Python expression: an exception, None or a number *)
Inductive pyval := Raised | PyNone | Val (r : R).

(** tracker.py:21-26, get_x_norm *)
Definition get_x_norm (s : tracked) : R :=
  match ts_x_I s with Some v => nrm v | None => match ts_x s with Some v => nrm v | None => 0 end end.
(** tracker.py:28-32, get_r_norm; math.sqrt of a negative number raises, and
    the function falls off its end when neither attribute exists *)
Definition get_r_norm (s : tracked) : pyval :=
  match ts_r_norm_sqr s with
  | Some q => if Rltb q 0 then Raised else Val (sqrt q)
  | None => match ts_r s with Some r => Val (nrm r) | None => PyNone end
  end.
(** tracker.py:34-37, build_sparse_signal, for distinct indices *)
Definition build_sparse_signal (length : nat) (indices : list nat) (values : vec) : vec := scatter length indices values.
(** tracker.py:40-46, get_x_like *)
Definition get_x_like (s : tracked) (x0 : vec) : vec :=
  match ts_x s with
  | Some v => v
  | None => match ts_x_I s with Some v => build_sparse_signal (length x0) (ts_I s) v | None => rzero (length x0) end
  end.
(** np.finfo(float).eps *)
Definition eps : R := / 2 ^ 52.
Definition log10 (a : R) : R := ln a / ln 10.
(** tracker.py:49-58, signal_noise_ratio *)
Definition signal_noise_ratio (reference_arr test_arr : vec) : R :=
  let ref_energy := Rabs (rdot reference_arr reference_arr) in
  let error := rsub reference_arr test_arr in
  let err_energy := Rabs (rdot error error) in
  let err_energy := if Reqb err_energy 0 then eps else err_energy in
  let ref_energy := if Reqb ref_energy 0 then eps else ref_energy in
  10 * log10 (ref_energy / err_energy).

(** tracker.py:79-110, ProgressTracker and its lists *)
Record progress := Progress {
  pt_r_norms : list pyval; pt_x_norms : list R; pt_iterations : list nat; pt_snr : list R;
  pt_x0 : option vec; pt_every : nat }.
Definition progress_tracker (x0 : option vec) (every : nat) : progress := Progress [] [] [] [] x0 every.
(** the two kinds of lines printed *)
Inductive line := Status (iterations : nat) (x_norm : R) (r_norm : R) (snr : option R) | Converged (iterations : nat).
(** tracker.py:112-128, ProgressTracker.__call__: the tracker afterwards and
    the printed lines, [None] when an exception is raised.  Formatting None
    raises, and so does a remainder modulo 0. *)
Definition track (t : progress) (s : tracked) (more : bool) : progress * option (list line) :=
  match get_r_norm s with
  | Raised => (t, None)
  | r_norm =>
    let x_norm := get_x_norm s in
    let iterations := ts_iterations s in
    let snr := match pt_x0 t with Some x0 => Some (signal_noise_ratio x0 (get_x_like s x0)) | None => None end in
    let t' := Progress (pt_r_norms t ++ [r_norm]) (pt_x_norms t ++ [x_norm]) (pt_iterations t ++ [iterations])
                (match snr with Some v => pt_snr t ++ [v] | None => pt_snr t end) (pt_x0 t) (pt_every t) in
    let last := if more then [] else [Converged iterations] in
    if (pt_every t =? 0)%nat then (t', None)
    else if (iterations mod pt_every t =? 0)%nat || negb more then
      match r_norm with
      | Val r => (t', Some (Status iterations x_norm r snr :: last))
      | _ => (t', None)
      end
    else (t', Some last)
  end.
(** a run of a solver: the calls in order *)
Definition track_all (t : progress) (calls : list (tracked * bool)) : progress :=
  fold_left (fun t c => fst (track t (fst c) (snd c))) calls t.
