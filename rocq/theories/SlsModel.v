(** Model of the sparse linear system solvers power_iterations, ista and fista
    (cr/sparse/_src/sls) on real vectors in exact arithmetic.  An operator is a
    pair (times, trans) of functions. *)
From Coq Require Import List Arith Bool Reals.
From Verif Require Import Vec RVec Loop XReal OptModel CGModel.
Import ListNotations.
Local Open Scope R_scope.

(** sls/defs.py:24-28 *)
Record simple_op := SimpleOp { so_times : vec -> vec; so_trans : vec -> vec }.
Definition identity_op : simple_op := SimpleOp (fun x => x) (fun x => x).
(** sls/defs.py:30-38, real input; [perc20] is jnp.percentile(., 20), external *)
Definition default_threshold (perc20 : vec -> R) (i : nat) (x : vec) : vec :=
  let tau := perc20 (map Rabs x) in
  map (fun a => Rmax 0 (a - tau) + Rmin 0 (a + tau)) x.
(** x / norm(x), None when the norm is 0 *)
Definition normalize (v : vec) : option vec :=
  let v_norm := nrm v in if Reqb v_norm 0 then None else Some (rscale (/ v_norm) v).

(** *** sls/power.py *)
(** power.py:25-35 *)
Record power_state := PowerState { pw_v : vec; pw_old : R; pw_new : R; pw_it : nat }.
(** power.py:37-45 *)
Record power_solution := PowerSolution { ps_v : vec; ps_s : R; ps_it : nat }.
(** power.py:73-74 *)
Definition power_init (b : vec) : power_state := PowerState b (- 10 ^ 20) (10 ^ 20) 0.
(** power.py:76-82: the relative change is infinite or NaN when the old
    estimate is 0 *)
Definition power_cond (max_iters : nat) (tol : R) (s : power_state) : bool :=
  let change := pw_new s - pw_old s in
  let not_converged := if Reqb (pw_old s) 0 then negb (Reqb change 0) else Rltb tol (Rabs (change / pw_old s)) in
  (pw_it s <? max_iters)%nat && not_converged.
(** power.py:84-95 *)
Definition power_body (times : vec -> vec) (s : power_state) : option power_state :=
  match normalize (pw_v s) with
  | None => None
  | Some v =>
    let v_new := times v in
    let new_estimate := rdot v v_new in
    Some (PowerState v_new (pw_new s) new_estimate (S (pw_it s)))
  end.
(** power.py:49-102 *)
Definition power_iterations (times : vec -> vec) (b : vec) (max_iters : nat) (tol : R) (fuel : nat) : outcome power_solution :=
  match while_ (power_cond max_iters tol) (power_body times) fuel (power_init b) with
  | Done s => match normalize (pw_v s) with
              | None => Fail
              | Some v => Done (PowerSolution v (pw_new s) (pw_it s))
              end
  | Fail => Fail
  | Fuel => Fuel
  end.

(** *** sls/ista.py *)
(** ista.py:26-38 *)
Record ista_state := IstaState { is_x : vec; is_r : vec; is_rn2 : R; is_change : R; is_it : nat }.
(** ista.py:84-91 *)
Definition ista_init (A : simple_op) (b x0 : vec) : ista_state :=
  let r := rsub b (so_times A x0) in
  let rn2 := nrm2 r in
  IstaState x0 r rn2 (10 ^ 10) 0.
(** ista.py:93-110 *)
Definition ista_body (A : simple_op) (b : vec) (step : R) (thr : nat -> vec -> vec) (B : simple_op) (s : ista_state) : option ista_state :=
  let grad := rscale step (so_trans A (is_r s)) in
  let x := radd (is_x s) grad in
  let alpha := so_trans B x in
  let alpha := thr (is_it s) alpha in
  let x := so_times B alpha in
  let r := rsub b (so_times A x) in
  let rn2 := nrm2 r in
  let change := nrm (rsub x (is_x s)) in
  Some (IstaState x r rn2 change (S (is_it s))).
(** ista.py:81-82, 112-116 *)
Definition ista_cond (b : vec) (rtol xtol : R) (max_iters : nat) (s : ista_state) : bool :=
  let limit := nrm2 b * (rtol * rtol) in
  (is_it s <? max_iters)%nat && (Rltb xtol (is_change s) && Rltb limit (is_rn2 s)).
(** ista.py:40-119 *)
Definition ista (A : simple_op) (b x0 : vec) (step : R) (thr : nat -> vec -> vec) (B : simple_op)
    (rtol xtol : R) (max_iters fuel : nat) : outcome ista_state :=
  while_ (ista_cond b rtol xtol max_iters) (ista_body A b step thr B) fuel (ista_init A b x0).

(** *** sls/fista.py *)
(** fista.py:26-42 *)
Record fista_state := FistaState { fs_x : vec; fs_z : vec; fs_r : vec; fs_t : R; fs_rn2 : R; fs_change : R; fs_it : nat }.
(** fista.py:88-95 *)
Definition fista_init (A : simple_op) (b x0 : vec) : fista_state :=
  let r := rsub b (so_times A x0) in
  let rn2 := nrm2 r in
  FistaState x0 x0 r 1 rn2 (10 ^ 10) 0.
(** fista.py:97-119; t is at least 1, so the division is defined *)
Definition fista_body (A : simple_op) (b : vec) (step : R) (thr : nat -> vec -> vec) (B : simple_op) (s : fista_state) : option fista_state :=
  let grad := rscale step (so_trans A (fs_r s)) in
  let x := radd (fs_z s) grad in
  let alpha := so_trans B x in
  let alpha := thr (fs_it s) alpha in
  let x := so_times B alpha in
  let t := (1 + sqrt (1 + 4 * (fs_t s * fs_t s))) / 2 in
  let z := radd x (rscale ((fs_t s - 1) / t) (rsub x (fs_x s))) in
  let r := rsub b (so_times A z) in
  let rn2 := nrm2 r in
  let change := nrm (rsub x (fs_x s)) in
  Some (FistaState x z r t rn2 change (S (fs_it s))).
(** fista.py:85-86, 121-125 *)
Definition fista_cond (b : vec) (rtol xtol : R) (max_iters : nat) (s : fista_state) : bool :=
  let limit := nrm2 b * (rtol * rtol) in
  (fs_it s <? max_iters)%nat && (Rltb xtol (fs_change s) && Rltb limit (fs_rn2 s)).
(** fista.py:44-128 *)
Definition fista (A : simple_op) (b x0 : vec) (step : R) (thr : nat -> vec -> vec) (B : simple_op)
    (rtol xtol : R) (max_iters fuel : nat) : outcome fista_state :=
  while_ (fista_cond b rtol xtol max_iters) (fista_body A b step thr B) fuel (fista_init A b x0).
