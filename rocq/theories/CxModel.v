(** Model of ISTA and FISTA on complex data (sls/ista.py, sls/fista.py) in exact arithmetic.  The
    step size is real.  arr_l2norm_sqr of cr.nimble is the sum of the squared moduli. *)
From Coq Require Import List Arith Bool Reals.
From Verif Require Import Scalar Vec RVec Loop LopModel OptModel CxSpec.
Import ListNotations.
Local Open Scope R_scope.
(** sls/defs.py:25-27 *)
Record csimple_op := CSimpleOp { co_times : cvec -> cvec; co_trans : cvec -> cvec }.
(** an operator of the library in the place of a SimpleOp: only times and trans are used *)
Definition of_operator (A : operator Cs) : csimple_op := CSimpleOp (times A) (trans A).
(** sls/defs.py:29 *)
Definition cidentity_op : csimple_op := CSimpleOp (fun x => x) (fun x => x).

(** ista.py:25-38 *)
Record cista_state := CIstaState { ci_x : cvec; ci_r : cvec; ci_rn2 : R; ci_change : R; ci_it : nat }.
(** ista.py:84-91 *)
Definition cista_init (A : csimple_op) (b x0 : cvec) : cista_state :=
  let r := vsub b (co_times A x0) in
  let rn2 := cnsq r in
  CIstaState x0 r rn2 (10 ^ 10) 0.
(** ista.py:93-110 *)
Definition cista_body (A : csimple_op) (b : cvec) (step : R) (thr : nat -> cvec -> cvec) (B : csimple_op) (s : cista_state) : option cista_state :=
  let grad := vscale (ofR step : Cs) (co_trans A (ci_r s)) in
  let x := vadd (ci_x s) grad in
  let alpha := co_trans B x in
  let alpha := thr (ci_it s) alpha in
  let x := co_times B alpha in
  let r := vsub b (co_times A x) in
  let rn2 := cnsq r in
  let change := cnorm (vsub x (ci_x s)) in
  Some (CIstaState x r rn2 change (S (ci_it s))).
(** ista.py:81-82, 112-116 *)
Definition cista_cond (b : cvec) (rtol xtol : R) (max_iters : nat) (s : cista_state) : bool :=
  let limit := cnsq b * (rtol * rtol) in
  (ci_it s <? max_iters)%nat && (Rltb xtol (ci_change s) && Rltb limit (ci_rn2 s)).
(** ista.py:40-119 *)
Definition cista (A : csimple_op) (b x0 : cvec) (step : R) (thr : nat -> cvec -> cvec) (B : csimple_op)
    (rtol xtol : R) (max_iters fuel : nat) : outcome cista_state :=
  while_ (cista_cond b rtol xtol max_iters) (cista_body A b step thr B) fuel (cista_init A b x0).

(** fista.py:26-42 *)
Record cfista_state := CFistaState { cf_x : cvec; cf_z : cvec; cf_r : cvec; cf_t : R; cf_rn2 : R; cf_change : R; cf_it : nat }.
(** fista.py:88-95 *)
Definition cfista_init (A : csimple_op) (b x0 : cvec) : cfista_state :=
  let r := vsub b (co_times A x0) in
  let rn2 := cnsq r in
  CFistaState x0 x0 r 1 rn2 (10 ^ 10) 0.
(** fista.py:97-119; t is at least 1, so the division is defined *)
Definition cfista_body (A : csimple_op) (b : cvec) (step : R) (thr : nat -> cvec -> cvec) (B : csimple_op) (s : cfista_state) : option cfista_state :=
  let grad := vscale (ofR step : Cs) (co_trans A (cf_r s)) in
  let x := vadd (cf_z s) grad in
  let alpha := co_trans B x in
  let alpha := thr (cf_it s) alpha in
  let x := co_times B alpha in
  let t := (1 + sqrt (1 + 4 * (cf_t s * cf_t s))) / 2 in
  let z := vadd x (vscale (ofR ((cf_t s - 1) / t) : Cs) (vsub x (cf_x s))) in
  let r := vsub b (co_times A z) in
  let rn2 := cnsq r in
  let change := cnorm (vsub x (cf_x s)) in
  Some (CFistaState x z r t rn2 change (S (cf_it s))).
(** fista.py:85-86, 121-125 *)
Definition cfista_cond (b : cvec) (rtol xtol : R) (max_iters : nat) (s : cfista_state) : bool :=
  let limit := cnsq b * (rtol * rtol) in
  (cf_it s <? max_iters)%nat && (Rltb xtol (cf_change s) && Rltb limit (cf_rn2 s)).
(** fista.py:44-128 *)
Definition cfista (A : csimple_op) (b x0 : cvec) (step : R) (thr : nat -> cvec -> cvec) (B : csimple_op)
    (rtol xtol : R) (max_iters fuel : nat) : outcome cfista_state :=
  while_ (cfista_cond b rtol xtol max_iters) (cfista_body A b step thr B) fuel (cfista_init A b x0).
