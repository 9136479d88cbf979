(** The smoothed conic dual solver and the problems built on it: fom/scd.py
    (scd), fom/bp_scd.py, fom/dantzig_scd.py.  Same conventions as FomModel.v. *)
From Coq Require Import List Arith Bool Reals.
From Verif Require Import Vec RVec Loop XReal OptModel FomModel.
Import ListNotations.
Local Open Scope R_scope.

(** fom/scd.py:65-116, scd; the options saddle and maximize set in line 114 are
    not read by the driver.  prox_f is given by its value f and its proximal
    points. *)
Definition scd (f : vec -> R) (prox : vec -> R -> vec) (conj_neg_h : proxcap) (times trans : vec -> vec) (b : vec)
  (mu : R) (x0 z0 : vec) (options : fom_options) (fuel : nat) : outcome fom_state :=
  fom (smooth_dual f prox mu x0) conj_neg_h times trans b options z0 fuel.
(** fom/bp_scd.py:27-57; opt.prox_l1() has value |x|_1 and the proximal points
    of soft thresholding *)
Definition bp_scd (times trans : vec -> vec) (b : vec) (mu : R) (x0 z0 : vec) (options : fom_options) (fuel : nat) : outcome fom_state :=
  scd nrm1 shrink prox_zero times trans (ropp b) mu x0 z0 options fuel.
(** fom/dantzig_scd.py:27-60; lop.gram(A) has times = trans = A^H A *)
Definition dantzig_scd (times trans : vec -> vec) (b : vec) (delta mu : R) (x0 z0 : vec) (options : fom_options) (fuel : nat) : outcome fom_state :=
  let G := fun x => trans (times x) in
  scd nrm1 shrink (prox_l1 delta) G G (ropp (trans b)) mu x0 z0 options fuel.
