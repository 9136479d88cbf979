(** Elementwise functions in floating point arithmetic: opt/shrinkage.py,
    opt/projections.py, geo/thresholding.py.  The operations are rounded as IEEE 754
    prescribes; there is no largest number (see FpSpec). *)
From Coq Require Import List ZArith Reals.
From Flocq Require Import Core.
From Verif Require Import FpSpec.
Import ListNotations.
Local Open Scope R_scope.

Section M.
  Variables emin prec : Z.
  Notation fl := (fl emin prec).
  (** shrinkage.py:25, thresholding.py:47 (real x); one entry *)
  Definition fshrink1 (kappa a : R) : R := fl (Rmax 0 (fl (a - kappa)) + Rmin 0 (fl (a + kappa))).
  (** shrinkage.py:18-25 *)
  Definition fshrink (a : list R) (kappa : R) : list R := map (fshrink1 kappa) a.
  (** thresholding.py:40-47, real x *)
  Definition fsoft_threshold (x : list R) (tau : R) : list R := map (fshrink1 tau) x.
  (** thresholding.py:29-36; nonzero * x multiplies by 0 or 1 *)
  Definition fhard_threshold (x : list R) (tau : R) : list R :=
    let gamma := fl (sqrt (fl (2 * tau))) in
    map (fun a => if Rlt_dec gamma (Rabs a) then a else 0) x.
  (** thresholding.py:66-74; gamma is the percentile of the magnitudes *)
  Definition fhard_threshold_percentile (x : list R) (gamma : R) : list R :=
    fhard_threshold x (fl (/ 2 * fl (gamma * gamma))).
  (** projections.py:29-35 *)
  Definition fproject_to_box (x : list R) (radius : R) : list R :=
    map (fun a => fl (a * fl (radius / Rmax (Rabs a) radius))) x.
  (** projections.py:38-41, real x *)
  Definition fproject_to_real_upper_limit (x : list R) (limit : R) : list R := map (fun a => Rmin a limit) x.
End M.
