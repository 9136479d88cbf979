(** Model of the projections, of the proximal operator of the l2 norm and of the
    thresholding functions on complex vectors (opt/{projections,shrinkage}.py,
    opt/projectors/{basic,lpballs}.py, opt/proximal_ops/lpnorms.py,
    geo/thresholding.py) in exact arithmetic.  jnp.abs is the modulus, norm and
    arr_l2norm the l2 norm of the moduli.  jnp.maximum, jnp.minimum and > compare
    complex numbers by their real parts and, when these are equal, by their
    imaginary parts. *)
From Coq Require Import List Arith Bool Reals.
From Verif Require Import Scalar Vec RVec Loop XReal LopModel OptModel CxSpec CxFomModel.
Import ListNotations.
Local Open Scope R_scope.

(** jnp.maximum and jnp.minimum *)
Definition clexgt (a b : Cs) : bool := Rltb (fst b) (fst a) || (Reqb (fst a) (fst b) && Rltb (snd b) (snd a)).
Definition clexmax (a b : Cs) : Cs := if clexgt b a then b else a.
Definition clexmin (a b : Cs) : Cs := if clexgt a b then b else a.

(** *** opt/projections.py *)
(** projections.py:21-26 *)
Definition cproject_to_ball (x : cvec) (radius : R) : cvec :=
  let x_norm := cnorm x in
  if Rltb radius x_norm then vscale (ofR (radius / x_norm) : Cs) x else x.
(** projections.py:29-35, radius > 0 *)
Definition cproject_to_box (x : cvec) (radius : R) : cvec :=
  map (fun z => Cmul z (ofR (radius / Rmax (cabs z) radius) : Cs)) x.
(** projections.py:38-41: the result is real *)
Definition cproject_to_real_upper_limit (x : cvec) (limit : R) : vec := map (fun z => Rmin (fst z) limit) x.

(** *** opt/projectors *)
(** lpballs.py:26-57; None is the ValueError for q <= 0 *)
Definition cproj_l2_ball (q : R) : option (cvec -> cvec) :=
  if Rleb q 0 then None else
  Some (fun x => let norm_x := cnorm x in if Rltb q norm_x then vscale (ofR (q / norm_x) : Cs) x else x).
(** lpballs.py:60-86 *)
Definition cproj_l2_ball_at (q : R) (b : cvec) : option (cvec -> cvec) :=
  if Rleb q 0 then None else
  Some (fun x =>
    let r := vsub x b in
    let norm_r := cnorm r in
    let r := if Rltb q norm_r then vscale (ofR ((q - 1 / 10000000) * / norm_r) : Cs) r else r in
    vadd r b).
(** basic.py:60-81: A.T is the transpose without conjugation.  qr(A.T, 'r') and
    the triangular solvers are external: [solveUT] is solve_UTx_b(R, .), [solveU]
    is solve_Ux_b(R, .) *)
Definition cproj_affine (n : nat) (A : list cvec) (b : cvec) (solveUT solveU : cvec -> cvec) (x : cvec) : cvec :=
  let r := vsub b (matvec A x) in
  let v := solveUT r in
  let w := solveU v in
  let h := vecmat n w A in
  vadd x h.
(** basic.py:104-112, box_bound, with real bounds *)
Definition cproj_box (l u : vec) (x : cvec) : cvec :=
  zipw (fun z c => clexmin z (ofR c : Cs)) (zipw (fun z c => clexmax z (ofR c : Cs)) x l) u.

(** *** opt/proximal_ops/lpnorms.py:25-51 *)
Definition cprox_l2 (q : R) : cproxcap :=
  cbuild (fun x => Fin (q * cnorm x))
         (fun x t => let v := cnorm x in
                     let s := xrsub 1 (xinv (xmax (xdiv v (t * q)) 1)) in
                     call_some (map (cfactor s) x)).

(** *** opt/shrinkage.py:19-25 *)
Definition cshrink (a : cvec) (kappa : R) : cvec :=
  map (fun z => Cadd (cmax0 (Csub z (ofR kappa : Cs))) (cmin0 (Cadd z (ofR kappa : Cs)))) a.

(** *** geo/thresholding.py *)
(** thresholding.py:29-36 *)
Definition chard_threshold (x : cvec) (tau : R) : cvec :=
  let gamma := sqrt (2 * tau) in
  map (fun z => Cmul (ofR (if Rltb gamma (cabs z) then 1 else 0) : Cs) z) x.
(** thresholding.py:51-62; the factor is only used when |z| >= gamma *)
Definition chalf_threshold (x : cvec) (tau : R) : cvec :=
  let gamma := half_gamma tau in
  map (fun z => if Rleb gamma (cabs z) then
                  let phi := 2 / 3 * acos (tau / 8 * Rpower (cabs z / 3) (- (3 / 2))) in
                  Cmul (Cmul (ofR (2 / 3) : Cs) z) (ofR (1 + cos (2 * PI / 3 - phi)) : Cs)
                else ofR 0 : Cs) x.
(** thresholding.py:66-95; [perc] is jnp.percentile(., p), external *)
Definition chard_threshold_percentile (perc : vec -> R) (x : cvec) : cvec :=
  let gamma := perc (map cabs x) in
  let tau := / 2 * (gamma * gamma) in
  chard_threshold x tau.
Definition csoft_threshold_percentile (perc : vec -> R) (x : cvec) : cvec :=
  let tau := perc (map cabs x) in soft_threshold_c x tau.
Definition chalf_threshold_percentile (perc : vec -> R) (x : cvec) : cvec :=
  let gamma := perc (map cabs x) in
  let tau := Rpower (4 / Rpower 54 (1 / 3) * gamma) (3 / 2) in
  chalf_threshold x tau.
