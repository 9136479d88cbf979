(** Model of the first order method driver and the problems built on it
    (fom/fom.py, lasso.py, l1rls.py, scd.py).  Exact real arithmetic, real data;
    the linear operator is given by its functions times and trans.  The data-type
    promotion and the jit decorations are not modelled. *)
From Coq Require Import List Arith Bool Reals.
From Verif Require Import Vec RVec RMat Loop XReal OptModel.
Import ListNotations.
Local Open Scope R_scope.

(** fom/defs.py:20-44; the options nonneg, solver, mu, maximize, saddle are not read
    by the driver.  Lexact = inf is None. *)
Record fom_options := FomOptions { fo_max_iters : nat; fo_tol : R; fo_L0 : R; fo_Lexact : option R;
  fo_alpha : R; fo_beta : R }.
(** fom/defs.py:60-98; theta = inf is None *)
Record fom_state := FomState { fm_L : R; fm_theta : option R;
  fm_x : vec; fm_Ax : vec; fm_gAx : vec; fm_gx : vec; fm_fx : R; fm_Cx : xr;
  fm_y : vec; fm_Ay : vec; fm_gAy : vec; fm_gy : vec; fm_fy : R; fm_Cy : xr;
  fm_z : vec; fm_Az : vec; fm_gAz : vec; fm_gz : vec; fm_fz : R; fm_Cz : xr;
  fm_norm_x : R; fm_norm_dx : R; fm_iterations : nat }.

(** minimum with a possibly infinite bound *)
Definition min_bound (e : option R) (v : R) : R := match e with None => v | Some e => Rmin e v end.
(** fom/fom.py:31-47, backtrack_L *)
Definition backtrack_L (x A_x g_Ax y A_y g_Ay : vec) (L : R) (Lexact : option R) (beta : R) : R :=
  let xy_sq := nrm2 (rsub x y) in
  if Reqb xy_sq 0 then L else
  let localL := 2 * rdot (rsub A_x A_y) (rsub g_Ax g_Ay) / xy_sq in
  let new_L := min_bound Lexact (Rmax localL (L / beta)) in
  if Rleb localL L then L else new_L.
(** fom/fom.py:123-124, advance_theta; an infinite theta_old makes the quotient vanish *)
Definition advance_theta (theta_old : option R) (L L_old : R) : R :=
  match theta_old with
  | None => 2 / (1 + sqrt (1 + 0))
  | Some t => 2 / (1 + sqrt (1 + 4 * (L / L_old) / (t ^ 2)))
  end.

Section FOM.
  Variables (smooth_f : smooth) (prox_h : proxcap) (times trans : vec -> vec) (b : vec) (options : fom_options).
  (** fom/fom.py:77 *)
  Definition fom_f : smooth := smooth_func_translate smooth_f b.
  (** fom/fom.py:79-119, init; None when the projection of the starting point has a
      non-finite entry *)
  Definition fom_init (x0 : vec) : option fom_state :=
    let C_x := pfunc prox_h x0 in
    let start :=
      match C_x with
      | PInf | NInf => let '(p, v) := prox_vec_val prox_h x0 1 in option_map (fun x => (x, v)) (finite p)
      | _ => Some (x0, C_x)
      end in
    match start with
    | None => None
    | Some (x, C_x) =>
      let A_x := times x in
      let '(g_Ax, f_x) := sgrad_val fom_f A_x in
      let g_x := rzero (length x) in
      let norm_x := nrm x in
      Some (FomState (fo_L0 options) None
              x A_x g_Ax g_x f_x C_x
              x A_x g_Ax g_x f_x PInf
              x A_x g_Ax g_x f_x C_x
              norm_x norm_x 0)
    end.
  (** fom/fom.py:127-166, body_func; None for an infinite step or a non-finite
      proximal point *)
  Definition fom_body (s : fom_state) : option fom_state :=
    let L := fm_L s * fo_alpha options in
    let theta := advance_theta (fm_theta s) L (fm_L s) in
    let y := radd (rscale (1 - theta) (fm_x s)) (rscale theta (fm_z s)) in
    let A_y := times y in
    let '(g_Ay, f_y) := sgrad_val fom_f A_y in
    let g_y := trans g_Ay in
    if Reqb (theta * L) 0 then None else
    let step := 1 / (theta * L) in
    let '(pz, C_z) := prox_vec_val prox_h (rsub (fm_z s) (rscale step g_y)) step in
    match finite pz with
    | None => None
    | Some z =>
      let A_z := times z in
      let x := radd (rscale (1 - theta) (fm_x s)) (rscale theta z) in
      let A_x := times x in
      let '(g_Ax, f_x) := sgrad_val fom_f A_x in
      let L := backtrack_L x A_x g_Ax y A_y g_Ay L (fo_Lexact options) (fo_beta options) in
      let norm_x := nrm x in
      let norm_dx := nrm (rsub x (fm_x s)) in
      Some (FomState L (Some theta)
              x A_x g_Ax (fm_gx s) f_x (fm_Cx s)
              y A_y g_Ay g_y f_y (fm_Cy s)
              z A_z (fm_gAz s) (fm_gz s) (fm_fz s) C_z
              norm_x norm_dx (S (fm_iterations s)))
    end.
  (** fom/fom.py:168-171 *)
  Definition fom_cond (s : fom_state) : bool :=
    (fm_iterations s <? fo_max_iters options)%nat &&
    Rleb (fo_tol options * Rmax (fm_norm_x s) 1) (fm_norm_dx s).
  (** the state after the body has been run once before the loop, fom/fom.py:121, 173 *)
  Definition fom_first (x0 : vec) : option fom_state :=
    match fom_init x0 with None => None | Some s => fom_body s end.
  (** fom/fom.py:121, 173-178 *)
  Definition fom (x0 : vec) (fuel : nat) : outcome fom_state :=
    match fom_first x0 with None => Fail | Some s => while_ fom_cond fom_body fuel s end.
End FOM.

(** fom/lasso.py:24-49 *)
Definition fom_lasso (times trans : vec -> vec) (b : vec) (tau : R) (x0 : vec) (options : fom_options) (fuel : nat) : outcome fom_state :=
  fom (smooth_quad_matrix None None None) (prox_l1_ball tau) times trans (ropp b) options x0 fuel.
(** fom/l1rls.py:23-47 *)
Definition fom_l1rls (times trans : vec -> vec) (b : vec) (lambda_ : R) (x0 : vec) (options : fom_options) (fuel : nat) : outcome fom_state :=
  fom (smooth_quad_matrix None None None) (prox_l1 lambda_) times trans (ropp b) options x0 fuel.

(** fom/scd.py:29-62, smooth_dual, for a prox-capable function with finite results:
    [f] its value, [prox v t] its proximal point *)
Definition smooth_dual (f : vec -> R) (prox : vec -> R -> vec) (mu : R) (x0 : vec) : smooth :=
  Smooth
  (fun x => let px := prox (radd x0 (rscale mu x)) mu in
            let pv := f px in
            let v := rdot x px - pv - (1 / 2) / mu * nrm2 (rsub px x0) in - v)
  (fun x => let px := prox (radd x0 (rscale mu x)) mu in ropp px)
  (fun x => let px := prox (radd x0 (rscale mu x)) mu in
            let pv := f px in
            let g := ropp px in
            let v := rdot x px - pv - (1 / 2) / mu * nrm2 (rsub px x0) in (g, - v)).
