(** Model of the first order method driver and of lasso and l1rls on complex data
    (fom/{fom,lasso,l1rls}.py) in exact arithmetic.  arr_rdot of cr.nimble is the
    real part of the inner product, arr_rnorm the l2 norm, arr_l1norm the sum of
    the moduli.  L, theta, the steps and the function values are real. *)
From Coq Require Import List Arith Bool Reals.
From Verif Require Import Scalar Vec RVec Loop XReal LopModel OptModel FomModel CxSpec CxSpglModel.
Import ListNotations.
Local Open Scope R_scope.

(** opt/smooth/smooth.py:25-40 *)
Record csmooth := CSmooth { cs_func : cvec -> R; cs_grad : cvec -> cvec; cs_grad_val : cvec -> cvec * R }.
(** smooth/quad.py:24-61 without P, q and r; smooth.py:58-72, 92-107 *)
Definition csmooth_quad : csmooth :=
  let func (x : cvec) := / 2 * fst (inner x x : Cx) in
  CSmooth func (fun x => x) (fun x => (x, func x)).
(** smooth.py:110-140 *)
Definition csmooth_translate (f : csmooth) (b : cvec) : csmooth :=
  CSmooth (fun x => cs_func f (vadd x b)) (fun x => cs_grad f (vadd x b)) (fun x => cs_grad_val f (vadd x b)).

(** opt/proximal_ops/prox.py:24-46; no proximal point when an entry is not finite *)
Record cproxcap := CProxCap { cp_func : cvec -> xr; cp_op : cvec -> R -> option cvec; cp_vec_val : cvec -> R -> option (cvec * xr) }.
(** prox.py:48-62, 105-120 *)
Definition cbuild (func : cvec -> xr) (op : cvec -> R -> option cvec) : cproxcap :=
  CProxCap func op (fun x t => match op x t with Some z => Some (z, func z) | None => None end).
(** prox.py:78-103 *)
Definition cbuild_from_ind_proj (ind : cvec -> bool) (proj : cvec -> cvec) : cproxcap :=
  CProxCap (fun x => if ind x then Fin 0 else PInf) (fun x _ => Some (proj x)) (fun x _ => Some (proj x, Fin 0)).
(** the product of a number with a shrinkage coefficient *)
Definition cfactor (s : xr) (z : Cs) : option Cs :=
  match s with Fin s => Some (Cmul (ofR s : Cs) z) | _ => None end.
Fixpoint call_some (x : list (option Cs)) : option cvec :=
  match x with
  | [] => Some []
  | Some z :: x => option_map (cons z) (call_some x)
  | None :: _ => None
  end.
(** lpnorms.py:54-80 *)
Definition cprox_l1 (q : R) : cproxcap :=
  cbuild (fun x => Fin (cl1 (vscale (ofR q : Cs) x)))
         (fun x t => let tq := t * q in
            call_some (map (fun z => cfactor (xrsub 1 (xmin (xdiv tq (cabs z)) 1)) z) x)).
(** jnp.maximum(0, z) and jnp.minimum(0, z) compare complex numbers by their real
    parts and, when these are equal, by their imaginary parts *)
Definition lex_pos (z : Cs) : bool := Rltb 0 (fst z) || (Reqb (fst z) 0 && Rltb 0 (snd z)).
Definition cmax0 (z : Cs) : Cs := if lex_pos z then z else ofR 0.
Definition cmin0 (z : Cs) : Cs := if lex_pos z then ofR 0 else z.
(** projectors/lpballs.py:160-174, project_inside_ball *)
Definition cproject_inside_ball (y : cvec) (q : R) : cvec :=
  let kappa := l1_threshold (map cabs y) q in
  map (fun z => Cadd (cmax0 (Csub z (ofR kappa : Cs))) (cmin0 (Cadd z (ofR kappa : Cs)))) y.
(** lpballs.py:179-192 *)
Definition cproj_l1_ball (q : R) (x : cvec) : cvec :=
  if Rltb q (cl1 x) then cproject_inside_ball x q else x.
(** indicators/lpballs.py:152-158, l1 ball without centre and matrix; lpnorms.py:117-125 *)
Definition cprox_l1_ball (q : R) : cproxcap :=
  cbuild_from_ind_proj (fun x => negb (Rltb q (cl1 x))) (cproj_l1_ball q).

(** fom/defs.py:60-98; theta = inf is None *)
Record cfom_state := CFomState { cfm_L : R; cfm_theta : option R;
  cfm_x : cvec; cfm_Ax : cvec; cfm_gAx : cvec; cfm_gx : cvec; cfm_fx : R; cfm_Cx : xr;
  cfm_y : cvec; cfm_Ay : cvec; cfm_gAy : cvec; cfm_gy : cvec; cfm_fy : R; cfm_Cy : xr;
  cfm_z : cvec; cfm_Az : cvec; cfm_gAz : cvec; cfm_gz : cvec; cfm_fz : R; cfm_Cz : xr;
  cfm_norm_x : R; cfm_norm_dx : R; cfm_iterations : nat }.
(** fom/fom.py:31-47 *)
Definition cbacktrack_L (x A_x g_Ax y A_y g_Ay : cvec) (L : R) (Lexact : option R) (beta : R) : R :=
  let xy_sq := cnsq (vsub x y) in
  if Reqb xy_sq 0 then L else
  let localL := 2 * fst (inner (vsub A_x A_y) (vsub g_Ax g_Ay) : Cx) / xy_sq in
  let new_L := min_bound Lexact (Rmax localL (L / beta)) in
  if Rleb localL L then L else new_L.

Section FOM.
  Variables (smooth_f : csmooth) (prox_h : cproxcap) (times trans : cvec -> cvec) (b : cvec) (options : fom_options).
  (** fom/fom.py:77 *)
  Definition cfom_f : csmooth := csmooth_translate smooth_f b.
  (** fom/fom.py:79-119, init; None when the projection of the starting point has a
      non-finite entry *)
  Definition cfom_init (x0 : cvec) : option cfom_state :=
    let C_x := cp_func prox_h x0 in
    let start := match C_x with PInf | NInf => cp_vec_val prox_h x0 1 | _ => Some (x0, C_x) end in
    match start with
    | None => None
    | Some (x, C_x) =>
      let A_x := times x in
      let '(g_Ax, f_x) := cs_grad_val cfom_f A_x in
      let g_x := vzero (length x) in
      let norm_x := cnorm x in
      Some (CFomState (fo_L0 options) None
              x A_x g_Ax g_x f_x C_x
              x A_x g_Ax g_x f_x PInf
              x A_x g_Ax g_x f_x C_x
              norm_x norm_x 0)
    end.
  (** fom/fom.py:127-166, body_func; None for an infinite step or a non-finite
      proximal point *)
  Definition cfom_body (s : cfom_state) : option cfom_state :=
    let L := cfm_L s * fo_alpha options in
    let theta := advance_theta (cfm_theta s) L (cfm_L s) in
    let y := vadd (vscale (ofR (1 - theta) : Cs) (cfm_x s)) (vscale (ofR theta : Cs) (cfm_z s)) in
    let A_y := times y in
    let '(g_Ay, f_y) := cs_grad_val cfom_f A_y in
    let g_y := trans g_Ay in
    if Reqb (theta * L) 0 then None else
    let step := 1 / (theta * L) in
    match cp_vec_val prox_h (vsub (cfm_z s) (vscale (ofR step : Cs) g_y)) step with
    | None => None
    | Some (z, C_z) =>
      let A_z := times z in
      let x := vadd (vscale (ofR (1 - theta) : Cs) (cfm_x s)) (vscale (ofR theta : Cs) z) in
      let A_x := times x in
      let '(g_Ax, f_x) := cs_grad_val cfom_f A_x in
      let L := cbacktrack_L x A_x g_Ax y A_y g_Ay L (fo_Lexact options) (fo_beta options) in
      let norm_x := cnorm x in
      let norm_dx := cnorm (vsub x (cfm_x s)) in
      Some (CFomState L (Some theta)
              x A_x g_Ax (cfm_gx s) f_x (cfm_Cx s)
              y A_y g_Ay g_y f_y (cfm_Cy s)
              z A_z (cfm_gAz s) (cfm_gz s) (cfm_fz s) C_z
              norm_x norm_dx (S (cfm_iterations s)))
    end.
  (** fom/fom.py:168-171 *)
  Definition cfom_cond (s : cfom_state) : bool :=
    (cfm_iterations s <? fo_max_iters options)%nat &&
    Rleb (fo_tol options * Rmax (cfm_norm_x s) 1) (cfm_norm_dx s).
  (** fom/fom.py:121, 173 *)
  Definition cfom_first (x0 : cvec) : option cfom_state :=
    match cfom_init x0 with None => None | Some s => cfom_body s end.
  (** fom/fom.py:121, 173-178, for the element types that the loop accepts *)
  Definition cfom (x0 : cvec) (fuel : nat) : outcome cfom_state :=
    match cfom_first x0 with None => Fail | Some s => while_ cfom_cond cfom_body fuel s end.
End FOM.
(** fom/lasso.py:24-49 *)
Definition cfom_lasso (times trans : cvec -> cvec) (b : cvec) (tau : R) (x0 : cvec) (options : fom_options) (fuel : nat) : outcome cfom_state :=
  cfom csmooth_quad (cprox_l1_ball tau) times trans (vopp b) options x0 fuel.
(** fom/l1rls.py:23-47 *)
Definition cfom_l1rls (times trans : cvec -> cvec) (b : cvec) (lambda_ : R) (x0 : cvec) (options : fom_options) (fuel : nat) : outcome cfom_state :=
  cfom csmooth_quad (cprox_l1 lambda_) times trans (vopp b) options x0 fuel.

(** *** element types of the loop variable, as in CxTypesModel: ta, tb and tx are
    those of the operator, of b and of the starting point; L, theta, values and
    norms are real *)
Local Notation "s <+> t" := (result_type s t) (at level 50, left associativity).
Record fom_types := FomTypes { fy_x : array_type; fy_Ax : array_type; fy_gAx : array_type; fy_gx : array_type;
  fy_y : array_type; fy_Ay : array_type; fy_gAy : array_type; fy_gy : array_type;
  fy_z : array_type; fy_Az : array_type; fy_gAz : array_type; fy_gz : array_type }.
Section Types.
  Variables (ta tb : array_type).
  (** fom/fom.py:79-119; zeros_like keeps the type *)
  Definition fom_init_types (tx : array_type) : fom_types :=
    let Ax := ta <+> tx in let gAx := Ax <+> tb in
    FomTypes tx Ax gAx tx tx Ax gAx tx tx Ax gAx tx.
  (** fom/fom.py:127-166; the proximal operators keep the type *)
  Definition fom_body_types (s : fom_types) : fom_types :=
    let y := fy_x s <+> fy_z s in
    let Ay := ta <+> y in
    let gAy := Ay <+> tb in
    let gy := ta <+> gAy in
    let z := fy_z s <+> gy in
    let Az := ta <+> z in
    let x := fy_x s <+> z in
    let Ax := ta <+> x in
    let gAx := Ax <+> tb in
    FomTypes x Ax gAx (fy_gx s) y Ay gAy gy z Az (fy_gAz s) (fy_gz s).
  (** fom/fom.py:173-174: the body is run once before the loop *)
  Definition fom_accepts (tx : array_type) : Prop :=
    let s := fom_body_types (fom_init_types tx) in fom_body_types s = s.
End Types.
