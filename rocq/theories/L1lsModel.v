(** Truncated Newton interior point method for  minimise |A x - y|^2 + lambda |x|_1 :
    cr/sparse/_src/cvx/l1ls.py, on real vectors in exact arithmetic.  A is given by
    its functions times and trans.  The three unbounded loops (lax.while_loop) get
    fuel; running out of fuel means that the program is still running. *)
From Coq Require Import List Arith Bool Reals.
From Verif Require Import Vec RVec Loop XReal SelModel CGModel.
Import ListNotations.
Local Open Scope R_scope.

(** l1ls.py:69-81 *)
Definition L1LS_MU : R := 2.
Definition L1LS_ALPHA : R := 1 / 100.
Definition L1LS_BETA : R := 1 / 2.

(** l1ls.py:84-114 without s (written, never read); rel_gap may be infinite or NaN *)
Record l1ls_state := L1lsState { l1_x : vec; l1_u : vec; l1_z : vec; l1_nu : vec; l1_dxu : vec;
  l1_primal : R; l1_dual : R; l1_gap : R; l1_rel_gap : xr; l1_t : R;
  l1_iterations : nat; l1_n_times : nat; l1_n_trans : nat }.
(** state of the two line search loops, l1ls.py:277-300 *)
Record feas_state := FeasState { fe_x : vec; fe_u : vec; fe_f : vec; fe_s : R }.
Record bt_state := BtState { bt_x : vec; bt_u : vec; bt_f : vec; bt_z : vec; bt_phi : R; bt_s : R; bt_count : nat }.
(** RecoveryFullSolution as returned in l1ls.py:365-367 *)
Record l1ls_solution := L1lsSolution { l1s_x : vec; l1s_r : vec; l1s_iterations : nat; l1s_n_times : nat; l1s_n_trans : nat }.

Section L1ls.
  Variables (times trans : vec -> vec) (y : vec) (lambda tol xi : R) (t0 : option R) (max_iters pcg_max_iters : nat).
  (** l1ls.py:125-127 *)
  Definition l1_n : nat := length (trans y).
  (** l1ls.py:130; 1/lambda is infinite for lambda = 0 *)
  Definition l1_t0 : R :=
    match t0 with
    | Some t => t
    | None => match xmin (xmax (xdiv 1 lambda) 1) (2 * INR l1_n * 1000) with Fin t => t | _ => 2 * INR l1_n * 1000 end
    end.
  (** l1ls.py:136-139 *)
  Definition get_primal_obj (x z : vec) : R := rdot z z + lambda * nrm1 x.
  (** l1ls.py:141-144 *)
  Definition get_dual_obj (nu : vec) : R := - (1 / 4) * rdot nu nu - rdot nu y.
  (** l1ls.py:146-154; sf is infinite or NaN for a zero Atnu_max, and nu is then kept *)
  Definition get_nu (z : vec) : vec :=
    let nu := rscale 2 z in
    let Atnu_max := nrminf (trans nu) in
    if Reqb Atnu_max 0 then nu else
    let sf := lambda / Atnu_max in
    if Rltb sf 1 then rscale sf nu else nu.
  (** l1ls.py:156-160 *)
  Definition get_phi (u z f : vec) (t : R) : R := rdot z z + lambda * rlsum u - rlsum (map (fun v => ln (- v)) f) / t.
  (** l1ls.py:162-175 *)
  Definition l1_init (x0 u0 : vec) : l1ls_state :=
    let z := rsub (times x0) y in
    let nu := get_nu z in
    let primal_obj := get_primal_obj x0 z in
    let dual_obj := get_dual_obj nu in
    let gap := primal_obj - dual_obj in
    L1lsState x0 u0 z nu (rzero (2 * l1_n)) primal_obj dual_obj gap (xdiv gap dual_obj) l1_t0 1 1 2.
  (** jnp.concatenate((x-u, -x-u)), l1ls.py:272, 280, 287 *)
  Definition constraints (x u : vec) : vec := rsub x u ++ rsub (ropp x) u.

  (** l1ls.py:198-208: the pieces of the Newton system at (x, u) *)
  Definition q1_ (x u : vec) : vec := tab l1_n (fun i => 1 / (u@i + x@i)).
  Definition q2_ (x u : vec) : vec := tab l1_n (fun i => 1 / (u@i - x@i)).
  Definition d1_ (x u : vec) (t : R) : vec := tab l1_n (fun i => ((q1_ x u)@i ^ 2 + (q2_ x u)@i ^ 2) / t).
  Definition d2_ (x u : vec) (t : R) : vec := tab l1_n (fun i => ((q1_ x u)@i ^ 2 - (q2_ x u)@i ^ 2) / t).
  Definition gradient_phi (x u z : vec) (t : R) : vec :=
    let upper := rsub (trans (rscale 2 z)) (tab l1_n (fun i => ((q1_ x u)@i - (q2_ x u)@i) / t)) in
    let lower := tab l1_n (fun i => lambda * 1 - ((q1_ x u)@i + (q2_ x u)@i) / t) in
    upper ++ lower.
  (** l1ls.py:213-221 *)
  Definition hessian (x u : vec) (t : R) (v : vec) : vec :=
    let x1 := firstn l1_n v in
    let x2 := skipn l1_n v in
    let d1 := d1_ x u t in
    let d2 := d2_ x u t in
    let upper := radd (radd (trans (rscale 2 (times x1))) (rmul d1 x1)) (rmul d2 x2) in
    let lower := radd (rmul d2 x1) (rmul d1 x2) in
    upper ++ lower.
  (** l1ls.py:229-243; diag_AtA = 2 * ones, l1ls.py:134 *)
  Definition preconditioner (x u : vec) (t : R) (v : vec) : vec :=
    let x1 := firstn l1_n v in
    let x2 := skipn l1_n v in
    let d1 := d1_ x u t in
    let d2 := d2_ x u t in
    let prb := tab l1_n (fun i => 2 * 1 + d1@i) in
    let prs := tab l1_n (fun i => prb@i * d1@i - d2@i ^ 2) in
    let p1 := tab l1_n (fun i => d1@i / prs@i) in
    let p2 := tab l1_n (fun i => d2@i / prs@i) in
    let p3 := tab l1_n (fun i => prb@i / prs@i) in
    let upper := rsub (rmul p1 x1) (rmul p2 x2) in
    let lower := radd (rmul (ropp p2) x1) (rmul p3 x2) in
    upper ++ lower.
  (** l1ls.py:249-252; for a zero gradient the quotient is infinite (the gap is positive in the loop) *)
  Definition pcg_tolerance (gap gradient_norm : R) : R :=
    let m := Rmin 1 gradient_norm in
    if Reqb m 0 then 1 / 10 else Rmin (1 / 10) (xi * gap / m).

  (** the line search from (x, u) along (dx, du), l1ls.py:272-315 *)
  Section Search.
    Variables (x u dx du : vec) (t phi gdx : R).
    (** l1ls.py:277-281 *)
    Definition f_init (s : R) : feas_state :=
      let newx := radd x (rscale s dx) in
      let newu := radd u (rscale s du) in
      FeasState newx newu (constraints newx newu) s.
    (** l1ls.py:283-288 *)
    Definition f_body (st : feas_state) : option feas_state := Some (f_init (L1LS_BETA * fe_s st)).
    (** l1ls.py:290-292 *)
    Definition f_cond (st : feas_state) : bool := Rleb 0 (vmax (fe_f st)).
    (** l1ls.py:296, 305: the feasibility loop from step s *)
    Definition feasible (fuel : nat) (s : R) : outcome feas_state := while_ f_cond f_body fuel (f_init s).
    (** l1ls.py:297-300, 306-308 *)
    Definition bt_of (st : feas_state) (count : nat) : bt_state :=
      let newz := rsub (times (fe_x st)) y in
      BtState (fe_x st) (fe_u st) (fe_f st) newz (get_phi (fe_u st) newz (fe_f st) t) (fe_s st) count.
    (** l1ls.py:310-313 *)
    Definition bt_cond (st : bt_state) : bool := Rltb (L1LS_ALPHA * bt_s st * gdx) (bt_phi st - phi).
    (** l1ls.py:302-308; an inner loop without result makes the step undefined *)
    Definition bt_body (ffuel : nat) (st : bt_state) : option bt_state :=
      match feasible ffuel (L1LS_BETA * bt_s st) with
      | Done f => Some (bt_of f (S (bt_count st)))
      | _ => None
      end.
    (** l1ls.py:295-300, 315 *)
    Definition line_search (ffuel bfuel : nat) : outcome bt_state :=
      match feasible ffuel 1 with
      | Done f => while_ bt_cond (bt_body ffuel) bfuel (bt_of f 1)
      | _ => Fuel
      end.
  End Search.

  (** l1ls.py:254-261: the search direction; None when PCG breaks down *)
  Definition newton_direction (st : l1ls_state) : option pcg_state :=
    let g := gradient_phi (l1_x st) (l1_u st) (l1_z st) (l1_t st) in
    match pcg_solve_from (hessian (l1_x st) (l1_u st) (l1_t st)) (ropp g) (l1_dxu st) pcg_max_iters
            (pcg_tolerance (l1_gap st) (nrm g)) 0 (Some (preconditioner (l1_x st) (l1_u st) (l1_t st))) pcg_max_iters with
    | Done s => Some s
    | _ => None
    end.
  (** l1ls.py:177-352; None when PCG breaks down or a line search loop needs more fuel *)
  Definition l1_body (ffuel bfuel : nat) (st : l1ls_state) : option l1ls_state :=
    let x := l1_x st in
    let u := l1_u st in
    let z := l1_z st in
    let t := l1_t st in
    let g := gradient_phi x u z t in
    match newton_direction st with
    | None => None
    | Some pcg =>
      let dxu := pcg_x pcg in
      let dx := firstn l1_n dxu in
      let du := skipn l1_n dxu in
      let phi := get_phi u z (constraints x u) t in
      let gdx := rdot g dxu in
      match line_search x u dx du t phi gdx ffuel bfuel with
      | Done l =>
        let z := bt_z l in
        let nu := get_nu z in
        let primal_obj := get_primal_obj (bt_x l) z in
        let dual_obj := Rmax (get_dual_obj nu) (l1_dual st) in
        let gap := primal_obj - dual_obj in
        let rel_gap := xdiv gap (l1_dual st) in
        let t' := if Rltb (bt_s l) (1 / 2) then t else
                  if Reqb gap 0 then Rmax (L1LS_MU * t) t
                  else Rmax (Rmin (2 * INR l1_n * L1LS_MU / gap) (L1LS_MU * t)) t in
        Some (L1lsState (bt_x l) (bt_u l) z nu dxu primal_obj dual_obj gap rel_gap t' (S (l1_iterations st))
                (l1_n_times st + pcg_it pcg + bt_count l) (l1_n_trans st + 1 + pcg_it pcg))
      | _ => None
      end
    end.
  (** l1ls.py:354-358 *)
  Definition l1_cond (st : l1ls_state) : bool := xgtb (l1_rel_gap st) tol && (l1_iterations st <? max_iters)%nat.
  (** l1ls.py:360-367 *)
  Definition l1ls_run (x0 u0 : vec) (ffuel bfuel fuel : nat) : outcome l1ls_state :=
    while_ l1_cond (l1_body ffuel bfuel) fuel (l1_init x0 u0).
  Definition l1ls_solve_from (x0 u0 : vec) (ffuel bfuel fuel : nat) : outcome l1ls_solution :=
    match l1ls_run x0 u0 ffuel bfuel fuel with
    | Done s => Done (L1lsSolution (l1_x s) (ropp (l1_z s)) (l1_iterations s) (l1_n_times s) (l1_n_trans s))
    | Fail => Fail
    | Fuel => Fuel
    end.
  (** l1ls.py:372-380, default x0 and u0 *)
  Definition l1ls_solve (n ffuel bfuel fuel : nat) : outcome l1ls_solution :=
    l1ls_solve_from (rzero n) (repeat 1 n) ffuel bfuel fuel.
End L1ls.
