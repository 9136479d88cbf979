(** Model of the l1-constrained least squares solver of SPGL1 (cvx/spgl1.py) on complex data, in
    exact arithmetic.  The projection on the complex l1 ball is spgl1_project_to_l1_ball_c of
    OptModel.v.  The options are those of the real model. *)
From Coq Require Import List Arith Bool Reals.
From Verif Require Import Scalar Vec RVec Loop OptModel SelModel SpgModel SpglModel CxSpec.
Import ListNotations.
Local Open Scope R_scope.
(** crn.norm_linf: the largest modulus *)
Definition clinf (x : cvec) : R := nrminf (map cabs x).
(** spgl1.py:139-142 *)
Definition cobj_val (r : cvec) : R := 1 / 2 * cabs (inner r r).
(** spgl1.py:81-113 *)
Definition cproject (x : cvec) (q : R) : cvec := spgl1_project_to_l1_ball_c x q.
(** spgl1.py:148-161 *)
Record ccls_state := CCLSState { ccl_alpha : R; ccl_scale : R; ccl_x : cvec; ccl_r : cvec; ccl_d : cvec; ccl_gtd : R;
  ccl_d_norm_old : R; ccl_f : R; ccl_lim : R; ccl_iters : nat; ccl_safe : nat }.
(** spgl1.py:181-250, curvy_line_search *)
Section Curvy.
  Variables (times : cvec -> cvec) (b x g0 : cvec) (alpha0 f_max tau gamma : R).
  (** spgl1.py:185-188 *)
  Definition ccls_g : cvec := vscale (ofR alpha0 : Cs) g0.
  Definition ccls_n2 : R := sqrt (INR (length x)).
  Definition ccls_g_norm : R := cnorm ccls_g / ccls_n2.
  (** spgl1.py:191-198 *)
  Definition ccls_candidate (alpha scale dn : R) (it sf : nat) : ccls_state :=
    let x_new := cproject (vsub x (vscale (ofR (alpha * scale) : Cs) ccls_g)) tau in
    let r_new := vsub b (times x_new) in
    let d_new := vsub x_new x in
    let gtd := scale * fst (inner ccls_g d_new : Cx) in
    let f_val := cobj_val r_new in
    let f_lim := f_max + gamma * alpha * gtd in
    CCLSState alpha scale x_new r_new d_new gtd dn f_val f_lim it sf.
  (** spgl1.py:200-208 *)
  Definition ccls_init : ccls_state := ccls_candidate 1 1 0 0 0.
  (** spgl1.py:210-232; the loop is entered only when gtd < 0, so g_norm is not zero *)
  Definition ccls_next (s : ccls_state) : option ccls_state :=
    let alpha := ccl_alpha s / 2 in
    let d_norm := cnorm (ccl_d s) / ccls_n2 in
    let d_norm_old := ccl_d_norm_old s in
    let too_close := Rleb (Rabs (d_norm - d_norm_old)) (/ 10 ^ 6 * d_norm) in
    let scale := if too_close then d_norm / ccls_g_norm / 2 ^ ccl_safe s else ccl_scale s in
    let n_safe := if too_close then S (ccl_safe s) else ccl_safe s in
    Some (ccls_candidate alpha scale d_norm (S (ccl_iters s)) n_safe).
  (** spgl1.py:234-241; max_iters = 10, spgl1.py:184 *)
  Definition ccls_cond (s : ccls_state) : bool :=
    (ccl_iters s <? 10)%nat && Rltb (ccl_gtd s) 0 && Rleb (ccl_lim s) (ccl_f s).
  (** spgl1.py:243-250 *)
  Definition ccurvy_line_search : outcome ccls_state := while_ ccls_cond ccls_next 10 ccls_init.
End Curvy.
(** spgl1.py:257-267, lasso_metrics: conj(r).(r - b) is in general not real; abs is the modulus *)
Definition classo_metrics (b g r : cvec) (f tau : R) : R * R :=
  let g_dnorm := clinf g in
  let r_norm := cnorm r in
  let gap := Cadd (inner r (vsub r b)) (ofR (tau * g_dnorm) : Cs) in
  let f_m := Rmax 1 f in
  (r_norm, cabs gap / f_m).
(** spgl1.py:374-382: the Barzilai-Borwein step *)
Definition cbb_step (amin amax : R) (s y : cvec) : R :=
  let sts := fst (inner s s : Cx) in
  let sty := fst (inner s y : Cx) in
  if Rleb sty 0 then amax else rclip (sts / sty) amin amax.
(** spgl1.py:270-296 *)
Record classo_state := CLassoState { cla_x : cvec; cla_g : cvec; cla_r : cvec; cla_f_past : vec; cla_r_norm : R; cla_r_gap : R;
  cla_alpha : R; cla_alpha_next : R; cla_iterations : nat; cla_n_times : nat; cla_n_trans : nat; cla_ls_iters : nat }.
Section Lasso.
  Variables (times trans : cvec -> cvec) (b : cvec) (tau : R) (opt : spgl1_options).
  Notation project := cproject.
  (** spgl1.py:330-353 *)
  Definition classo_init (x0 : cvec) : classo_state :=
    let x := project x0 tau in
    let r := vsub b (times x) in
    let g := vopp (trans r) in
    let f := cobj_val r in
    let f_past := repeat f (go_memory opt) in
    let d := vsub (project (vsub x g) tau) x in
    let d_norm := clinf d in
    let alpha := first_step (go_alpha_min opt) (go_alpha_max opt) d_norm in
    let '(r_norm, r_gap) := classo_metrics b g r f tau in
    CLassoState x g r f_past r_norm r_gap alpha alpha 1 1 1 0.
  (** spgl1.py:355-388; n_trans is set to n_times in line 387 *)
  Definition classo_body (st : classo_state) : option classo_state :=
    let f_max := vmax (cla_f_past st) in
    match ccurvy_line_search times b (cla_x st) (cla_g st) (cla_alpha_next st) f_max tau (go_gamma opt) with
    | Done l =>
      let n_times := (cla_n_times st + ccl_iters l + 1)%nat in
      let x := ccl_x l in
      let r := ccl_r l in
      let g := vopp (trans r) in
      let f := ccl_f l in
      let f_past := cbuf_push_left (cla_f_past st) f in
      let '(r_norm, r_gap) := classo_metrics b g r f tau in
      let alpha_next := cbb_step (go_alpha_min opt) (go_alpha_max opt) (vsub x (cla_x st)) (vsub g (cla_g st)) in
      Some (CLassoState x g r f_past r_norm r_gap (ccl_alpha l) alpha_next (S (cla_iterations st))
              n_times n_times (cla_ls_iters st + ccl_iters l))
    | _ => None
    end.
  (** spgl1.py:390-398 *)
  Definition classo_cond (st : classo_state) : bool :=
    (cla_iterations st <? go_max_iters opt)%nat && Rltb (go_opt_tol opt) (cla_r_gap st) &&
    Rleb (go_opt_tol opt * cnorm b) (cla_r_norm st).
  (** spgl1.py:315-405, with a complex initial vector *)
  Definition csolve_lasso_from (x0 : cvec) (fuel : nat) : outcome classo_state :=
    while_ classo_cond classo_body fuel (classo_init x0).
End Lasso.

(** *** the types of the loop variable of solve_lasso_from *)
(** whether an array is of a complex type; an operation on two arrays gives a complex array when one of
    them is complex *)
Inductive array_type := RealArr | ComplexArr.
Definition result_type (s t : array_type) : array_type := match s with RealArr => t | ComplexArr => ComplexArr end.
(** types of the fields x, g and r of the state *)
Record carry_type := CarryType { ct_x : array_type; ct_g : array_type; ct_r : array_type }.
(** spgl1.py:330-340, for an operator of type ta, data of type tb and initial vector of type t0: x is the
    projection of x0, r = b - A x, g = - A^H r *)
Definition init_types (ta tb t0 : array_type) : carry_type :=
  let x := t0 in let r := result_type tb (result_type ta x) in let g := result_type ta r in CarryType x g r.
(** spgl1.py:191-195, 360-368: the new x is the projection of x - alpha g *)
Definition body_types (ta tb : array_type) (c : carry_type) : carry_type :=
  let x := result_type (ct_x c) (ct_g c) in let r := result_type tb (result_type ta x) in let g := result_type ta r in CarryType x g r.
(** lax.while_loop raises TypeError when the body changes the type of the loop variable *)
Definition loop_accepts (ta tb t0 : array_type) : Prop := body_types ta tb (init_types ta tb t0) = init_types ta tb t0.
(** spgl1.py:415: x0 = jnp.zeros(n) is real *)
Definition solve_lasso_start : array_type := RealArr.
(** spgl1.py:723: x0 = jnp.zeros(n, dtype=b.dtype); the loop of solve_bpic_from has the same x, r and g
    (spgl1.py:550-559, 613-684) *)
Definition solve_bpic_start (tb : array_type) : array_type := tb.
(** spgl1.py:776-777 *)
Definition solve_bp_start (ta tb : array_type) : array_type := match ta with ComplexArr => ComplexArr | RealArr => tb end.
