(** SPGL1: cr/sparse/_src/cvx/spgl1.py, on real vectors in exact arithmetic.  The
    operator A is given by its functions times and trans.  The tracker callback, the
    jit decorations and the printing functions are not modelled. *)
From Coq Require Import List Arith Bool Reals.
From Verif Require Import Vec RVec Loop OptModel SelModel SpgModel.
Import ListNotations.
Local Open Scope R_scope.

(** spgl1.py:51-75; ls_tol is never read *)
Record spgl1_options := SPGL1Options { go_bp_tol : R; go_opt_tol : R; go_dec_tol : R; go_gamma : R;
  go_alpha_min : R; go_alpha_max : R; go_memory : nat; go_max_matvec : nat; go_max_iters : nat }.
(** jnp.clip *)
Definition rclip (v lo hi : R) : R := Rmin hi (Rmax lo v).
(** spgl1.py:139-142 *)
Definition obj_val (r : vec) : R := 1 / 2 * Rabs (rdot r r).

(** spgl1.py:148-161 *)
Record cls_state := CLSState { cl_alpha : R; cl_scale : R; cl_x : vec; cl_r : vec; cl_d : vec; cl_gtd : R;
  cl_d_norm_old : R; cl_f : R; cl_lim : R; cl_iters : nat; cl_safe : nat }.
(** spgl1.py:181-250, curvy_line_search *)
Section Curvy.
  Variables (times : vec -> vec) (b x g0 : vec) (alpha0 f_max : R) (proj : vec -> R -> vec) (tau gamma : R).
  (** spgl1.py:185-188 *)
  Definition cls_g : vec := rscale alpha0 g0.
  Definition cls_n2 : R := sqrt (INR (length x)).
  Definition cls_g_norm : R := nrm cls_g / cls_n2.
  (** spgl1.py:191-198 *)
  Definition cls_candidate (alpha scale dn : R) (it sf : nat) : cls_state :=
    let x_new := proj (rsub x (rscale (alpha * scale) cls_g)) tau in
    let r_new := rsub b (times x_new) in
    let d_new := rsub x_new x in
    let gtd := scale * rdot cls_g d_new in
    let f_val := obj_val r_new in
    let f_lim := f_max + gamma * alpha * gtd in
    CLSState alpha scale x_new r_new d_new gtd dn f_val f_lim it sf.
  (** spgl1.py:200-208 *)
  Definition cls_init : cls_state := cls_candidate 1 1 0 0 0.
  (** spgl1.py:210-232; the loop is entered only when gtd < 0, so g_norm is not zero *)
  Definition cls_next (s : cls_state) : option cls_state :=
    let alpha := cl_alpha s / 2 in
    let d_norm := nrm (cl_d s) / cls_n2 in
    let d_norm_old := cl_d_norm_old s in
    let too_close := Rleb (Rabs (d_norm - d_norm_old)) (/ 10 ^ 6 * d_norm) in
    let scale := if too_close then d_norm / cls_g_norm / 2 ^ cl_safe s else cl_scale s in
    let n_safe := if too_close then S (cl_safe s) else cl_safe s in
    Some (cls_candidate alpha scale d_norm (S (cl_iters s)) n_safe).
  (** spgl1.py:234-241; max_iters = 10, spgl1.py:184 *)
  Definition cls_cond (s : cls_state) : bool :=
    (cl_iters s <? 10)%nat && Rltb (cl_gtd s) 0 && Rleb (cl_lim s) (cl_f s).
  (** spgl1.py:243-250 *)
  Definition curvy_line_search : outcome cls_state := while_ cls_cond cls_next 10 cls_init.
End Curvy.

(** spgl1.py:257-267, lasso_metrics *)
Definition lasso_metrics (b g r : vec) (f tau : R) : R * R :=
  let g_dnorm := nrminf g in
  let r_norm := nrm r in
  let gap := rdot r (rsub r b) + tau * g_dnorm in
  let f_m := Rmax 1 f in
  (r_norm, Rabs gap / f_m).
(** spgl1.py:342-344, 377-382: initial step 1/|d| clipped (infinite for d = 0) and
    the Barzilai-Borwein step *)
Definition first_step (amin amax d_norm : R) : R := if Reqb d_norm 0 then amax else rclip (1 / d_norm) amin amax.
Definition bb_step (amin amax : R) (s y : vec) : R :=
  let sts := rdot s s in
  let sty := rdot s y in
  if Rleb sty 0 then amax else rclip (sts / sty) amin amax.

(** spgl1.py:270-296 *)
Record lasso_state := LassoState { la_x : vec; la_g : vec; la_r : vec; la_f_past : vec; la_r_norm : R; la_r_gap : R;
  la_alpha : R; la_alpha_next : R; la_iterations : nat; la_n_times : nat; la_n_trans : nat; la_ls_iters : nat }.
Section Lasso.
  Variables (times trans : vec -> vec) (b : vec) (tau : R) (opt : spgl1_options).
  Notation project := spgl1_project_to_l1_ball.
  (** spgl1.py:330-353 *)
  Definition lasso_init (x0 : vec) : lasso_state :=
    let x := project x0 tau in
    let r := rsub b (times x) in
    let g := ropp (trans r) in
    let f := obj_val r in
    let f_past := repeat f (go_memory opt) in
    let d := rsub (project (rsub x g) tau) x in
    let d_norm := nrminf d in
    let alpha := first_step (go_alpha_min opt) (go_alpha_max opt) d_norm in
    let '(r_norm, r_gap) := lasso_metrics b g r f tau in
    LassoState x g r f_past r_norm r_gap alpha alpha 1 1 1 0.
  (** spgl1.py:355-388; n_trans is set to n_times in line 387 *)
  Definition lasso_body (st : lasso_state) : option lasso_state :=
    let f_max := vmax (la_f_past st) in
    match curvy_line_search times b (la_x st) (la_g st) (la_alpha_next st) f_max project tau (go_gamma opt) with
    | Done l =>
      let n_times := (la_n_times st + cl_iters l + 1)%nat in
      let x := cl_x l in
      let r := cl_r l in
      let g := ropp (trans r) in
      let f := cl_f l in
      let f_past := cbuf_push_left (la_f_past st) f in
      let '(r_norm, r_gap) := lasso_metrics b g r f tau in
      let alpha_next := bb_step (go_alpha_min opt) (go_alpha_max opt) (rsub x (la_x st)) (rsub g (la_g st)) in
      Some (LassoState x g r f_past r_norm r_gap (cl_alpha l) alpha_next (S (la_iterations st))
              n_times n_times (la_ls_iters st + cl_iters l))
    | _ => None
    end.
  (** spgl1.py:390-398 *)
  Definition lasso_cond (st : lasso_state) : bool :=
    (la_iterations st <? go_max_iters opt)%nat && Rltb (go_opt_tol opt) (la_r_gap st) &&
    Rleb (go_opt_tol opt * nrm b) (la_r_norm st).
  (** spgl1.py:315-405 *)
  Definition solve_lasso_from (x0 : vec) (fuel : nat) : outcome lasso_state :=
    while_ lasso_cond lasso_body fuel (lasso_init x0).
  (** spgl1.py:407-416 *)
  Definition solve_lasso (n : nat) (fuel : nat) : outcome lasso_state := solve_lasso_from (rzero n) fuel.
End Lasso.

(** spgl1.py:452-487 *)
Record bp_state := BPState { bp_x : vec; bp_g : vec; bp_r : vec; bp_f_past : vec; bp_tau : R; bp_tau_changed : bool;
  bp_r_norm : R; bp_r_gap : R; bp_r_res_error : R; bp_r_f_error : R; bp_alpha : R; bp_alpha_next : R;
  bp_iterations : nat; bp_n_times : nat; bp_n_trans : nat; bp_n_newton : nat; bp_ls_iters : nat }.
(** spgl1.py:512-530 *)
Record metrics := Metrics { mt_g_dnorm : R; mt_r_norm : R; mt_r_gap : R; mt_res : R; mt_f : R }.
Definition bpic_metrics (b g r : vec) (f sigma tau : R) : metrics :=
  let g_dnorm := nrminf g in
  let r_norm := nrm r in
  let gap := rdot r (rsub r b) + tau * g_dnorm in
  let f_m := Rmax 1 f in
  let r_m := Rmax 1 r_norm in
  let res_error := r_norm - sigma in
  let f_error := f - sigma ^ 2 / 2 in
  Metrics g_dnorm r_norm (Rabs gap / f_m) (Rabs res_error / r_m) (Rabs f_error / f_m).
(** spgl1.py:590 and 646: the Newton update of tau; None for a zero gradient, where
    the code divides by zero *)
Definition newton_tau (tau r_norm sigma g_dnorm : R) : option R :=
  if Reqb g_dnorm 0 then None else Some (Rmax 0 (tau + r_norm * (r_norm - sigma) / g_dnorm)).
Section BPIC.
  Variables (times trans : vec -> vec) (b : vec) (sigma : R) (opt : spgl1_options).
  Notation project := spgl1_project_to_l1_ball.
  (** spgl1.py:550-559 *)
  Definition update_xrgf (x : vec) (tau : R) : vec * vec * vec * R :=
    let x := project x tau in
    let r := rsub b (times x) in
    let g := ropp (trans r) in
    (x, r, g, obj_val r).
  (** spgl1.py:577-610 *)
  Definition bp_init (x0 : vec) : option bp_state :=
    let tau := nrm1 x0 in
    let '(x, r, g, f) := update_xrgf x0 tau in
    let m := bpic_metrics b g r f sigma tau in
    match newton_tau tau (mt_r_norm m) sigma (mt_g_dnorm m) with
    | None => None
    | Some tau =>
      let d := rsub (project (rsub x g) 0) x in
      let alpha := first_step (go_alpha_min opt) (go_alpha_max opt) (nrminf d) in
      let f_past := repeat f (go_memory opt) in
      Some (BPState x g r f_past tau true (mt_r_norm m) (mt_r_gap m) (mt_res m) (mt_f m) alpha alpha 1 2 2 1 0)
    end.
  (** spgl1.py:613-684 *)
  Definition bp_body (st : bp_state) : option bp_state :=
    let f_max := vmax (bp_f_past st) in
    match curvy_line_search times b (bp_x st) (bp_g st) (bp_alpha_next st) f_max project (bp_tau st) (go_gamma opt) with
    | Done l =>
      let n_times := (bp_n_times st + cl_iters l + 1)%nat in
      let x := cl_x l in
      let r := cl_r l in
      let g := ropp (trans r) in
      let n_trans := S (bp_n_trans st) in
      let f := cl_f l in
      let m := bpic_metrics b g r f sigma (bp_tau st) in
      let r_norm := mt_r_norm m in
      let f_old := (bp_f_past st)@0 in
      let f_change := Rabs (f - f_old) in
      let tc_a := Rleb f_change (go_dec_tol opt * f) in
      let tc_b := Rleb f_change (1 / 10 * f * Rabs (r_norm - sigma)) in
      let flag_c := (tc_a && Rltb (2 * sigma) r_norm) || (tc_b && Rleb r_norm (2 * sigma)) in
      let change_tau := flag_c && negb (bp_tau_changed st) in
      match (if change_tau then newton_tau (bp_tau st) r_norm sigma (mt_g_dnorm m) else Some (bp_tau st)) with
      | None => None
      | Some tau =>
        let tau_reduced := Rltb tau (bp_tau st) in
        let '(x, r, g, f) := if tau_reduced then update_xrgf x tau else (x, r, g, f) in
        let extra := if tau_reduced then 1%nat else 0%nat in
        let f_past := cbuf_push_left (bp_f_past st) f in
        let alpha_next := bb_step (go_alpha_min opt) (go_alpha_max opt) (rsub x (bp_x st)) (rsub g (bp_g st)) in
        Some (BPState x g r f_past tau change_tau (mt_r_norm m) (mt_r_gap m) (mt_res m) (mt_f m)
                (cl_alpha l) alpha_next (S (bp_iterations st)) (n_times + extra) (n_trans + extra)
                (if change_tau then S (bp_n_newton st) else bp_n_newton st) (bp_ls_iters st + cl_iters l))
      end
    | _ => None
    end.
  (** spgl1.py:687-708 *)
  Definition bp_cond (st : bp_state) : bool :=
    let a := Rltb (Rmax (go_opt_tol opt) (bp_r_f_error st)) (bp_r_gap st) in
    let b' := Rltb (go_opt_tol opt) (bp_r_res_error st) in
    let u := Rltb sigma (bp_r_norm st) in
    let v := Rltb (go_opt_tol opt) (bp_r_res_error st) in
    let w := Rltb (go_bp_tol opt * nrm b) (bp_r_norm st) in
    (((a && b') || (u && v && w)) && (bp_iterations st <? go_max_iters opt)%nat) &&
    (bp_n_times st + bp_n_trans st <? go_max_matvec opt)%nat.
  (** spgl1.py:561-716 *)
  Definition solve_bpic_from (x0 : vec) (fuel : nat) : outcome bp_state :=
    match bp_init x0 with Some s => while_ bp_cond bp_body fuel s | None => Fail end.
  (** spgl1.py:720-730 *)
  Definition solve_bpic (n fuel : nat) : outcome bp_state := solve_bpic_from (rzero n) fuel.
End BPIC.
(** spgl1.py:766-781, real operator *)
Definition solve_bp (times trans : vec -> vec) (b : vec) (opt : spgl1_options) (n fuel : nat) : outcome bp_state :=
  solve_bpic_from times trans b 0 opt (rzero n) fuel.
