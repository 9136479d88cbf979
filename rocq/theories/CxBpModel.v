(** Model of basis pursuit denoising in SPGL1 (cvx/spgl1.py) on complex data, in exact arithmetic.  The
    line search, the projection and the steps are those of CxSpglModel.v, the record of metrics, the
    Newton update of the radius and the options those of SpglModel.v. *)
From Coq Require Import List Arith Bool Reals.
From Verif Require Import Scalar Vec RVec Loop OptModel SelModel SpgModel SpglModel CxSpec CxSpglModel.
Import ListNotations.
Local Open Scope R_scope.
(** spgl1.py:454-490: the state, with complex x, g and r *)
Record cbp_state := CBPState { cbp_x : cvec; cbp_g : cvec; cbp_r : cvec; cbp_f_past : vec; cbp_tau : R; cbp_tau_changed : bool;
  cbp_r_norm : R; cbp_r_gap : R; cbp_r_res_error : R; cbp_r_f_error : R; cbp_alpha : R; cbp_alpha_next : R;
  cbp_iterations : nat; cbp_n_times : nat; cbp_n_trans : nat; cbp_n_newton : nat; cbp_ls_iters : nat }.
(** spgl1.py:513-531: conj(r).(r - b) is in general not real; abs is the modulus *)
Definition cbpic_metrics (b g r : cvec) (f sigma tau : R) : metrics :=
  let g_dnorm := clinf g in
  let r_norm := cnorm r in
  let gap := Cadd (inner r (vsub r b)) (ofR (tau * g_dnorm) : Cs) in
  let f_m := Rmax 1 f in
  let r_m := Rmax 1 r_norm in
  let res_error := r_norm - sigma in
  let f_error := f - sigma ^ 2 / 2 in
  Metrics g_dnorm r_norm (cabs gap / f_m) (Rabs res_error / r_m) (Rabs f_error / f_m).
Section BPIC.
  Variables (times trans : cvec -> cvec) (b : cvec) (sigma : R) (opt : spgl1_options).
  Notation project := cproject.
  (** spgl1.py:550-559 *)
  Definition cupdate_xrgf (x : cvec) (tau : R) : cvec * cvec * cvec * R :=
    let x := project x tau in
    let r := vsub b (times x) in
    let g := vopp (trans r) in
    (x, r, g, cobj_val r).
  (** spgl1.py:575-609 *)
  Definition cbp_init (x0 : cvec) : option cbp_state :=
    let tau := cl1 x0 in
    let '(x, r, g, f) := cupdate_xrgf x0 tau in
    let m := cbpic_metrics b g r f sigma tau in
    match newton_tau tau (mt_r_norm m) sigma (mt_g_dnorm m) with
    | None => None
    | Some tau =>
      let d := vsub (project (vsub x g) 0) x in
      let alpha := first_step (go_alpha_min opt) (go_alpha_max opt) (clinf d) in
      let f_past := repeat f (go_memory opt) in
      Some (CBPState x g r f_past tau true (mt_r_norm m) (mt_r_gap m) (mt_res m) (mt_f m) alpha alpha 1 2 2 1 0)
    end.
  (** spgl1.py:611-681 *)
  Definition cbp_body (st : cbp_state) : option cbp_state :=
    let f_max := vmax (cbp_f_past st) in
    match ccurvy_line_search times b (cbp_x st) (cbp_g st) (cbp_alpha_next st) f_max (cbp_tau st) (go_gamma opt) with
    | Done l =>
      let n_times := (cbp_n_times st + ccl_iters l + 1)%nat in
      let x := ccl_x l in
      let r := ccl_r l in
      let g := vopp (trans r) in
      let n_trans := S (cbp_n_trans st) in
      let f := ccl_f l in
      let m := cbpic_metrics b g r f sigma (cbp_tau st) in
      let r_norm := mt_r_norm m in
      let f_old := (cbp_f_past st)@0 in
      let f_change := Rabs (f - f_old) in
      let tc_a := Rleb f_change (go_dec_tol opt * f) in
      let tc_b := Rleb f_change (1 / 10 * f * Rabs (r_norm - sigma)) in
      let flag_c := (tc_a && Rltb (2 * sigma) r_norm) || (tc_b && Rleb r_norm (2 * sigma)) in
      let change_tau := flag_c && negb (cbp_tau_changed st) in
      match (if change_tau then newton_tau (cbp_tau st) r_norm sigma (mt_g_dnorm m) else Some (cbp_tau st)) with
      | None => None
      | Some tau =>
        let tau_reduced := Rltb tau (cbp_tau st) in
        let '(x, r, g, f) := if tau_reduced then cupdate_xrgf x tau else (x, r, g, f) in
        let extra := if tau_reduced then 1%nat else 0%nat in
        let f_past := cbuf_push_left (cbp_f_past st) f in
        let alpha_next := cbb_step (go_alpha_min opt) (go_alpha_max opt) (vsub x (cbp_x st)) (vsub g (cbp_g st)) in
        Some (CBPState x g r f_past tau change_tau (mt_r_norm m) (mt_r_gap m) (mt_res m) (mt_f m)
                (ccl_alpha l) alpha_next (S (cbp_iterations st)) (n_times + extra) (n_trans + extra)
                (if change_tau then S (cbp_n_newton st) else cbp_n_newton st) (cbp_ls_iters st + ccl_iters l))
      end
    | _ => None
    end.
  (** spgl1.py:684-703 *)
  Definition cbp_cond (st : cbp_state) : bool :=
    let a := Rltb (Rmax (go_opt_tol opt) (cbp_r_f_error st)) (cbp_r_gap st) in
    let b' := Rltb (go_opt_tol opt) (cbp_r_res_error st) in
    let u := Rltb sigma (cbp_r_norm st) in
    let v := Rltb (go_opt_tol opt) (cbp_r_res_error st) in
    let w := Rltb (go_bp_tol opt * cnorm b) (cbp_r_norm st) in
    (((a && b') || (u && v && w)) && (cbp_iterations st <? go_max_iters opt)%nat) &&
    (cbp_n_times st + cbp_n_trans st <? go_max_matvec opt)%nat.
  (** spgl1.py:561-711 *)
  Definition csolve_bpic_from (x0 : cvec) (fuel : nat) : outcome cbp_state :=
    match cbp_init x0 with Some s => while_ cbp_cond cbp_body fuel s | None => Fail end.
  (** spgl1.py:715-724 *)
  Definition csolve_bpic (n fuel : nat) : outcome cbp_state := csolve_bpic_from (repeat ((0, 0) : Cx) n) fuel.
End BPIC.
(** spgl1.py:764-779, complex start *)
Definition csolve_bp (times trans : cvec -> cvec) (b : cvec) (opt : spgl1_options) (n fuel : nat) : outcome cbp_state :=
  csolve_bpic_from times trans b 0 opt (repeat ((0, 0) : Cx) n) fuel.
