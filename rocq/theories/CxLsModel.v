(** Model of LSQR (sls/lsqr.py) and of the power iterations (sls/power.py) on complex data in exact
    arithmetic.  The norm estimate (lop/normest.py) is modelled for both scalars in LopModel3.v. *)
From Coq Require Import List Arith Bool Reals.
From Verif Require Import Scalar Vec RVec Loop LopModel3 CGModel LsqrModel CxSpec CxModel CxSpglModel CxPursuitModel.
Import ListNotations.
Local Open Scope R_scope.
(** the principal square root of a complex number, as jnp.sqrt computes it *)
Definition Csqrt (z : Cx) : Cx :=
  let a := Cabs z in
  (sqrt ((a + fst z) / 2), if Rltb (snd z) 0 then - sqrt ((a - fst z) / 2) else sqrt ((a - fst z) / 2)).

(** *** sls/lsqr.py *)
(** lsqr.py:54-58: l2norm, jnp.sqrt(jnp.abs(jnp.sum(conj(x) * x))) *)
Definition cl2norm (x : cvec) : R := sqrt (Cabs (inner x x)).
(** lsqr.py:67-110.  D_norm_sqr and A_cond start as Python floats and become complex numbers in the body;
    lax.while_loop converts such weakly typed initial values *)
Record clsqr_state := CLSQRState {
  cq_x : cvec; cq_w : cvec; cq_u : cvec; cq_v : cvec; cq_alpha : R; cq_beta : R;
  cq_rho_bar : R; cq_phi_bar : R; cq_z : R; cq_cs2 : R; cq_sn2 : R;
  cq_D_norm_sqr : Cx; cq_cum_z_sqr : R; cq_cum_psi_sqr : R; cq_A_norm : R; cq_A_cond : Cx;
  cq_x_norm : R; cq_r_norm : R; cq_atr_norm : R; cq_it : nat; cq_n_times : nat; cq_n_trans : nat }.
(** lax.cond(beta > 0, u / beta, u), lsqr.py:217-219, 225-227, 314-316, 325-327 *)
Definition cunit_if_pos (u : cvec) (beta : R) : cvec := if Rltb 0 beta then vscale (ofR (/ beta) : Cs) u else u.
(** lsqr.py:207-256 *)
Definition clsqr_init (A : csimple_op) (b x0 : cvec) : clsqr_state :=
  let r := vsub b (co_times A x0) in
  let b_norm := cl2norm r in
  let beta := b_norm in
  let u := cunit_if_pos r beta in
  let v := co_trans A u in
  let alpha := cl2norm v in
  let v := cunit_if_pos v alpha in
  let atr_norm0 := alpha * beta in
  CLSQRState x0 v u v alpha beta alpha beta 0 (-1) 0 (0, 0) 0 0 0 (1, 0) (cl2norm x0) b_norm atr_norm0 1 1 1.
(** lsqr.py:204, 258-302.  1 / A_cond is a complex number, compared lexicographically; when A_cond is 0 it is
    taken to be infinite, as in LsqrModel.v *)
Definition clsqr_cond (A : csimple_op) (b x0 : cvec) (atol btol conlim : R) (max_iters : nat) (s : clsqr_state) : bool :=
  let ctol := if Reqb conlim 0 then 0 else 1 / conlim in
  let b_norm := cq_r_norm (clsqr_init A b x0) in
  let atr_norm0 := cq_atr_norm (clsqr_init A b x0) in
  if Reqb b_norm 0 || Reqb atr_norm0 0 then false else
  let more_iters := (cq_it s <? max_iters)%nat in
  let rel_r_norm := cq_r_norm s / b_norm in
  let rel_atr_norm := cq_atr_norm s / atr_norm0 in
  let inv_above t := Reqb (Cnsq (cq_A_cond s)) 0 || Cgtb (Cdiv (1, 0) (cq_A_cond s)) (t, 0) in
  let rtol := btol + atol * cq_A_norm s * cq_x_norm s / b_norm in
  let t1 := rel_r_norm / (1 + cq_A_norm s * cq_x_norm s / b_norm) in
  more_iters && inv_above 0 && Rltb 1 (1 + rel_atr_norm) && Rltb 1 (1 + t1) &&
  inv_above ctol && Rltb atol rel_atr_norm && Rltb rtol rel_r_norm.
(** lsqr.py:304-423; a division by zero is None *)
Definition clsqr_body (A : csimple_op) (damp : R) (s : clsqr_state) : option clsqr_state :=
  let u := vsub (co_times A (cq_v s)) (vscale (ofR (cq_alpha s) : Cs) (cq_u s)) in
  let n_times := S (cq_n_times s) in
  let beta := cl2norm u in
  let u := cunit_if_pos u beta in
  let A_norm := nrm [cq_A_norm s; cq_alpha s; beta; damp] in
  let v := vsub (co_trans A u) (vscale (ofR beta : Cs) (cq_v s)) in
  let n_trans := S (cq_n_trans s) in
  let alpha := cl2norm v in
  let v := cunit_if_pos v alpha in
  let rho_bar1 := nrm [cq_rho_bar s; damp] in
  match fdiv (cq_rho_bar s) rho_bar1, fdiv damp rho_bar1 with
  | Some cs1, Some sn1 =>
    let psi := sn1 * cq_phi_bar s in
    let phi_bar1 := cs1 * cq_phi_bar s in
    let rho := nrm [rho_bar1; beta] in
    match fdiv rho_bar1 rho, fdiv beta rho with
    | Some cs, Some sn =>
      let theta := sn * alpha in
      let rho_bar := - cs * alpha in
      let phi := cs * phi_bar1 in
      let phi_bar := sn * phi_bar1 in
      match fdiv phi rho, fdiv (- theta) rho with
      | Some t1, Some t2 =>
        let x := vadd (cq_x s) (vscale (ofR t1 : Cs) (cq_w s)) in
        let w := vadd v (vscale (ofR t2 : Cs) (cq_w s)) in
        let dk := vscale (ofR (/ rho) : Cs) (cq_w s) in
        let D_norm_sqr := Cadd (cq_D_norm_sqr s) (inner dk dk) in
        let delta := cq_sn2 s * rho in
        let gamma_bar := - cq_cs2 s * rho in
        let rhs := phi - delta * cq_z s in
        match fdiv rhs gamma_bar with
        | Some z_bar =>
          let x_norm := sqrt (cq_cum_z_sqr s + z_bar ^ 2) in
          let gamma := nrm [gamma_bar; theta] in
          match fdiv gamma_bar gamma, fdiv theta gamma, fdiv rhs gamma with
          | Some cs2, Some sn2, Some z =>
            let cum_z_sqr := cq_cum_z_sqr s + z ^ 2 in
            let A_cond := Cmul (A_norm, 0) (Csqrt D_norm_sqr) in
            let res1 := phi_bar ^ 2 in
            let cum_psi_sqr := cq_cum_psi_sqr s + psi ^ 2 in
            let r_norm := sqrt (res1 + cum_psi_sqr) in
            let atr_norm := alpha * Rabs (sn * phi) in
            Some (CLSQRState x w u v alpha beta rho_bar phi_bar z cs2 sn2 D_norm_sqr cum_z_sqr cum_psi_sqr
                    A_norm A_cond x_norm r_norm atr_norm (S (cq_it s)) n_times n_trans)
          | _, _, _ => None
          end
        | None => None
        end
      | _, _ => None
      end
    | _, _ => None
    end
  | _, _ => None
  end.
(** lsqr.py:183-437; the returned fields are those of the final state *)
Definition clsqr (A : csimple_op) (b x0 : cvec) (damp atol btol conlim : R) (max_iters fuel : nat) : outcome clsqr_state :=
  while_ (clsqr_cond A b x0 atol btol conlim max_iters) (clsqr_body A damp) fuel (clsqr_init A b x0).

(** the types of x and w in the loop, for an operator of type ta, data of type tb and a start of type t0;
    lsqr.py:202: promote_arg_dtypes gives b and x0 a common type *)
Record lsqr_types := LSQRTypes { lt_x : array_type; lt_w : array_type }.
Definition lsqr_init_types (ta tb t0 : array_type) : lsqr_types :=
  let t := result_type tb t0 in LSQRTypes t (result_type ta (result_type t (result_type ta t))).
Definition lsqr_body_types (ta : array_type) (c : lsqr_types) : lsqr_types :=
  LSQRTypes (result_type (lt_x c) (lt_w c)) (result_type ta (lt_w c)).
(** lax.while_loop accepts the body when it preserves the types *)
Definition lsqr_accepts (ta tb t0 : array_type) : Prop := lsqr_body_types ta (lsqr_init_types ta tb t0) = lsqr_init_types ta tb t0.

(** *** sls/power.py *)
(** power.py:25-35; the estimates are complex numbers (their initial values are converted) *)
Record cpower_state := CPowerState { cw_v : cvec; cw_old : Cx; cw_new : Cx; cw_it : nat }.
(** power.py:37-45 *)
Record cpower_solution := CPowerSolution { cpw_v : cvec; cpw_s : Cx; cpw_it : nat }.
(** v / arr_l2norm(v), None when the norm is 0 *)
Definition cnormalize (v : cvec) : option cvec :=
  let v_norm := cnorm v in if Reqb v_norm 0 then None else Some (vscale (ofR (/ v_norm) : Cs) v).
(** power.py:73-74 *)
Definition cpower_init (b : cvec) : cpower_state := CPowerState b (- 10 ^ 20, 0) (10 ^ 20, 0) 0.
(** power.py:76-82; a division by zero as in SlsModel.v *)
Definition cpower_cond (max_iters : nat) (tol : R) (s : cpower_state) : bool :=
  let change := Csub (cw_new s) (cw_old s) in
  let not_converged := if Reqb (Cnsq (cw_old s)) 0 then negb (Reqb (Cnsq change) 0) else Rltb tol (Cabs (Cdiv change (cw_old s))) in
  (cw_it s <? max_iters)%nat && not_converged.
(** power.py:84-95 *)
Definition cpower_body (times : cvec -> cvec) (s : cpower_state) : option cpower_state :=
  match cnormalize (cw_v s) with
  | None => None
  | Some v =>
    let v_new := times v in
    let new_estimate := inner v v_new in
    Some (CPowerState v_new (cw_new s) new_estimate (S (cw_it s)))
  end.
(** power.py:49-102 *)
Definition cpower_iterations (times : cvec -> cvec) (b : cvec) (max_iters : nat) (tol : R) (fuel : nat) : outcome cpower_solution :=
  match while_ (cpower_cond max_iters tol) (cpower_body times) fuel (cpower_init b) with
  | Done s => match cnormalize (cw_v s) with
              | None => Fail
              | Some v => Done (CPowerSolution v (cw_new s) (cw_it s))
              end
  | Fail => Fail
  | Fuel => Fuel
  end.
(** the type of v in the loop, for an operator of type ta and a start of type tb *)
Definition power_accepts (ta tb : array_type) : Prop := result_type ta tb = tb.
