(** Model of the LSQR solver (cr/sparse/_src/sls/lsqr.py) on real vectors in
    exact arithmetic; A is a pair (times, trans). *)
From Coq Require Import List Arith Bool Reals.
From Verif Require Import Vec RVec Loop CGModel SlsModel.
Import ListNotations.
Local Open Scope R_scope.

(** lsqr.py:67-110 *)
Record lsqr_state := LSQRState {
  lq_x : vec; lq_w : vec; lq_u : vec; lq_v : vec; lq_alpha : R; lq_beta : R;
  lq_rho_bar : R; lq_phi_bar : R; lq_z : R; lq_cs2 : R; lq_sn2 : R;
  lq_D_norm_sqr : R; lq_cum_z_sqr : R; lq_cum_psi_sqr : R; lq_A_norm : R; lq_A_cond : R;
  lq_x_norm : R; lq_r_norm : R; lq_atr_norm : R; lq_it : nat; lq_n_times : nat; lq_n_trans : nat }.
(** lax.cond(beta > 0, u / beta, u), lsqr.py:217-219, 225-227, 314-316, 325-327 *)
Definition unit_if_pos (u : vec) (beta : R) : vec := if Rltb 0 beta then rscale (/ beta) u else u.
(** lsqr.py:207-256 *)
Definition lsqr_init (A : simple_op) (b x0 : vec) : lsqr_state :=
  let r := rsub b (so_times A x0) in
  let b_norm := nrm r in
  let beta := b_norm in
  let u := unit_if_pos r beta in
  let v := so_trans A u in
  let alpha := nrm v in
  let v := unit_if_pos v alpha in
  let atr_norm0 := alpha * beta in
  LSQRState x0 v u v alpha beta alpha beta 0 (-1) 0 0 0 0 0 1 (nrm x0) b_norm atr_norm0 1 1 1.
(** lsqr.py:204, 258-302.  0/0 in the relative norms makes the comparisons
    false; in exact arithmetic 1 + q > 1 says q > 0; 1 / A_cond is infinite
    when A_cond is 0 *)
Definition lsqr_cond (A : simple_op) (b x0 : vec) (atol btol conlim : R) (max_iters : nat) (s : lsqr_state) : bool :=
  let ctol := if Reqb conlim 0 then 0 else 1 / conlim in
  let b_norm := lq_r_norm (lsqr_init A b x0) in
  let atr_norm0 := lq_atr_norm (lsqr_init A b x0) in
  if Reqb b_norm 0 || Reqb atr_norm0 0 then false else
  let more_iters := (lq_it s <? max_iters)%nat in
  let rel_r_norm := lq_r_norm s / b_norm in
  let rel_atr_norm := lq_atr_norm s / atr_norm0 in
  let inv_above t := Reqb (lq_A_cond s) 0 || Rltb t (1 / lq_A_cond s) in
  let rtol := btol + atol * lq_A_norm s * lq_x_norm s / b_norm in
  let t1 := rel_r_norm / (1 + lq_A_norm s * lq_x_norm s / b_norm) in
  more_iters && inv_above 0 && Rltb 1 (1 + rel_atr_norm) && Rltb 1 (1 + t1) &&
  inv_above ctol && Rltb atol rel_atr_norm && Rltb rtol rel_r_norm.
(** lsqr.py:304-423; a division by zero is None *)
Definition lsqr_body (A : simple_op) (damp : R) (s : lsqr_state) : option lsqr_state :=
  let u := rsub (so_times A (lq_v s)) (rscale (lq_alpha s) (lq_u s)) in
  let n_times := S (lq_n_times s) in
  let beta := nrm u in
  let u := unit_if_pos u beta in
  let A_norm := nrm [lq_A_norm s; lq_alpha s; beta; damp] in
  let v := rsub (so_trans A u) (rscale beta (lq_v s)) in
  let n_trans := S (lq_n_trans s) in
  let alpha := nrm v in
  let v := unit_if_pos v alpha in
  let rho_bar1 := nrm [lq_rho_bar s; damp] in
  match fdiv (lq_rho_bar s) rho_bar1, fdiv damp rho_bar1 with
  | Some cs1, Some sn1 =>
    let psi := sn1 * lq_phi_bar s in
    let phi_bar1 := cs1 * lq_phi_bar s in
    let rho := nrm [rho_bar1; beta] in
    match fdiv rho_bar1 rho, fdiv beta rho with
    | Some cs, Some sn =>
      let theta := sn * alpha in
      let rho_bar := - cs * alpha in
      let phi := cs * phi_bar1 in
      let phi_bar := sn * phi_bar1 in
      match fdiv phi rho, fdiv (- theta) rho with
      | Some t1, Some t2 =>
        let x := radd (lq_x s) (rscale t1 (lq_w s)) in
        let w := radd v (rscale t2 (lq_w s)) in
        let dk := rscale (/ rho) (lq_w s) in
        let D_norm_sqr := lq_D_norm_sqr s + nrm2 dk in
        let delta := lq_sn2 s * rho in
        let gamma_bar := - lq_cs2 s * rho in
        let rhs := phi - delta * lq_z s in
        match fdiv rhs gamma_bar with
        | Some z_bar =>
          let x_norm := sqrt (lq_cum_z_sqr s + z_bar ^ 2) in
          let gamma := nrm [gamma_bar; theta] in
          match fdiv gamma_bar gamma, fdiv theta gamma, fdiv rhs gamma with
          | Some cs2, Some sn2, Some z =>
            let cum_z_sqr := lq_cum_z_sqr s + z ^ 2 in
            let A_cond := A_norm * sqrt D_norm_sqr in
            let res1 := phi_bar ^ 2 in
            let cum_psi_sqr := lq_cum_psi_sqr s + psi ^ 2 in
            let r_norm := sqrt (res1 + cum_psi_sqr) in
            let atr_norm := alpha * Rabs (sn * phi) in
            Some (LSQRState x w u v alpha beta rho_bar phi_bar z cs2 sn2 D_norm_sqr cum_z_sqr cum_psi_sqr
                    A_norm A_cond x_norm r_norm atr_norm (S (lq_it s)) n_times n_trans)
          | _, _, _ => None
          end
        | None => None
        end
      | _, _ => None
      end
    | _, _ => None
    end
  | _, _ => None
  end.
(** lsqr.py:183-437; the returned fields are those of the final state *)
Definition lsqr (A : simple_op) (b x0 : vec) (damp atol btol conlim : R) (max_iters fuel : nat) : outcome lsqr_state :=
  while_ (lsqr_cond A b x0 atol btol conlim max_iters) (lsqr_body A damp) fuel (lsqr_init A b x0).
