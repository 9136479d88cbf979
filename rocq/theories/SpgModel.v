(** Spectral projected gradient: cr/sparse/_src/opt/spg.py, on real vectors in
    exact arithmetic.  The smooth function is given by [func] and [grad]
    (grad_val computes both, spg.py:159, 171), the projection by [proj]. *)
From Coq Require Import List Arith Bool Reals.
From Verif Require Import Vec RVec Loop SelModel.
Import ListNotations.
Local Open Scope R_scope.

(** spg.py:38-45; EPS is the single precision machine epsilon *)
Definition SPG_EPS : R := / 2 ^ 23.
Definition L_MIN : R := / 10 ^ 10.
Definition L_MAX : R := 10 ^ 10.
Definition SIGMA_1 : R := 1 / 10.
Definition SIGMA_2 : R := 9 / 10.

(** spg.py:52-64 *)
Record spg_options := SPGOptions { so_progress_tol : R; so_optim_tol : R; so_suff_dec : R;
  so_max_iters : nat; so_max_f_calls : nat; so_memory : nat }.
(** spg.py:67-84 *)
Record spg_state := SPGState { sg_x : vec; sg_g : vec; sg_delta : R; sg_x_prev : vec; sg_g_prev : vec;
  sg_f_past : vec; sg_iterations : nat; sg_proj_calls : nat; sg_f_calls : nat; sg_g_calls : nat }.
(** spg.py:103-108 *)
Record ls_state := LSState { ls_alpha : R; ls_x : vec; ls_f : R; ls_lim : R; ls_calls : nat }.

(** cr.nimble cbuf_push_left: the new value first, the oldest dropped *)
Definition cbuf_push_left (buf : vec) (v : R) : vec := match buf with [] => [] | _ => v :: removelast buf end.

Section SPG.
  Variables (func : vec -> R) (grad proj : vec -> vec).
  (** spg.py:110-145, line_search *)
  Section LineSearch.
    Variables (x d : vec) (f_max f_last gamma delta : R).
    (** spg.py:113-118 *)
    Definition ls_init : ls_state :=
      let x_new := radd x d in
      LSState 1 x_new (func x_new) (f_max + gamma * delta) 1.
    (** spg.py:120-134; alpha_tmp is infinite or NaN for a zero denominator, the
        comparison is then false *)
    Definition ls_next (s : ls_state) : option ls_state :=
      let alpha := ls_alpha s in
      let denom := ls_f s - f_last - alpha * delta in
      let alpha_tmp := - (1 / 2) * (alpha ^ 2) / denom in
      let alpha' := if negb (Reqb denom 0) && (Rleb SIGMA_1 alpha_tmp && Rleb alpha_tmp (SIGMA_2 * alpha))
                    then alpha_tmp else alpha / 2 in
      let x_new := radd x (rscale alpha' d) in
      Some (LSState alpha' x_new (func x_new) (f_max + alpha' * (gamma * delta)) (S (ls_calls s))).
    (** spg.py:136-139 *)
    Definition ls_cond (s : ls_state) : bool := Rltb (ls_lim s) (ls_f s) && (ls_calls s <? 50)%nat.
    (** spg.py:141-145; f_calls starts at 1 and stays below 50 in the loop *)
    Definition line_search : outcome ls_state := while_ ls_cond ls_next 49 ls_init.
  End LineSearch.

  Variable opt : spg_options.
  (** spg.py:157-180; min(1, 1/t1) is 1 for t1 = 0 *)
  Definition spg_init (x0 : vec) : spg_state :=
    let x := proj x0 in
    let g := grad x in
    let d := rsub (proj (rsub x g)) x in
    let delta := rdot g d in
    let t1 := nrm1 g in
    let t := if Reqb t1 0 then 1 else Rmin 1 (1 / t1) in
    let x' := radd x (rscale t d) in
    let g' := grad x' in
    let f' := func x' in
    SPGState x' g' delta x g (repeat f' (so_memory opt)) 1 1 2 2.
  (** spg.py:187-191; the quotient is infinite for a zero denominator (s is then
      nonzero), and replaced by 1 *)
  Definition spg_lambda (s y : vec) : R :=
    let den := rdot s y + SPG_EPS in
    let lambd := rdot s s / den in
    if Reqb den 0 then 1 else
    let lambd := if Rltb lambd L_MIN then 1 else lambd in
    if Rltb L_MAX lambd then 1 else lambd.
  (** spg.py:182-211 *)
  Definition spg_step (st : spg_state) : option spg_state :=
    let x := sg_x st in
    let g := sg_g st in
    let y := rsub g (sg_g_prev st) in
    let s := rsub x (sg_x_prev st) in
    let lambd := spg_lambda s y in
    let d := rsub (proj (rsub x (rscale lambd g))) x in
    let delta := rdot g d in
    let f_past := sg_f_past st in
    let f_max := vmax f_past in
    let f_last := f_past@0 in
    match line_search x d f_max f_last (so_suff_dec opt) delta with
    | Done l =>
      let x_new := ls_x l in
      let g_new := grad x_new in
      Some (SPGState x_new g_new delta x g (cbuf_push_left f_past (ls_f l)) (S (sg_iterations st))
              (S (sg_proj_calls st)) (sg_f_calls st + ls_calls l) (S (sg_g_calls st)))
    | _ => None
    end.
  (** spg.py:213-225 *)
  Definition spg_cond (st : spg_state) : bool :=
    let opt_cond := nrminf (rsub (proj (rsub (sg_x st) (sg_g st))) (sg_x st)) in
    (sg_iterations st <? so_max_iters opt)%nat &&
    Rleb (sg_delta st) (- so_progress_tol opt) &&
    Rleb (so_optim_tol opt) opt_cond &&
    (sg_f_calls st <? so_max_f_calls opt)%nat.
  (** spg.py:148-231 *)
  Definition spg_solve_from (x0 : vec) (fuel : nat) : outcome spg_state :=
    while_ spg_cond spg_step fuel (spg_init x0).
End SPG.
