(** YALL1, alternating direction method for l1 problems: cr/sparse/_src/cvx/adm/yall1.py,
    on real vectors in exact arithmetic.  The operator is given by its functions times and
    trans.  The three solvers solve_bp (89-199), solve_l1_l2 (204-323) and solve_l1_l2con
    (330-455) differ only in the y update, the objectives and the loop condition; the model
    shares the rest of their text and cites all three.  A division by zero inside an
    iteration (NaN in the program) ends the model run with Fail. *)
From Coq Require Import List Arith Bool Reals.
From Verif Require Import Vec RVec Loop XReal.
Import ListNotations.
Local Open Scope R_scope.

(** which solver: yall1.py:89, 204 (rho), 330 (delta) *)
Inductive yall_problem := BP | L1L2 (rho : R) | L1L2con (delta : R).
(** yall1.py:38-58 *)
Record yall_state := YallState { ya_x : vec; ya_x_prev : vec; ya_z : vec; ya_rp : vec; ya_rd : vec;
  ya_primal : R; ya_dual : R; ya_iterations : nat; ya_n_times : nat; ya_n_trans : nat }.
(** RecoveryFullSolution, yall1.py:84-87, 544-547 *)
Record yall_solution := YallSolution { ys_x : vec; ys_r : vec; ys_iterations : nat; ys_n_times : nat; ys_n_trans : nat }.

(** yall1.py:29-32; 0/0 when both w_i and z_i are 0 *)
Definition project_to_box (z w : vec) : option vec :=
  if forallb (fun i => negb (Reqb (Rmax (w@i) (Rabs (z@i))) 0)) (seq 0 (length z))
  then Some (tab (length z) (fun i => z@i * (w@i / Rmax (w@i) (Rabs (z@i))))) else None.
(** yall1.py:34-35 *)
Definition project_to_real_upper_limit (z w : vec) : vec := tab (length z) (fun i => Rmin (w@i) (z@i)).

Section Yall.
  Variables (times trans : vec -> vec) (b w : vec) (nonneg : bool) (gamma tolerance : R) (max_iters : nat).
  Variable problem : yall_problem.
  (** yall1.py:97, 212, 338 *)
  Definition ya_mu : R := nrm1 b / INR (length b).
  (** the y update given times(z - x/mu) + b/mu: yall1.py:119; 241-242; 365-368.  For y_norm = 0
      the program computes max(0, 1 - inf) * 0 = 0 *)
  Definition y_step (q : vec) : vec :=
    match problem with
    | BP => q
    | L1L2 rho => rscale (/ (rho / ya_mu + 1)) q
    | L1L2con delta => if Reqb (nrm q) 0 then rscale 0 q else rscale (Rmax 0 (1 - delta / ya_mu / nrm q)) q
    end.
  (** yall1.py:107, 138; 228, 269; 353, 387 *)
  Definition ya_primal_objective (x rp : vec) : R :=
    match problem with
    | L1L2 rho => nrm1 (rmul w x) + 5 / 10 / rho * rdot rp rp
    | _ => nrm1 (rmul w x)
    end.
  (** yall1.py:140; 266, 272; 389 *)
  Definition ya_dual_objective (y : vec) : R :=
    match problem with
    | BP => rdot b y
    | L1L2 rho => rdot b y - 5 / 10 * rho * rdot y y
    | L1L2con delta => rdot b y - delta * nrm y
    end.
  (** yall1.py:102-114; 220-236; 348-360 *)
  Definition ya_init (x0 z0 : vec) : yall_state :=
    let rp := rsub b (times x0) in
    YallState x0 (rzero (length x0)) z0 rp (ropp (trans b)) (ya_primal_objective x0 rp) 0 0 1 1.
  (** yall1.py:116-146; 238-278; 362-402 *)
  Definition ya_iteration (s : yall_state) : option yall_state :=
    if Reqb ya_mu 0 then None else
    let x_by_mu := rscale (/ ya_mu) (ya_x s) in
    let y := y_step (radd (times (rsub (ya_z s) x_by_mu)) (rscale (/ ya_mu) b)) in
    let Aty := trans y in
    let z := radd Aty x_by_mu in
    match (if nonneg then Some (project_to_real_upper_limit z w) else project_to_box z w) with
    | None => None
    | Some z =>
      let rd := rsub z Aty in
      let x := rsub (ya_x s) (rscale (gamma * ya_mu) rd) in
      let rp := rsub b (times x) in
      Some (YallState x (ya_x s) z rp rd (ya_primal_objective x rp) (ya_dual_objective y)
              (S (ya_iterations s)) (ya_n_times s + 1 + 1) (ya_n_trans s + 1))
    end.
  (** yall1.py:148-150; 280-282; 404-406 *)
  Definition ya_double (s : yall_state) : option yall_state :=
    match ya_iteration s with None => None | Some s => ya_iteration s end.
  (** the tests of yall1.py:158-181; 290-307; 414-437 *)
  Definition x_change (s : yall_state) : xr := xdiv (nrm (rsub (ya_x s) (ya_x_prev s))) (nrm (ya_x s)).
  Definition rel_rd (s : yall_state) : xr := xdiv (nrm (ya_rd s)) (nrm (ya_z s)).
  Definition relative_gap (s : yall_state) : xr := xdiv (Rabs (ya_dual s - ya_primal s)) (ya_primal s).
  (** yall1.py:152-193; 284-317; 408-449 *)
  Definition ya_cond (s : yall_state) : bool :=
    let more_iters := (ya_iterations s <? max_iters)%nat in
    let gap_or_rd := xgtb (relative_gap s) tolerance || xgtb (rel_rd s) tolerance in
    match problem with
    | BP => (gap_or_rd || Rleb (tolerance * nrm b) (nrm (ya_rp s))) && more_iters && xgtb (x_change s) (tolerance * (1 - 1 / 10))
    | L1L2 _ => more_iters && xgtb (x_change s) (tolerance * (1 - 1 / 10)) && gap_or_rd
    | L1L2con delta => (gap_or_rd || Rltb (delta * (1 + tolerance)) (nrm (ya_rp s))) && more_iters && xgtb (x_change s) tolerance
    end.
  (** yall1.py:198; 322; 454 *)
  Definition ya_run (x0 z0 : vec) (fuel : nat) : outcome yall_state := while_ ya_cond ya_double fuel (ya_init x0 z0).
End Yall.

(** yall1.py:462-547 and its helpers bp_setup (61-75), finalize (77-87): W is the optional
    sparsifying basis given by its functions (A is then A @ W), rho and delta are 0 when absent *)
Definition with_basis (times trans : vec -> vec) (W : option ((vec -> vec) * (vec -> vec))) : (vec -> vec) * (vec -> vec) :=
  match W with None => (times, trans) | Some (wt, wa) => (fun x => times (wt x), fun y => wa (trans y)) end.
Definition yall1_zero_solution (trans : vec -> vec) (b : vec) (rho delta : R) : bool :=
  let zero_solution := if Rltb 0 rho then Rleb (nrminf (trans b)) rho else false in
  if Rltb 0 delta then Rleb (nrm b) delta else zero_solution.
Definition yall1_solve (times trans : vec -> vec) (b : vec) (x0 z0 : option vec) (W : option ((vec -> vec) * (vec -> vec)))
    (weights : option vec) (nonneg : bool) (rho delta gamma tolerance : R) (max_iters fuel : nat) : outcome yall_solution :=
  let (times, trans) := with_basis times trans W in
  let Atb := trans b in
  let n := length Atb in
  let b_max := nrminf b in
  if yall1_zero_solution trans b rho delta then Done (YallSolution (rzero n) b 0 0 1) else
  if Reqb b_max 0 then Fail else
  let x0 := match x0 with None => rscale (/ b_max) Atb | Some x0 => x0 end in
  let z0 := match z0 with None => rzero n | Some z0 => z0 end in
  let w := match weights with None => repeat 1 n | Some ws => rmul (repeat 1 n) ws end in
  let b := rscale (/ b_max) b in
  let problem := if Rltb 0 rho then L1L2 (rho / b_max) else if Rltb 0 delta then L1L2con (delta / b_max) else BP in
  match ya_run times trans b w nonneg gamma tolerance max_iters problem x0 z0 fuel with
  | Done s =>
    let x := if nonneg then map (Rmax 0) (ya_x s) else ya_x s in
    let x := match W with None => x | Some (wt, _) => wt x end in
    Done (YallSolution (rscale b_max x) (rscale b_max (ya_rp s)) (ya_iterations s) (ya_n_times s + 0) (ya_n_trans s + 1))
  | Fail => Fail
  | Fuel => Fuel
  end.
