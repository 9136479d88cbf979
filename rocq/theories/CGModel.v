(** Model of the conjugate gradient solvers (opt/cg.py, opt/pcg.py) in exact
    real arithmetic.  An iteration that divides by zero, which would put
    infinities or NaN in the state, is [None]. *)
From Coq Require Import List Arith Bool Reals.
From Verif Require Import Vec RVec RMat Loop.
Import ListNotations.
Local Open Scope R_scope.

(** a / b, None when b = 0 *)
Definition fdiv (a b : R) : option R := if Reqb b 0 then None else Some (a / b).

(** cg.py:21-31 *)
Record cg_state := CGState { cg_x : vec; cg_r : vec; cg_p : vec; cg_rn2 : R; cg_it : nat }.
(** cg.py:38-43; max_iters None is A.shape[0] *)
Definition cg_limit (A : mat) (max_iters : option nat) : nat :=
  match max_iters with None => length A | Some k => k end.
Definition cg_max_rn2 (b : vec) (rtol : R) : R := rdot b b * (rtol * rtol).
(** cg.py:45-54 *)
Definition cg_init (A : mat) (b x_0 : vec) : cg_state :=
  let r := rsub b (mv A x_0) in
  let rn2 := rdot r r in
  let p := r in
  CGState x_0 r p rn2 0.
(** cg.py:56-77 *)
Definition cg_iteration (A : mat) (s : cg_state) : option cg_state :=
  let p := cg_p s in
  let Ap := mv A p in
  match fdiv (cg_rn2 s) (rdot p Ap) with
  | None => None
  | Some alpha =>
    let x := radd (cg_x s) (rscale alpha p) in
    let r := rsub (cg_r s) (rscale alpha Ap) in
    let rho_1 := rdot r r in
    let rho_2 := cg_rn2 s in
    match fdiv rho_1 rho_2 with
    | None => None
    | Some beta =>
      let p := radd r (rscale beta p) in
      Some (CGState x r p rho_1 (S (cg_it s)))
    end
  end.
(** cg.py:79-85 *)
Definition cg_cond (max_rn2 : R) (max_iters : nat) (s : cg_state) : bool :=
  let a := Rltb max_rn2 (cg_rn2 s) in
  let b := (cg_it s <? max_iters)%nat in
  a && b.
(** cg.py:33-88 *)
Definition cg_solve_from (A : mat) (b x_0 : vec) (max_iters : option nat) (rtol : R) (fuel : nat) : outcome cg_state :=
  while_ (cg_cond (cg_max_rn2 b rtol) (cg_limit A max_iters)) (cg_iteration A) fuel (cg_init A b x_0).
(** cg.py:94-98 *)
Definition cg_solve (A : mat) (b : vec) (max_iters : option nat) (rtol : R) (fuel : nat) : outcome cg_state :=
  cg_solve_from A b (rzero (length A)) max_iters rtol fuel.

(** pcg.py:25-35 *)
Record pcg_state := PCGState { pcg_x : vec; pcg_r : vec; pcg_p : vec; pcg_gamma : R; pcg_it : nat }.
(** pcg.py:42-43 *)
Definition pcg_max_gamma (b : vec) (tol atol : R) : R := Rmax (tol * tol * rdot b b) (atol * atol).
(** pcg.py:47-56; A and M are functions *)
Definition pcg_init (A M : vec -> vec) (b x0 : vec) : pcg_state :=
  let r0 := rsub b (A x0) in
  let z0 := M r0 in
  let p0 := z0 in
  let gamma := rdot r0 z0 in
  PCGState x0 r0 p0 gamma 1.
(** pcg.py:58-80 *)
Definition pcg_body (A M : vec -> vec) (s : pcg_state) : option pcg_state :=
  let p := pcg_p s in
  let Ap := A p in
  match fdiv (pcg_gamma s) (rdot p Ap) with
  | None => None
  | Some alpha =>
    let x := radd (pcg_x s) (rscale alpha p) in
    let r := rsub (pcg_r s) (rscale alpha Ap) in
    let z := M r in
    let gamma := rdot r z in
    match fdiv gamma (pcg_gamma s) with
    | None => None
    | Some beta =>
      let p := radd z (rscale beta p) in
      Some (PCGState x r p gamma (S (pcg_it s)))
    end
  end.
(** pcg.py:82-89; [m_is_identity] is the test `M is _identity` *)
Definition pcg_cond (m_is_identity : bool) (max_gamma : R) (max_iters : nat) (s : pcg_state) : bool :=
  let r := pcg_r s in
  let gamma := if m_is_identity then pcg_gamma s else rdot r r in
  Rltb max_gamma gamma && (pcg_it s <? max_iters)%nat.
(** pcg.py:37-95; M None is the default _identity (21-22) *)
Definition pcg_M (M : option (vec -> vec)) : vec -> vec := match M with None => fun x => x | Some M => M end.
Definition pcg_is_id (M : option (vec -> vec)) : bool := match M with None => true | Some _ => false end.
Definition pcg_solve_from (A : vec -> vec) (b x0 : vec) (max_iters : nat) (tol atol : R)
    (M : option (vec -> vec)) (fuel : nat) : outcome pcg_state :=
  while_ (pcg_cond (pcg_is_id M) (pcg_max_gamma b tol atol) max_iters) (pcg_body A (pcg_M M)) fuel
         (pcg_init A (pcg_M M) b x0).
(** pcg.py:100-104 *)
Definition pcg_solve (A : vec -> vec) (b : vec) (max_iters : nat) (tol atol : R)
    (M : option (vec -> vec)) (fuel : nat) : outcome pcg_state :=
  pcg_solve_from A b (rzero (length b)) max_iters tol atol M fuel.
