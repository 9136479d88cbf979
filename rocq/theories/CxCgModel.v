(** Model of the conjugate gradient solvers (opt/cg.py, opt/pcg.py) on complex data in exact
    arithmetic.  [inner] is jnp.vdot, which conjugates its first argument, [dotu] is jnp.dot or
    .T @ on vectors, which does not.  A division by zero is [None]. *)
From Coq Require Import List Arith Bool Reals.
From Verif Require Import Scalar Vec RVec Loop CxSpec.
Import ListNotations.
Local Open Scope R_scope.
(** a / b *)
Definition cdivo (a b : Cs) : option Cs := if Reqb (fst (b : Cx)) 0 && Reqb (snd (b : Cx)) 0 then None else Some (sdiv a b).
Definition rdivo (a b : R) : option R := if Reqb b 0 then None else Some (a / b).
(** a < b on complex numbers: jnp compares them lexicographically *)
Definition cltb (a b : Cs) : bool :=
  Rltb (fst (a : Cx)) (fst (b : Cx)) || Reqb (fst (a : Cx)) (fst (b : Cx)) && Rltb (snd (a : Cx)) (snd (b : Cx)).

(** pcg.py:25-35 *)
Record cpcg_state := CPcgState { cp_x : cvec; cp_r : cvec; cp_p : cvec; cp_gamma : R; cp_it : nat }.
(** pcg.py:42-43; vdot(b, b) has no imaginary part, so the maximum is one of real numbers *)
Definition cpcg_max_gamma (b : cvec) (tol atol : R) : R := Rmax (tol * tol * fst (inner b b : Cx)) (atol * atol).
(** pcg.py:47-56; jnp.dot does not conjugate, astype(float) drops the imaginary part *)
Definition cpcg_init (A M : cvec -> cvec) (b x0 : cvec) : cpcg_state :=
  let r0 := vsub b (A x0) in
  let z0 := M r0 in
  let p0 := z0 in
  let gamma := fst (dotu r0 z0 : Cx) in
  CPcgState x0 r0 p0 gamma 1.
(** pcg.py:58-80 *)
Definition cpcg_body (A M : cvec -> cvec) (s : cpcg_state) : option cpcg_state :=
  let p := cp_p s in
  let Ap := A p in
  match cdivo (ofR (cp_gamma s)) (inner p Ap) with
  | None => None
  | Some alpha =>
    let x := vadd (cp_x s) (vscale alpha p) in
    let r := vsub (cp_r s) (vscale alpha Ap) in
    let z := M r in
    let gamma := fst (inner r z : Cx) in
    match rdivo gamma (cp_gamma s) with
    | None => None
    | Some beta =>
      let p := vadd z (vscale (ofR beta : Cs) p) in
      Some (CPcgState x r p gamma (S (cp_it s)))
    end
  end.
(** pcg.py:82-89; [m_is_identity] is the test `M is _identity`; vdot(r, r) has no imaginary part *)
Definition cpcg_cond (m_is_identity : bool) (max_gamma : R) (max_iters : nat) (s : cpcg_state) : bool :=
  let r := cp_r s in
  let gamma := if m_is_identity then cp_gamma s else fst (inner r r : Cx) in
  Rltb max_gamma gamma && (cp_it s <? max_iters)%nat.
(** pcg.py:37-95; M None is the default _identity (21-22) *)
Definition cpcg_M (M : option (cvec -> cvec)) : cvec -> cvec := match M with None => fun x => x | Some M => M end.
Definition cpcg_is_id (M : option (cvec -> cvec)) : bool := match M with None => true | Some _ => false end.
Definition cpcg_solve_from (A : cvec -> cvec) (b x0 : cvec) (max_iters : nat) (tol atol : R)
    (M : option (cvec -> cvec)) (fuel : nat) : outcome cpcg_state :=
  while_ (cpcg_cond (cpcg_is_id M) (cpcg_max_gamma b tol atol) max_iters) (cpcg_body A (cpcg_M M)) fuel
         (cpcg_init A (cpcg_M M) b x0).
(** pcg.py:100-104 *)
Definition cpcg_solve (A : cvec -> cvec) (b : cvec) (max_iters : nat) (tol atol : R)
    (M : option (cvec -> cvec)) (fuel : nat) : outcome cpcg_state :=
  cpcg_solve_from A b (vzero (length b)) max_iters tol atol M fuel.

(** cg.py:21-31; the matrix is given by its product with vectors and its size *)
Record ccg_state := CCgState { cc_x : cvec; cc_r : cvec; cc_p : cvec; cc_rn2 : Cs; cc_it : nat }.
(** cg.py:38-43 *)
Definition ccg_max_rn2 (b : cvec) (rtol : R) : Cs := smul (dotu b b) (ofR (rtol * rtol)).
(** cg.py:45-54 *)
Definition ccg_init (A : cvec -> cvec) (b x_0 : cvec) : ccg_state :=
  let r := vsub b (A x_0) in
  let rn2 := dotu r r in
  let p := r in
  CCgState x_0 r p rn2 0.
(** cg.py:56-77 *)
Definition ccg_iteration (A : cvec -> cvec) (s : ccg_state) : option ccg_state :=
  let p := cc_p s in
  let Ap := A p in
  match cdivo (cc_rn2 s) (dotu p Ap) with
  | None => None
  | Some alpha =>
    let x := vadd (cc_x s) (vscale alpha p) in
    let r := vsub (cc_r s) (vscale alpha Ap) in
    let rho_1 := dotu r r in
    let rho_2 := cc_rn2 s in
    match cdivo rho_1 rho_2 with
    | None => None
    | Some beta =>
      let p := vadd r (vscale beta p) in
      Some (CCgState x r p rho_1 (S (cc_it s)))
    end
  end.
(** cg.py:79-85 *)
Definition ccg_cond (max_rn2 : Cs) (max_iters : nat) (s : ccg_state) : bool :=
  let a := cltb max_rn2 (cc_rn2 s) in
  let b := (cc_it s <? max_iters)%nat in
  a && b.
(** cg.py:33-88; [m] is A.shape[0] *)
Definition ccg_solve_from (A : cvec -> cvec) (m : nat) (b x_0 : cvec) (max_iters : option nat) (rtol : R) (fuel : nat) : outcome ccg_state :=
  while_ (ccg_cond (ccg_max_rn2 b rtol) (match max_iters with None => m | Some k => k end)) (ccg_iteration A) fuel (ccg_init A b x_0).
