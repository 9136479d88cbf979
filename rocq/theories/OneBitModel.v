(** One bit compressive sensing: cr/sparse/_src/cs/cs1bit, on real data in exact arithmetic.
    The sensing matrix is a dictionary (r |-> Phi^T r, i |-> i-th column). *)
From Coq Require Import List Arith Bool Reals.
From Verif Require Import Vec RVec Loop OptModel SortedL1Model SelModel PursuitModel SolverSpec.
Import ListNotations.
Local Open Scope R_scope.

(** Phi @ x *)
Definition phi_times (D : dictionary) (m : nat) (x : vec) : vec := synth D m (seq 0 (d_n D)) x.
(** util.py:17-22 *)
Definition measure_1bit (D : dictionary) (m : nat) (x : vec) : vec := map sign (phi_times D m x).

(** biht.py:28-40 *)
Record biht_state := BIHTState { bi_x : vec; bi_I : list nat; bi_r : vec; bi_mismatched : nat; bi_it : nat }.
(** jnp.sum(r != 0) *)
Definition count_nonzero (r : vec) : nat := length (filter (fun a => negb (Reqb a 0)) r).
(** the fields computed from x_I, I: biht.py:107-114, 128-139 *)
Definition biht_make (D : dictionary) (y : vec) (J : list nat) (x : vec) (it : nat) : biht_state :=
  let y_int := synth D (length y) J x in
  let y_hat := map sign y_int in
  let r := rsub y y_hat in
  BIHTState x J r (count_nonzero r) it.
(** biht.py:101-114 *)
Definition biht_init (D : dictionary) (y : vec) (K : nat) : biht_state := biht_make D y (seq 0 K) (rzero K) 0.
(** biht.py:116-139 *)
Definition biht_body (D : dictionary) (y : vec) (K : nat) (tau : R) (s : biht_state) : option biht_state :=
  let h := d_trans D (bi_r s) in
  let x := scatter (d_n D) (bi_I s) (bi_x s) in
  let x := radd x (rscale (tau / 2) h) in
  let (J, x_J) := hard_threshold x K in
  Some (biht_make D y J x_J (S (bi_it s))).
(** biht.py:141-148 *)
Definition biht_cond (max_iters : nat) (s : biht_state) : bool := (0 <? bi_mismatched s)%nat && (bi_it s <? max_iters)%nat.
(** biht.py:43-151 *)
Definition biht (D : dictionary) (y : vec) (K : nat) (tau : R) (max_iters fuel : nat) : outcome biht_state :=
  while_ (biht_cond max_iters) (biht_body D y K tau) fuel (biht_init D y K).

(** rfp.py:66-72 *)
Record rfp_state := RFPState { rf_x : vec; rf_x_prev : vec; rf_it : nat }.
(** rfp.py:92-97: the entries of the wrong bits *)
Definition rfp_problems (y measurement : vec) : vec := map (fun c => if Rleb c 0 then - c else 0) (rmul y measurement).
(** rfp.py:86-111; None when the shrunk vector is zero (0/0 in the program) *)
Definition rfp_body (D : dictionary) (y : vec) (delta tau : R) (s : rfp_state) : option rfp_state :=
  let measurement := phi_times D (length y) (rf_x s) in
  let problems := rmul y (rfp_problems y measurement) in
  let f_bar := d_trans D problems in
  let f_tilde := rsub f_bar (rscale (rdot f_bar (rf_x s)) (rf_x s)) in
  let h := rsub (rf_x s) (rscale delta f_tilde) in
  let u := shrink h tau in
  if Reqb (nrm u) 0 then None else Some (RFPState (rscale (/ nrm u) u) (rf_x s) (S (rf_it s))).
(** rfp.py:82-84, 113-127; the condition returns before the test on the change of x *)
Definition rfp_inner (D : dictionary) (y : vec) (delta tau : R) (inner_iters : nat) (x0 : vec) (fuel : nat) : outcome rfp_state :=
  while_ (fun s => (rf_it s <? inner_iters)%nat) (rfp_body D y delta tau) fuel (RFPState x0 (rzero (length x0)) 0).
(** rfp.py:77-81, 129-133.  lambda_ grows but tau, computed once, is what the steps use.  For
    outer_iters = 0 the program raises (state unbound): Fail *)
Fixpoint rfp_outer (D : dictionary) (y : vec) (delta tau lambda : R) (inner_iters outer_iters : nat) (x0 : vec) (last : outcome rfp_state) : outcome rfp_state :=
  match outer_iters with
  | O => last
  | S k => match rfp_inner D y delta tau inner_iters x0 inner_iters with
           | Done s => rfp_outer D y delta tau (lambda * (15 / 10)) inner_iters k (rf_x s) (Done s)
           | o => o
           end
  end.
Definition rfp (D : dictionary) (y x0 : vec) (lambda delta : R) (inner_iters outer_iters : nat) : outcome rfp_state :=
  rfp_outer D y delta (delta / lambda) lambda inner_iters outer_iters x0 Fail.
