(** FOCUSS, iteratively reweighted least squares for y = Phi x
    (src/cr/sparse/_src/cvx/focuss.py).

    Arrays are functions of their indices, Phi has m rows and n columns.
    Arithmetic is exact.  jnp.linalg.solve is the argument [solve] (for m x m
    systems); [None] is a result with NaN or infinite entries.  The
    properties I and x_I of the state (energy thresholds of cr.nimble) and
    the printing method are not modelled. *)
From Coq Require Import List Arith Bool Reals.
From Verif Require Import Vec RVec Loop BsblModel.
Local Open Scope R_scope.

(** jnp.abs(x) ** p for one entry (focuss.py:34, 111): 0 ** p is 0, 1 or
    infinite according to the sign of p. *)
Definition abs_pow (x p : R) : option R :=
  if Reqb x 0 then
    if Rltb 0 p then Some 0 else if Reqb p 0 then Some 1 else None
  else Some (Rpower (Rabs x) p).

(** The weight of entry i; 0 stands for an infinite one, which
    [reweighted_step] rejects (focuss.py:34, 111). *)
Definition weight (p : R) (x : fvec) : fvec :=
  fun i => match abs_pow (x i) p with Some w => w | None => 0 end.

(** FocussState, focuss.py:41-51. *)
Record focuss_state := FocussState {
  fo_x : fvec;
  fo_r : fvec;
  fo_r_norm_sqr : R;
  fo_iterations : nat
}.

Section Focuss.
  Variables (m n : nat) (Phi : fmat) (y : fvec).
  Variable solve : fmat -> fvec -> option fvec.

  (** Model of step_noiseless, focuss.py:24-39, which body_func repeats in
      lines 111-115. *)
  Definition step_noiseless (p : R) (x : fvec) : option fvec :=
    if forallb (fun i => match abs_pow (x i) p with
                         | Some _ => true | None => false end) (seq 0 n)
    then
      let xp := weight p x in
      let xp2 := fun i => xp i * xp i in
      let A := fun i j => xp2 i * ftr Phi i j in
      let G := fmul n Phi A in
      match solve G y with
      | Some z => Some (fmv m A z)
      | None => None
      end
    else None.

  (** The state for a given vector (focuss.py:102-107, 116-120). *)
  Definition focuss_at (x : fvec) (it : nat) : focuss_state :=
    let r := fun i => y i - fmv n Phi x i in
    FocussState x r (fsq m r) it.

  (** Model of init_func, focuss.py:98-107. *)
  Definition focuss_init : focuss_state := focuss_at (fun _ => 1) 0.

  (** Model of body_func, focuss.py:109-120. *)
  Definition focuss_body (p : R) (s : focuss_state) : option focuss_state :=
    match step_noiseless p (fo_x s) with
    | Some x => Some (focuss_at x (S (fo_iterations s)))
    | None => None
    end.

  (** Model of cond_func, focuss.py:122-125. *)
  Definition focuss_cond (max_iters : nat) (s : focuss_state) : bool :=
    Nat.ltb (fo_iterations s) max_iters.

  (** Model of matrix_solve_noiseless, focuss.py:79-130. *)
  Definition matrix_solve_noiseless (p : R) (max_iters fuel : nat)
    : outcome focuss_state :=
    while_ (focuss_cond max_iters) (focuss_body p) fuel focuss_init.
End Focuss.
