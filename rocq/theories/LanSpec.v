(** Vocabulary for bidiagonalisations. *)
From Coq Require Import List Arith Reals.
From Verif Require Import Vec RVec Loop BsblModel SubspSpec LanModel.
Local Open Scope R_scope.

(** [times : R^n -> R^m] and [trans : R^m -> R^n] are adjoint; this makes both
    of them linear. *)
Definition adjoint_pair (m n : nat) (times trans : (nat -> R) -> (nat -> R)) : Prop :=
  forall x y, ip m (times x) y = ip n x (trans y).

(** A v_i = alpha_i u_i + beta_{i+1} u_{i+1} for i + 1 < j and
    A^T u_i = alpha_i v_i + beta_i v_{i-1} (the second term only for i > 0)
    for i < j. *)
Definition bidiagonalises (m n : nat) (times trans : (nat -> R) -> (nat -> R))
    (U V : nat -> nat -> R) (alpha beta : nat -> R) (j : nat) : Prop :=
  (forall i, (i + 1 < j)%nat -> forall l, (l < m)%nat ->
     times (column V i) l = alpha i * U l i + beta (i + 1)%nat * U l (i + 1)%nat) /\
  (forall i, (i < j)%nat -> forall l, (l < n)%nat ->
     trans (column U i) l =
     alpha i * V l i + match i with O => 0 | S i' => beta i * V l i' end).

(** B q and B^T w for the j x j lower bidiagonal B with diagonal alpha and
    subdiagonal beta_1, ..., beta_{j-1} *)
Definition bidiag_mv (alpha beta q : nat -> R) : nat -> R :=
  fun i => alpha i * q i + match i with O => 0 | S i' => beta i * q i' end.
Definition bidiag_tmv (j : nat) (alpha beta w : nat -> R) : nat -> R :=
  fun i => alpha i * w i + (if Nat.ltb (i + 1) j then beta (i + 1)%nat * w (i + 1)%nat else 0).

(** The breakdown tests of a run are exact: a vector counts as negligible only
    if it is zero.  [t] is the number of iterations. *)
Section Exact.
  Variables (m n k : nat) (times trans : fvec -> fvec) (pol : policy) (draw_p draw_r : nat -> fvec).
  Definition sharp_init (p0 : fvec) : Prop :=
    normf m (init_p m n times trans pol p0) < tiny_p pol 0 <->
    normf m (init_p m n times trans pol p0) = 0.
  Definition sharp (st : lan_state) : Prop :=
    (normf n (cand_r n k trans pol st) < tiny_r pol (ls_iterations st) <->
     normf n (cand_r n k trans pol st) = 0) /\
    forall r a, final_r n k trans pol draw_r st = Some (r, a) ->
      (normf m (cand_p m k times pol st (safe_div r a) a) < tiny_p pol (ls_iterations st) <->
       normf m (cand_p m k times pol st (safe_div r a) a) = 0).
  Definition exact_breakdowns (t : nat) (p0 : fvec) : Prop :=
    sharp_init p0 /\
    forall s st, (s < t)%nat -> lanbpro m n k times trans pol draw_p draw_r s p0 = Some st -> sharp st.
End Exact.
