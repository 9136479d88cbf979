(** Lanczos bidiagonalisation with partial reorthogonalisation
    (src/cr/sparse/_src/sls/svdpack/lanbpro.py).

    Arrays are functions of their indices, arithmetic is exact.  The operator
    is a pair of functions [times], [trans] on vectors of length n and m.

    Simplification: the recurrences mu, nu, mumax, numax, the norm estimate
    anorm and the flags b_fro, b_force_reorth, indices influence U, V, alpha,
    beta and p only through decisions: is the extended local step made, which
    columns are reorthogonalised (none, or a mask), and what is the breakdown
    threshold max(m, n) * anorm * eps.  A [policy] holds these decisions for
    every iteration; the theorems are about all policies, hence about the one
    the recurrences choose.

    vec_safe_divide_by_scalar, reorth_mgs and do_elr come from cr.nimble and
    are modelled by their meaning: division unless the divisor is zero,
    passes of modified Gram-Schmidt over the masked columns, and passes of
    projection against a single vector that accumulate the coefficients. *)
From Coq Require Import List Arith Bool Reals.
From Verif Require Import Vec RVec Loop BsblModel.
Import ListNotations.
Local Open Scope R_scope.

(** inner product and norm (jnp.linalg.norm) of vectors of length n *)
Definition dotf (n : nat) (a b : fvec) : R := rsum n (fun i => a i * b i).
Definition normf (n : nat) (a : fvec) : R := sqrt (dotf n a a).
(** X[:, c] and X.at[:, c].set(x) *)
Definition col (X : fmat) (c : nat) : fvec := fun i => X i c.
Definition set_col (X : fmat) (c : nat) (x : fvec) : fmat :=
  fun i j => if Nat.eqb j c then x i else X i j.
(** a.at[j].set(x) *)
Definition set_at (a : fvec) (j : nat) (x : R) : fvec :=
  fun i => if Nat.eqb i j then x else a i.

(** cnb.vec_safe_divide_by_scalar, used in lanbpro.py:71, 82, 145, 242 *)
Definition safe_div (x : fvec) (a : R) : fvec :=
  if Reqb a 0 then x else fun i => x i / a.

(** x - <c, x> c *)
Definition proj_out (n : nat) (c x : fvec) : fvec := fun i => x i - dotf n c x * c i.

(** One pass of modified Gram-Schmidt over the masked ones among the k
    columns of X, and [passes] of them (reorth_mgs, lanbpro.py:224, 310). *)
Definition mgs_pass (n k : nat) (X : fmat) (mask : nat -> bool) (x : fvec) : fvec :=
  fold_left (fun x c => if mask c then proj_out n (col X c) x else x) (seq 0 k) x.
Fixpoint reorth_mgs (passes n k : nat) (X : fmat) (mask : nat -> bool) (x : fvec) : fvec :=
  match passes with
  | O => x
  | S q => reorth_mgs q n k X mask (mgs_pass n k X mask x)
  end.

(** do_elr, lanbpro.py:88, 172, 252: the vector and the sum of the removed
    coefficients. *)
Fixpoint do_elr (passes n : nat) (c x : fvec) (s : R) : fvec * R :=
  match passes with
  | O => (x, s)
  | S q => do_elr q n c (proj_out n c x) (s + dotf n c x)
  end.

(** The decisions of a run, per iteration j: number of passes of the local
    step (0: not made), mask of the reorthogonalised columns and number of
    passes (None: not made), thresholds of lanbpro.py:90, 233, 324. *)
Record policy := {
  elr_r : nat -> nat; elr_p : nat -> nat;
  mask_r : nat -> option (nat -> bool); mask_p : nat -> option (nat -> bool);
  passes : nat;
  tiny_r : nat -> R; tiny_p : nat -> R
}.

(** LanBProState, the fields that make up the result; [ls_nan]: p consists
    of NaN (then [ls_p] is zero by convention). *)
Record lan_state := {
  ls_p : fvec; ls_nan : bool; ls_U : fmat; ls_V : fmat; ls_alpha : fvec; ls_beta : fvec;
  ls_iterations : nat
}.

Section Lan.
  Variables (m n k : nat).
  Variables (times trans : fvec -> fvec).
  Variable pol : policy.
  (** the random vectors of new_p_vec (length n) and new_r_vec (length m),
      one per key: lanbpro.py:379, 414 *)
  Variables (draw_p draw_r : nat -> fvec).

  (** Model of new_p_vec and new_r_vec, lanbpro.py:370-431: the first j
      columns of X are projected out of [op] applied to a random vector, for
      at most ten vectors, until the norm is at least 1e-10.  [None]: the
      last division is 0/0. *)
  Fixpoint new_vec_loop (left len : nat) (op : fvec -> fvec) (draw : nat -> fvec)
      (X : fmat) (j i : nat) : fvec :=
    let x := reorth_mgs (S (passes pol)) len k X (fun c => Nat.ltb c j) (op (draw i)) in
    match left with
    | O => x
    | S l => if Rltb (normf len x) (/ 10 ^ 10)
             then new_vec_loop l len op draw X j (S i) else x
    end.
  Definition new_vec (len : nat) (op : fvec -> fvec) (draw : nat -> fvec)
      (X : fmat) (j : nat) : option fvec :=
    let x := new_vec_loop 9 len op draw X j 0 in
    if Reqb (normf len x) 0 then None else Some (fun i => x i / normf len x).

  (** lanbpro.py:64-88: everything before the first breakdown test. *)
  Definition init_u (p0 : fvec) : fvec := safe_div p0 (normf m p0).
  Definition init_r (p0 : fvec) : fvec := trans (init_u p0).
  Definition init_v (p0 : fvec) : fvec := safe_div (init_r p0) (normf n (init_r p0)).
  Definition init_p (p0 : fvec) : fvec :=
    let p := fun i => times (init_v p0) i - normf n (init_r p0) * init_u p0 i in
    fst (do_elr (passes pol) m (init_u p0) p 0).

  (** p, its NaN flag and its norm after the breakdown test, lanbpro.py:89-95
      and 323-331 (j columns of U exist) *)
  Definition final_p (U : fmat) (j : nat) (tiny : R) (p : fvec) : fvec * bool * R :=
    if Rltb (normf m p) tiny then
      match new_vec m times draw_p U j with
      | None => (fun _ => 0, true, 0)
      | Some q => (q, false, 0)
      end
    else (p, false, normf m p).

  (** Model of lanbpro_init, lanbpro.py:43-115. *)
  Definition lanbpro_init (p0 : fvec) : lan_state :=
    let U := set_col (fun _ _ => 0) 0 (init_u p0) in
    let V := set_col (fun _ _ => 0) 0 (init_v p0) in
    let alpha := set_at (fun _ => 0) 0 (normf n (init_r p0)) in
    let beta := set_at (fun _ => 0) 0 (normf m p0) in
    let '(p, nan, p_norm) := final_p U 1 (tiny_p pol 0) (init_p p0) in
    {| ls_p := p; ls_nan := nan; ls_U := U; ls_V := V; ls_alpha := alpha;
       ls_beta := set_at beta 1 p_norm; ls_iterations := 1 |}.

  (** lanbpro.py:143-146: the next left vector *)
  Definition next_u (st : lan_state) : fvec :=
    safe_div (ls_p st) (ls_beta st (ls_iterations st)).
  (** lanbpro.py:157-175: r after the local step, with its coefficient *)
  Definition local_r (st : lan_state) : fvec * R :=
    let j := ls_iterations st in
    let vjm1 := col (ls_V st) (j - 1) in
    let r := fun i => trans (next_u st) i - ls_beta st j * vjm1 i in
    do_elr (elr_r pol j) n vjm1 r 0.
  (** lanbpro.py:203-230: r after reorthogonalisation *)
  Definition cand_r (st : lan_state) : fvec :=
    let r := fst (local_r st) in
    match mask_r pol (ls_iterations st) with
    | Some mask => reorth_mgs (passes pol) n k (ls_V st) mask r
    | None => r
    end.
  (** lanbpro.py:231-238: r and its norm after the breakdown test *)
  Definition final_r (st : lan_state) : option (fvec * R) :=
    let r := cand_r st in
    if Rltb (normf n r) (tiny_r pol (ls_iterations st)) then
      match new_vec n trans draw_r (ls_V st) (ls_iterations st) with
      | None => None
      | Some q => Some (q, 0)
      end
    else Some (r, normf n r).
  (** lanbpro.py:239-255: p after the local step, with its coefficient *)
  Definition local_p (st : lan_state) (v : fvec) (a : R) : fvec * R :=
    let u := next_u st in
    let p := fun i => times v i - a * u i in
    do_elr (elr_p pol (ls_iterations st)) m u p 0.
  (** lanbpro.py:276-321: p after reorthogonalisation against U with the new
      column *)
  Definition cand_p (st : lan_state) (v : fvec) (a : R) : fvec :=
    let p := fst (local_p st v a) in
    match mask_p pol (ls_iterations st) with
    | Some mask => reorth_mgs (passes pol) m k (set_col (ls_U st) (ls_iterations st) (next_u st)) mask p
    | None => p
    end.

  (** Model of lanbpro_iteration, lanbpro.py:118-344.  [None]: NaN entries in
      U and V. *)
  Definition lanbpro_iteration (st : lan_state) : option lan_state :=
    let j := ls_iterations st in
    let U := set_col (ls_U st) j (next_u st) in
    (* line 179 *)
    let beta := set_at (ls_beta st) j (ls_beta st j + snd (local_r st)) in
    if ls_nan st then None else
    match final_r st with
    | None => None
    | Some (r, r_norm) =>
        let v := safe_div r r_norm in
        let V := set_col (ls_V st) j v in
        (* lines 240, 259 *)
        let alpha := set_at (ls_alpha st) j (r_norm + snd (local_p st v r_norm)) in
        let '(p, nan, p_norm) := final_p U (j + 1) (tiny_p pol j) (cand_p st v r_norm) in
        Some {| ls_p := p; ls_nan := nan; ls_U := U; ls_V := V; ls_alpha := alpha;
                ls_beta := set_at beta (j + 1) p_norm; ls_iterations := j + 1 |}
    end.

  (** Model of lanbpro, lanbpro.py:348-368, stopped after t of its k - 1
      iterations (k >= 1). *)
  Fixpoint lanbpro (t : nat) (p0 : fvec) : option lan_state :=
    match t with
    | O => Some (lanbpro_init p0)
    | S t => match lanbpro t p0 with
             | None => None
             | Some st => lanbpro_iteration st
             end
    end.

  (** The residual norm of lansvd_simple, lansvd.py:59 ([None]: NaN) *)
  Definition lansvd_res_norm (st : lan_state) : option R :=
    if ls_nan st then None else Some (normf m (ls_p st)).
End Lan.
