(** Floating-point style results of exact arithmetic: a real, an infinity, or
    not-a-number.  Only the operations used by the models are defined; the sign
    of zero is taken to be positive. *)
From Coq Require Import List Reals.
From Verif Require Import Loop.
Import ListNotations.
Local Open Scope R_scope.
Inductive xr := Fin (r : R) | PInf | NInf | NaN.
(** division of two reals *)
Definition xdiv (a b : R) : xr :=
  if Reqb b 0 then (if Reqb a 0 then NaN else if Rltb 0 a then PInf else NInf) else Fin (a / b).
(** jnp.minimum(a, b) and jnp.maximum(a, b) with b real: NaN propagates *)
Definition xmin (a : xr) (b : R) : xr :=
  match a with Fin a => Fin (Rmin a b) | PInf => Fin b | NInf => NInf | NaN => NaN end.
Definition xmax (a : xr) (b : R) : xr :=
  match a with Fin a => Fin (Rmax a b) | PInf => PInf | NInf => Fin b | NaN => NaN end.
(** a - b *)
Definition xrsub (a : R) (b : xr) : xr :=
  match b with Fin b => Fin (a - b) | PInf => NInf | NInf => PInf | NaN => NaN end.
(** 1 / b *)
Definition xinv (b : xr) : xr :=
  match b with Fin b => xdiv 1 b | PInf => Fin 0 | NInf => Fin 0 | NaN => NaN end.
(** a * b with a real *)
Definition xmul (a : R) (b : xr) : xr :=
  match b with
  | Fin b => Fin (a * b)
  | PInf => if Reqb a 0 then NaN else if Rltb 0 a then PInf else NInf
  | NInf => if Reqb a 0 then NaN else if Rltb 0 a then NInf else PInf
  | NaN => NaN
  end.
(** a > b with b real; comparisons with NaN are false *)
Definition xgtb (a : xr) (b : R) : bool :=
  match a with Fin a => Rltb b a | PInf => true | _ => false end.
