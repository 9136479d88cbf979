(** The solver for least squares regularised by the ordered weighted l1 norm:
    fom/owl1rls.py.  Same conventions as FomModel.v. *)
From Coq Require Import List Arith Bool Reals.
From Verif Require Import Vec RVec Loop XReal OptModel SortedL1Model FomModel.
Import ListNotations.
Local Open Scope R_scope.

(** opt/proximal_ops/prox_sorted_l1.py:74-145, the prox-capable function built by
    prox_owl1.  [pfuel] bounds the passes of the while loop of the proximal operator; a
    loop that needs more is modelled by a non-finite answer, on which the driver of
    FomModel.v gives no result. *)
Definition prox_owl1_cap (pfuel : nat) (lam : vec) : proxcap :=
  build (fun x => Fin (owl1_func lam x))
        (fun x t => match prox_owl1 pfuel lam x t with Done z => map Fin z | _ => [NaN] end).
(** fom/owl1rls.py:24-56 *)
Definition fom_owl1rls (pfuel : nat) (times trans : vec -> vec) (b lam : vec) (x0 : vec) (options : fom_options) (fuel : nat) : outcome fom_state :=
  fom (smooth_quad_matrix None None None) (prox_owl1_cap pfuel lam) times trans (ropp b) options x0 fuel.
