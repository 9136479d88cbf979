(** The log det function: cr/sparse/_src/opt/smooth/logdet.py.  Matrices are
    functions of their indices, scalars exact reals.  jnp.linalg.cholesky and
    jnp.linalg.inv are arguments; [None] is a factorisation that breaks down
    (its entries are nan). *)
From Coq Require Import List Arith Bool Reals.
From Verif Require Import Vec RVec Loop BsblModel.
Local Open Scope R_scope.

(** cr.nimble arr_rdot: the sum of the products of the entries *)
Definition arr_rdot (n : nat) (A B : fmat) : R := rsum n (fun i => rsum n (fun j => A i j * B i j)).
Section Logdet.
  Variable cholesky : fmat -> option fmat.
  Variable inv : fmat -> fmat.
  Variables (n : nat) (q : R) (C : option fmat).
  (** logdet.py:34-41, func *)
  Definition logdet_func (X : fmat) : option R :=
    match cholesky X with
    | None => None
    | Some L =>
      let v := -2 * q * rsum n (fun i => ln (L i i)) in
      Some (match C with Some C => v + arr_rdot n C X | None => v end)
    end.
  (** logdet.py:43-50, gradient *)
  Definition logdet_grad (X : fmat) : fmat :=
    let g := fun i j => - q * inv X i j in
    match C with Some C => fun i j => g i j + C i j | None => g end.
End Logdet.
