(** What "T is an adjoint pair" means for an operator record. *)
From Coq Require Import List.
From Verif Require Import Scalar Vec LopSpec LopModel.
Section OpSpec.
  Variable K : scalar.
  (** T advertises shape (m,n) and its trans is the adjoint of its times *)
  Definition has_adjoint (T : operator K) (m n : nat) : Prop :=
    om T = m /\ on T = n /\ is_adjoint m n (times T) (trans T).
  (** trans is the adjoint of times for the advertised shape *)
  Definition adj (A : operator K) := is_adjoint (om A) (on A) (times A) (trans A).

  (** 2-D arrays of shape (M,N) as lists of rows *)
  Definition is_adjoint2 (inner2 : list (list K) -> list (list K) -> K) (M N : nat)
      (f g : list (list K) -> list (list K)) : Prop :=
    (forall X, wf_mat M N X -> wf_mat M N (f X)) /\ (forall X, wf_mat M N X -> wf_mat M N (g X)) /\
    forall X Y, wf_mat M N X -> wf_mat M N Y -> inner2 (f X) Y = inner2 X (g Y).
End OpSpec.
Arguments has_adjoint {K}. Arguments adj {K}. Arguments is_adjoint2 {K}.
