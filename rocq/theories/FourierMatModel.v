(** Model of the explicit Fourier basis, dict/simple.py. *)
From Coq Require Import List Arith Bool Reals.
From Verif Require Import Scalar Vec LopModel FourierModel.
Import ListNotations.
Local Open Scope scal_scope.

(** scipy.linalg.dft(n): entry (i,j) is exp(-2 pi i j sqrt(-1) / n) *)
Definition dft_matrix (n : nat) : list (list Cs) := tab n (fun i => tab n (fun j => star (root n (i * j)))).
(** cr.nimble hermitian: conjugate transpose of a square matrix with n columns *)
Definition hermitian_mat (n : nat) (F : list (list Cs)) : list (list Cs) :=
  tab n (fun i => tab n (fun j => star (nth i (nth j F []) s0))).
(** dict/simple.py:250-258 *)
Definition fourier_basis_mat (n : nat) : list (list Cs) :=
  hermitian_mat n (map (vscale (ofR (/ sqrt (INR n))%R)) (dft_matrix n)).
