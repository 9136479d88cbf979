(** What the spread operator is documented to compute. *)
From Coq Require Import List Arith ZArith Reals.
From Verif Require Import RVec.
Import ListNotations.
Local Open Scope R_scope.

(** the sample (ix, it) of an input array of nt columns that arrives flattened row by row *)
Definition sample (nt : nat) (x : list R) (ix it : nat) : R := nth (ix * nt + it) x 0.
(** the entry is the number of the column t; NaN is no column *)
Definition hits (e : option Z) (t : nat) : R := match e with Some z => if Z.eq_dec z (Z.of_nat t) then 1 else 0 | None => 0 end.
(** The documented map (docstring of times): source (ix, it) has one entry for
    every output row k; if it is not NaN, the sample is added to row k in the
    column that the entry names. *)
Definition documented_spread (nx_in nt_in : nat) (table : nat -> nat -> nat -> option Z) (x : list R) (k t : nat) : R :=
  rsum nx_in (fun ix => rsum nt_in (fun it => sample nt_in x ix it * hits (table ix it k) t)).
(** all entries of the table satisfy P *)
Definition entries (nx nt no : nat) (table : nat -> nat -> nat -> option Z) (P : Z -> Prop) : Prop :=
  forall i j k, (i < nx)%nat -> (j < nt)%nat -> (k < no)%nat -> match table i j k with Some z => P z | None => True end.
