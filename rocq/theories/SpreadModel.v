(** The spread operator: lop/spread.py.  Real data, exact arithmetic.  Arrays are
    functions of their indices; the tables hold floating point numbers, and the
    model restricts them to integers and NaN ([None]). *)
From Coq Require Import List Arith ZArith Bool Reals.
From Verif Require Import RVec.
Import ListNotations.
Local Open Scope R_scope.

(** a three dimensional table of floats *)
Record table3 := Table3 { t_shape : nat * nat * nat; t_val : nat -> nat -> nat -> option Z }.
(** why the constructor raises *)
Inductive spread_error := BadTableShape | BadTableValue | BadDtableShape.
Inductive spread_result (A : Type) := SpreadRaise (e : spread_error) | SpreadOk (a : A).
Arguments SpreadRaise {A}. Arguments SpreadOk {A}.

(** lop/spread.py:51, indices.astype: NaN becomes some platform dependent
    integer [nan_int] *)
Definition as_int (nan_int : Z) (v : option Z) : Z := match v with Some z => z | None => nan_int end.
(** lop/spread.py:50, ~jnp.isnan(indices), used as a number *)
Definition not_nan (v : option Z) : R := match v with Some _ => 1 | None => 0 end.
(** index normalisation of jax's y.at[:, i].add: negative indices count from the
    end, updates outside of the array are dropped *)
Definition norm_index (n : nat) (z : Z) : option nat :=
  let z := if (z <? 0)%Z then (z + Z.of_nat n)%Z else z in
  if ((0 <=? z) && (z <? Z.of_nat n))%Z then Some (Z.to_nat z) else None.
(** lop/spread.py:53, one column of y.at[:, indices].add(values): the vector of
    values is broadcast over the rows, so every row of column indices[k] gets
    values[k] *)
Definition add_column (nt_out : nat) (y : nat -> nat -> R) (i : Z) (v : R) : nat -> nat -> R :=
  match norm_index nt_out i with
  | None => y
  | Some c => fun r t => if Nat.eqb t c then y r t + v else y r t
  end.
(** lop/spread.py:53, all columns; repeated indices accumulate *)
Definition add_columns (nt_out : nat) (y : nat -> nat -> R) (ivs : list (Z * R)) : nat -> nat -> R :=
  fold_left (fun y p => add_column nt_out y (fst p) (snd p)) ivs y.
(** lop/spread.py:35-54, times.  [np_int]: whether numpy still has the attribute
    np.int (removed in numpy 1.24), which the loop body evaluates.  None: an
    exception, from the reshape in line 43 or from np.int. *)
Definition spread_times (np_int : bool) (nan_int : Z) (nx_in nt_in nx_out nt_out : nat) (table : nat -> nat -> nat -> option Z)
  (x : list R) : option (nat -> nat -> R) :=
  if negb (Nat.eqb (length x) (nx_in * nt_in)) then None
  else if negb np_int && negb (Nat.eqb (nx_in * nt_in) 0) then None
  else Some (fold_left (fun y it_in =>
    fold_left (fun y ix_in =>
      let value := nth (ix_in * nt_in + it_in) x 0 in
      add_columns nt_out y (map (fun k => (as_int nan_int (table ix_in it_in k), value * not_nan (table ix_in it_in k))) (seq 0 nx_out)))
    (seq 0 nx_in) y) (seq 0 nt_in) (fun _ _ => 0)).
(** lop/spread.py:56-59, trans: the body is pass, so the call returns Python's
    None *)
Definition spread_trans (y : list R) : option (list R) := None.

(** the returned operator: times, trans and the shape of line 60 *)
Record spread_op := SpreadOp {
  sp_times : list R -> option (nat -> nat -> R);
  sp_trans : list R -> option (list R);
  sp_shape : (nat * nat) * (nat * nat) }.
Definition shape_eqb (a b : nat * nat * nat) : bool :=
  let '(a1, a2, a3) := a in let '(b1, b2, b3) := b in Nat.eqb a1 b1 && Nat.eqb a2 b2 && Nat.eqb a3 b3.
(** jnp.any over the entries of the table; comparisons with NaN are false *)
Definition any_above (nx nt no : nat) (t : nat -> nat -> nat -> option Z) (bound : Z) : bool :=
  existsb (fun i => existsb (fun j => existsb (fun k => match t i j k with Some z => (bound <? z)%Z | None => false end) (seq 0 no)) (seq 0 nt)) (seq 0 nx).
(** lop/spread.py:23-33 and 60, spread_with_table *)
Definition spread_with_table (np_int : bool) (nan_int : Z) (in_dims out_dims : nat * nat) (table dtable : table3) : spread_result spread_op :=
  let '(nx_in, nt_in) := in_dims in
  let '(nx_out, nt_out) := out_dims in
  if negb (shape_eqb (t_shape table) (nx_in, nt_in, nx_out)) then SpreadRaise BadTableShape
  else if any_above nx_in nt_in nx_out (t_val table) (Z.of_nat nt_out) then SpreadRaise BadTableValue
  else if negb (shape_eqb (t_shape dtable) (nx_in, nt_in, nx_out)) then SpreadRaise BadDtableShape
  else SpreadOk (SpreadOp (spread_times np_int nan_int nx_in nt_in nx_out nt_out (t_val table)) spread_trans (out_dims, in_dims)).
