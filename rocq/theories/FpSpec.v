(** Floating point numbers and rounded reductions.

    A format has prec bits of precision and smallest positive number 2^emin (gradual
    underflow); there is no largest number, so overflow is outside this specification.
    float32 is prec = 24, emin = -149 (below 2^128); float64 is prec = 53, emin = -1074.
    Every operation rounds the exact result to nearest, ties to even. *)
From Coq Require Import List ZArith Reals Permutation.
From Flocq Require Import Core.
Import ListNotations.
Local Open Scope R_scope.

Definition Rsum (l : list R) : R := fold_right Rplus 0 l.

Section F.
  Variables emin prec : Z.
  (** x is a number of the format *)
  Definition is_float (x : R) : Prop := generic_format radix2 (FLT_exp emin prec) x.
  (** the number of the format nearest to x *)
  Definition fl (x : R) : R := round radix2 (FLT_exp emin prec) ZnearestE x.
  (** the largest relative error of one rounding, 2^-prec, and its largest absolute error
      among the subnormal numbers, 2^(emin - 1) *)
  Definition ulp1 : R := bpow radix2 (- prec).
  Definition tiny : R := bpow radix2 (emin - 1).

  (** s is obtained from the numbers l by rounded additions, in some order and some
      grouping, with d additions on the longest path *)
  Inductive sum_eval : list R -> nat -> R -> Prop :=
  | sum_nil : sum_eval [] 0 0
  | sum_one x : sum_eval [x] 0 x
  | sum_add l l1 l2 d1 d2 s1 s2 : sum_eval l1 d1 s1 -> sum_eval l2 d2 s2 -> l1 <> [] -> l2 <> [] ->
      Permutation l (l1 ++ l2) -> sum_eval l (S (Nat.max d1 d2)) (fl (s1 + s2)).
  (** s is obtained from the products of the pairs l by rounded multiplications, rounded
      additions and fused multiply-adds, in some order and grouping, with d roundings on
      the longest path *)
  Inductive dot_eval : list (R * R) -> nat -> R -> Prop :=
  | dot_nil : dot_eval [] 0 0
  | dot_one a b : dot_eval [(a, b)] 1 (fl (a * b))
  | dot_add l l1 l2 d1 d2 s1 s2 : dot_eval l1 d1 s1 -> dot_eval l2 d2 s2 -> l1 <> [] -> l2 <> [] ->
      Permutation l (l1 ++ l2) -> dot_eval l (S (Nat.max d1 d2)) (fl (s1 + s2))
  | dot_fma l l1 a b d s : dot_eval l1 d s -> l1 <> [] ->
      Permutation l ((a, b) :: l1) -> dot_eval l (S d) (fl (a * b + s)).
End F.
(** the exact inner product of the pairs, and the sum of the magnitudes of the products *)
Definition dot_exact (l : list (R * R)) : R := Rsum (map (fun ab => fst ab * snd ab) l).
Definition dot_abs (l : list (R * R)) : R := Rsum (map (fun ab => Rabs (fst ab * snd ab)) l).
(** x is a multiple of 2^k *)
Definition multiple (k : Z) (x : R) : Prop := exists m : Z, x = IZR m * bpow radix2 k.
(** a is zero or its square is not subnormal *)
Definition normal_sq (emin prec : Z) (a : R) : Prop := a = 0 \/ bpow radix2 (emin + prec - 1) <= a * a.
(** A is a list of m rows of n numbers *)
Definition is_matrix (m n : nat) (A : list (list R)) : Prop := length A = m /\ Forall (fun row => length row = n) A.
(** the sum of f 0, ..., f (n - 1) *)
Definition rs (n : nat) (f : nat -> R) : R := Rsum (map f (seq 0 n)).
(** the sum of |v_i| |A_ij| |x_j| *)
Definition bil_abs (m n : nat) (A : list (list R)) (v x : list R) : R :=
  rs m (fun i => rs n (fun j => Rabs (nth i v 0) * Rabs (nth j (nth i A []) 0) * Rabs (nth j x 0))).
(** entry t of y - A x, computed exactly *)
Definition resid (n : nat) (A : list (list R)) (y x : list R) (t : nat) : R :=
  nth t y 0 - rs n (fun j => nth j (nth t A []) 0 * nth j x 0).
(** the format float32 *)
Definition emin32 : Z := (-149)%Z.
Definition prec32 : Z := 24%Z.
