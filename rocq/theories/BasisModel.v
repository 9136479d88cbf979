(** Model of explicit bases (dict/simple.py) and of the multi-level wavelet
    operator (lop/dwt.py), for real data. *)
From Coq Require Import List Arith Bool Lia Reals.
From Verif Require Import Scalar Vec RVec LopModel FourierModel.
Import ListNotations.
Local Open Scope R_scope.

(** a matrix is its list of rows *)
Definition rmat := list (list R).
Definition get (M : rmat) (i j : nat) : R := nth j (nth i M []) 0.

(** jnp.hstack of two matrices with the same number of rows *)
Definition hstack (A B : rmat) : rmat := zipw (@app R) A B.
(** jnp.vstack *)
Definition vstack (A B : rmat) : rmat := A ++ B.
Definition mneg (A : rmat) : rmat := map (map Ropp) A.
Definition mscale (c : R) (A : rmat) : rmat := map (map (Rmult c)) A.
Definition eye (n : nat) : rmat := tab n (fun i => tab n (fun j => if (i =? j)%nat then 1 else 0)).

(** dict/simple.py:201-209: the doubling loop *)
Fixpoint sylvester (k : nat) : rmat :=
  match k with
  | O => [[1]]
  | S k => let H := sylvester k in vstack (hstack H H) (hstack H (mneg H))
  end.
(** dict/simple.py:201-209; None models the failed assertion (and the domain
    error of math.log(0,2)).  int(math.log(n,2)) is taken to be the exact
    integer logarithm. *)
Definition hadamard (n : nat) : option rmat :=
  if (n =? 0)%nat then None
  else if (2 ^ Nat.log2 n =? n)%nat then Some (sylvester (Nat.log2 n)) else None.
(** dict/simple.py:211-215 *)
Definition hadamard_basis (n : nat) : option rmat := option_map (mscale (/ sqrt (INR n))) (hadamard n).
(** dict/simple.py:218-223 *)
Definition dirac_hadamard_basis (n : nat) : option rmat := option_map (hstack (eye n)) (hadamard_basis n).

(** dict/simple.py:226-232.  normalize_l2_cw (cr.nimble) divides every column by
    its Euclidean norm. *)
Definition dct_raw (N i k : nat) : R := 2 * cos (PI / (2 * INR N) * INR (2 * i + 1) * INR k).
Definition cosine_basis_mat (N : nat) : rmat :=
  tab N (fun k => tab N (fun i => dct_raw N i k / sqrt (rsum N (fun l => dct_raw N l k * dct_raw N l k)))).
(** dict/simple.py:234-239 *)
Definition dirac_cosine_basis (n : nat) : rmat := hstack (eye n) (cosine_basis_mat n).
(** dict/simple.py:241-247 *)
Definition dirac_hadamard_cosine_basis (n : nat) : option rmat :=
  option_map (fun H => hstack (hstack (eye n) H) (cosine_basis_mat n)) (hadamard_basis n).

(** *** wavelets *)
Section W.
  (** wt.dwt_ and wt.idwt_ in periodization mode (external package cr.wavelets) *)
  Variable dwt1 : list R -> list R * list R.
  Variable idwt1 : list R -> list R -> list R.

  (** dwt.py:29-39, loop body of wavedec *)
  Fixpoint wavedec_loop (k : nat) (a result : list R) : list R * list R :=
    match k with
    | O => (a, result)
    | S k => let (a', d) := dwt1 a in wavedec_loop k a' (d ++ result)
    end.
  Definition wavedec (data : list R) (level : nat) : list R :=
    let (a, result) := dwt1 data in
    let (a, result) := wavedec_loop (level - 1) a result in
    a ++ result.
  (** dwt.py:41-54; state (a, mid, end) *)
  Fixpoint waverec_loop (coefs : list R) (k : nat) (a : list R) (mid end_ : nat) : list R :=
    match k with
    | O => a
    | S k => let d := firstn (end_ - mid) (skipn mid coefs) in
             waverec_loop coefs k (idwt1 a d) end_ (end_ * 2)
    end.
  Definition waverec (coefs : list R) (level : nat) : list R :=
    let mid := (length coefs / 2 ^ level)%nat in
    waverec_loop coefs level (firstn mid coefs) mid (mid * 2).

  (** wt.next_pow_of_2 (external): the least power of two that is >= n *)
  Definition next_pow2 (n : nat) : nat := (2 ^ Nat.log2_up n)%nat.
  (** dwt.py:124-166, along the only axis of a vector.  max_level stands for
      wt.dwt_max_level(n, wavelet.dec_len); None models the failed assertion. *)
  Definition op_dwt (max_level n level : nat) (basis : bool) : option (operator Rs) :=
    if (level <=? max_level)%nat then
      let m := next_pow2 n in
      let times1d := fun x : list R => wavedec (x ++ repeat 0 (m - n)) level in
      let trans1d := fun c : list R => firstn n (waverec c level) in
      Some (if basis then @mkop Rs trans1d times1d n m else @mkop Rs times1d trans1d m n)
    else None.
  (** dict/simple.py:262-294: column j of the matrix is the reconstruction of
      the j-th unit vector *)
  Definition wavelet_basis (max_level n level : nat) : option rmat :=
    if (next_pow2 n =? n)%nat && (level <=? max_level)%nat then
      Some (tab n (fun i => tab n (fun j => nth i (waverec (@vbasis Rs n j) level) 0)))
    else None.
End W.

(** the Haar filter bank, used to show that the hypotheses about the external
    one-level transform can be met *)
Fixpoint haar_dwt (x : list R) : list R * list R :=
  match x with
  | a :: b :: x => let (u, v) := haar_dwt x in ((a + b) / sqrt 2 :: u, (a - b) / sqrt 2 :: v)
  | _ => ([], [])
  end.
Fixpoint haar_idwt (u v : list R) : list R :=
  match u, v with
  | a :: u, b :: v => (a + b) / sqrt 2 :: (a - b) / sqrt 2 :: haar_idwt u v
  | _, _ => []
  end.
