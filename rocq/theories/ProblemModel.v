(** Model of src/cr/sparse/_src/problems: the generators of test problems.
    Random draws (indices, values, Gaussian matrices) and the external signals
    are arguments; plots and titles are not modelled.  [None] models a raised
    exception: operators of incompatible shape, or more distinct indices asked
    for than there are.  prob401 reads audio files and is not modelled. *)
From Coq Require Import List Arith ZArith Bool Reals.
From Verif Require Import Scalar Vec RVec LopModel FourierModel BasisModel OptModel SortedL1Model.
Import ListNotations.

Section Gen.
  Variable K : scalar.
  Notation vec := (list K).
  (** spec.py:30-69 class Problem(NamedTuple) *)
  Record problem := Problem {
    p_Phi : operator K; p_Psi : operator K; p_A : operator K; p_b : vec;
    p_reconstruct : vec -> vec; p_x : option vec; p_y : option vec; p_both : bool }.
  (** indices = random.choice(key, n, shape=(k,), replace=False);
      jnp.zeros(n).at[indices].set(values) *)
  Definition spikes (n k : nat) (indices : list nat) (values : vec) : option vec :=
    if k <=? n then Some (LopModel.scatter indices values (vzero n)) else None.
  (** lop/random.py:27-47 gaussian_dict: the matrix operator of a drawn matrix *)
  Definition gaussian_dict (m n : nat) (G : list vec) : operator K := op_matrix m n G true.
End Gen.
Arguments Problem {K}. Arguments p_Phi {K}. Arguments p_Psi {K}. Arguments p_A {K}. Arguments p_b {K}.
Arguments p_reconstruct {K}. Arguments p_x {K}. Arguments p_y {K}. Arguments p_both {K}.

Local Open Scope R_scope.
(** Python's round: to the nearest integer, halves to the even one *)
Definition py_round (r : R) : Z :=
  let f := Int_part r in
  let d := r - IZR f in
  if Rlt_dec d (1 / 2) then f else if Rlt_dec (1 / 2) d then (f + 1)%Z
  else if Z.even f then f else (f + 1)%Z.
(** prob007.py:33-35: k = max(1, round(scale*k)) *)
Definition scaled (scale : R) (k : nat) : nat := Nat.max 1 (Z.to_nat (py_round (scale * INR k))).

(** prob001.py:33-34 with t = (i + 1) / n *)
Definition sig_sine (n : nat) : list R := tab n (fun i => 4 * sin (4 * PI * (INR (i + 1) / INR n))).
Definition sig_jump (n : nat) : list R := tab n (fun i => sign (INR (i + 1) / INR n - 3 / 10) - sign (72 / 100 - INR (i + 1) / INR n)).
(** prob001.py:29-56 generate *)
Definition prob001 (n : nat) : option (problem Cs) :=
  let b := vadd (cplx (sig_sine n)) (cplx (sig_jump n)) in
  let x0 := trans (op_fourier_basis n) (cplx (sig_sine n)) in
  let x1 := times (@op_inv_heaviside Cs n true) (cplx (sig_jump n)) in
  match op_hcat (op_fourier_basis n) (op_heaviside n true) with
  | None => None
  | Some D => Some (Problem (op_identity n n) D D b (fun x => map sre (times D x)) (Some (x0 ++ x1)) None false)
  end.
(** prob002.py:28-42 generate; b is the blocks signal (cr.nimble) and dwt1,
    idwt1, max_level belong to the Haar wavelet (cr.wavelets) *)
Definition prob002 dwt1 idwt1 (max_level n : nat) (b : list R) : option (problem Rs) :=
  match op_dwt dwt1 idwt1 max_level n 5 true with
  | None => None
  | Some haar => Some (Problem (op_identity n n) haar haar b (times haar) (Some (trans haar b)) None false)
  end.
(** prob003.py:30-60 generate *)
Definition prob003 (c k n : nat) (ci : list nat) (cv : list R) (si : list nat) (sv : list R) : option (problem Rs) :=
  match op_hcat (op_identity n n) (op_cosine_basis n) with
  | None => None
  | Some D => match op_jit D with
    | None => None
    | Some D => match spikes Rs n c ci cv, spikes Rs n k si sv with
      | Some coeffs, Some spikes =>
        let coeffs := map (fun a => a * sqrt (INR n / 2)) coeffs in
        let cosine := times (op_cosine_basis n) coeffs in
        let b := @vadd Rs cosine spikes in
        Some (Problem (op_identity n n) D D b (times D) (Some (spikes ++ coeffs)) None false)
      | _, _ => None
      end
    end
  end.
(** prob004.py:30-67 generate *)
Definition prob004 (c k n : nat) (ci : list nat) (cv : list Cs) (si : list nat) (sv : list Cs) : option (problem Cs) :=
  match op_hcat (op_identity n n) (op_fourier_basis n) with
  | None => None
  | Some D => match op_jit D with
    | None => None
    | Some D => match spikes Cs n c ci cv, spikes Cs n k si sv with
      | Some coeffs, Some spikes =>
        let coeffs := map (fun a => smul a (ofR (sqrt (INR n / 2)))) coeffs in
        let sinusoid := times (op_fourier_basis n) coeffs in
        let b := @vadd Cs sinusoid spikes in
        Some (Problem (op_identity n n) D D b (times D) (Some (spikes ++ coeffs)) (Some b) false)
      | _, _ => None
      end
    end
  end.
(** prob005.py:30-68 generate; G is the drawn m x n matrix *)
Definition prob005 (c k m n : nat) (ci : list nat) (cv : list R) (si : list nat) (sv : list R) (G : list (list R)) : option (problem Rs) :=
  match op_hcat (op_identity n n) (op_cosine_basis n) with
  | None => None
  | Some D => match op_jit D with
    | None => None
    | Some D => match spikes Rs n c ci cv, spikes Rs n k si sv with
      | Some coeffs, Some spikes =>
        let coeffs := map (fun a => a * sqrt (INR n / 2)) coeffs in
        let cosine := times (op_cosine_basis n) coeffs in
        let y := @vadd Rs cosine spikes in
        let Phi := gaussian_dict Rs m n G in
        match op_compose Phi D with
        | None => None
        | Some A => Some (Problem Phi D A (times Phi y) (times D) (Some (spikes ++ coeffs)) (Some y) true)
        end
      | _, _ => None
      end
    end
  end.
(** prob006.py:36-45 the pieces of piecewise_polynomial: for piece i the slice
    signal[idx[i] : idx[i+1]] becomes the cubic with coefficients c on
    jnp.linspace(-3, 3, idx[i+1] - idx[i]) *)
Definition linspace3 (cnt j : nat) : R := if (cnt <=? 1)%nat then -3 else -3 + INR j * (6 / INR (cnt - 1)).
Definition cubic (c : list R) (x : R) : R := nth 0 c 0 + nth 1 c 0 * x + nth 2 c 0 * x ^ 2 + nth 3 c 0 * x ^ 3.
Definition set_slice (a : nat) (v y : list R) : list R := firstn a y ++ v ++ skipn (a + length v) y.
Fixpoint fill_pieces (idx : list nat) (cs : list (list R)) (signal : list R) : list R :=
  match idx, cs with
  | a :: ((b :: _) as idx'), c :: cs =>
    fill_pieces idx' cs (set_slice a (tab (b - a) (fun j => cubic c (linspace3 (b - a) j))) signal)
  | _, _ => signal
  end.
(** prob006.py:30-46; u are the p - 1 uniform draws, cs the p rounded coefficient quadruples *)
Definition breaks (n : nat) (u : list R) : list nat :=
  map (fun p => Z.to_nat (py_round (p * INR n))) (rsort ((0 :: u) ++ [1])).
Definition piecewise_polynomial (n : nat) (u : list R) (cs : list (list R)) : list R :=
  fill_pieces (breaks n u) cs (repeat 0 n).
(** prob006.py:49-76 generate, with the draws u, cs, G; dwt1, idwt1 and
    max_level belong to the wavelet db8 (cr.wavelets) *)
Definition prob006 dwt1 idwt1 (max_level m n level : nat) (u : list R) (cs : list (list R)) (G : list (list R)) : option (problem Rs) :=
  let y := piecewise_polynomial n u cs in
  match op_dwt dwt1 idwt1 max_level n level true with
  | None => None
  | Some db => match op_jit db with
    | None => None
    | Some db =>
      let Phi := gaussian_dict Rs m n G in
      match op_compose Phi db with
      | None => None
      | Some A => Some (Problem Phi db A (times Phi y) (times db) (Some (trans db y)) (Some y) true)
      end
    end
  end.
(** prob007.py:29-54 generate; g are the normal draws *)
Definition prob007 (k0 m0 n0 : nat) (scale : R) (g : list R) (si : list nat) (G : list (list R)) : option (problem Rs) :=
  let k := scaled scale k0 in let m := scaled scale m0 in let n := scaled scale n0 in
  match spikes Rs n k si (map sign g) with
  | None => None
  | Some x =>
    let Phi := gaussian_dict Rs m n G in
    Some (Problem Phi (op_identity n n) Phi (times Phi x) (fun x => x) (Some x) (Some x) false)
  end.
(** prob008.py:29-57 generate; rg, ig are the normal draws *)
Definition prob008 (k0 m0 n0 : nat) (scale : R) (rg ig : list R) (si : list nat) (G : list (list R)) : option (problem Cs) :=
  let k := scaled scale k0 in let m := scaled scale m0 in let n := scaled scale n0 in
  match spikes Cs n k si (zipw (fun a b => (sign a, sign b)) rg ig) with
  | None => None
  | Some x =>
    let Phi := gaussian_dict Cs m n (map cplx G) in
    Some (Problem Phi (op_identity n n) Phi (times Phi x) (fun x => x) (Some x) None false)
  end.
(** prob009.py:28-43 (normalized = False) and prob010.py:28-43 (normalized =
    True) generate; b is the blocks signal *)
Definition prob_heaviside (normalized : bool) (n : nat) (b : list R) : problem Rs :=
  let H := @op_heaviside Rs n normalized in
  Problem (op_identity n n) H H b (times H) (Some (times (@op_inv_heaviside Rs n normalized) b)) None false.
Definition prob009 := prob_heaviside false.
Definition prob010 := prob_heaviside true.
(** prob011.py:29-54 generate *)
Definition prob011 (k0 m0 n0 : nat) (scale : R) (g : list R) (si : list nat) (G : list (list R)) : option (problem Rs) :=
  let k := scaled scale k0 in let m := scaled scale m0 in let n := scaled scale n0 in
  match spikes Rs n k si g with
  | None => None
  | Some x =>
    let Phi := gaussian_dict Rs m n G in
    Some (Problem Phi (op_identity n n) Phi (times Phi x) (fun x => x) (Some x) None false)
  end.
