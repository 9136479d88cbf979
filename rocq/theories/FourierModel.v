(** Model of the Fourier-type operators: lop/onb.py:24-85, lop/fft.py,
    lop/special_matrices.py.  jnp.fft.fft and friends are external; they are
    modelled by the defining sums of the discrete Fourier transform. *)
From Coq Require Import List Arith Bool Reals.
From Verif Require Import Scalar Vec LopModel.
Import ListNotations.
Local Open Scope R_scope.

(** exp(i t) *)
Definition Cexp (t : R) : Cs := (cos t, sin t).
(** exp(2 pi i m / n) *)
Definition root (n m : nat) : Cs := Cexp (2 * PI * INR m / INR n).

Section F.
  Local Open Scope scal_scope.
  Notation "x @ i" := (nth i x s0) (at level 5, i at level 4).
  (** jnp.fft.fft(x, n): x is truncated or zero-padded to length n *)
  Definition dft (n : nat) (x : list Cs) : list Cs :=
    tab n (fun k => Sum n (fun j => star (root n (j * k)) * x@j)).
  (** jnp.fft.ifft(x, n) *)
  Definition idft (n : nat) (x : list Cs) : list Cs :=
    tab n (fun k => ofR (/ INR n)%R * Sum n (fun j => root n (j * k) * x@j)).
  Definition cplx (x : list R) : list Cs := map (fun a => (a, 0%R)) x.
  (** jnp.fft.rfft(x, n) of a real vector: the first n//2+1 coefficients *)
  Definition rfft (n : nat) (x : list R) : list Cs := firstn (n / 2 + 1) (dft n (cplx x)).
  (** jnp.fft.irfft(c, n): the missing coefficients are the conjugates of the
      given ones; imaginary parts of the outputs vanish and are dropped *)
  Definition herm_ext (n : nat) (c : list Cs) : list Cs :=
    tab n (fun k => if (k <=? n / 2)%nat then c@k else star (c@(n - k))).
  Definition irfft (n : nat) (c : list Cs) : list R := map fst (idft n (herm_ext n c)).

  (** onb.py:24-37 *)
  Definition op_fourier_basis (n : nat) : operator Cs :=
    Op (fun x => vscale (ofR (sqrt (INR n))) (idft n x))
       (fun x => vscale (ofR (/ sqrt (INR n))%R) (dft n x)) n n true true true false.
  (** onb.py:40-47 *)
  Definition op_dirac_fourier_basis (n : nat) : operator Cs :=
    Op (fun x => vadd (firstn n x) (vscale (ofR (sqrt (INR n))) (idft n (skipn n x))))
       (fun x => x ++ vscale (ofR (/ sqrt (INR n))%R) (dft n x)) n (2 * n) true true true false.
  (** fft.py:27-58; None models the failed assertion n >= m *)
  Definition op_fft (m n : nat) (r2c : bool) : option (operator Cs) :=
    if (m <=? n)%nat then
      Some (Op (fun x => dft n (if r2c then map (@sre Cs) x else x))
               (fun w => firstn m (vscale (ofR (INR n)) (idft n w))) n m true true true false)
    else None.
  (** special_matrices.py:23-35, real filter and real data, 1-D *)
  Definition c_padded (n : nat) (c : list R) : list R := c ++ repeat 0%R (n - length c).
  (** jnp.roll(v, 1) = [v_{n-1}, v_0, ..., v_{n-2}] *)
  Definition roll1 (v : list R) : list R :=
    match v with [] => [] | _ => nth (length v - 1) v 0%R :: removelast v end.
  Definition circulant_times (n : nat) (c x : list R) : list R :=
    irfft n (zipw smul (rfft n x) (rfft n (c_padded n c))).
  Definition circulant_trans (n : nat) (c x : list R) : list R :=
    irfft n (zipw smul (rfft n x) (rfft n (roll1 (rev (c_padded n c))))).
  (** assert n >= len(c) *)
  Definition op_circulant (n : nat) (c : list R) : option (operator Rs) :=
    if (length c <=? n)%nat then Some (@mkop Rs (circulant_times n c) (circulant_trans n c) n n) else None.

  (** onb.py:51-85 cosine_basis, real data *)
  Definition phi_f (n k : nat) : Cs :=
    ofR (sqrt (2 * INR n) * (if (k =? 0)%nat then sqrt 2 else 1))%R * Cexp (PI * INR k / (2 * INR n))%R.
  Definition phi_a (n k : nat) : Cs :=
    ofR ((if (k =? 0)%nat then / sqrt 2 else 1) / sqrt (2 * INR n))%R * Cexp (- (PI * INR k / (2 * INR n)))%R.
  Definition dct_times (n : nat) (x : list R) : list R :=
    firstn n (irfft (2 * n) (tab n (fun k => phi_f n k * (nth k x 0%R, 0%R)) ++ [s0])).
  Definition dct_trans (n : nat) (x : list R) : list R :=
    let c := firstn n (rfft (2 * n) (x ++ rev x)) in
    tab n (fun k => fst (phi_a n k * c@k)).
  Definition op_cosine_basis (n : nat) : operator Rs := @mkop Rs (dct_times n) (dct_trans n) n n.
End F.
