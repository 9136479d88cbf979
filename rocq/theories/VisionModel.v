(** Image kernels and the Ricker wavelet: vision/kernels.py and geo/wavelets.py,
    exact real arithmetic.  A kernel is the list of its rows or, for the
    Gaussian, a function of row and column. *)
From Coq Require Import List Arith ZArith Reals.
From Verif Require Import RVec.
Import ListNotations.
Local Open Scope R_scope.

(** vision/kernels.py:17-27, KERNEL_BOX_3X3, _5X5, _7X7 and _21X21 for n = 3, 5, 7, 21 *)
Definition kernel_box (n : nat) : list (list R) := repeat (repeat (1 / (INR n * INR n)) n) n.
(** vision/kernels.py:30-34 *)
Definition kernel_sharpen_3x3 : list (list R) := map (map IZR) [[0; -1; 0]; [-1; 5; -1]; [0; -1; 0]]%Z.
(** vision/kernels.py:36-40 *)
Definition kernel_laplacian_3x3 : list (list R) := map (map IZR) [[0; 1; 0]; [1; -4; 1]; [0; 1; 0]]%Z.
(** vision/kernels.py:43-47 *)
Definition kernel_sobel_x : list (list R) := map (map IZR) [[-1; 0; 1]; [-2; 0; 2]; [-1; 0; 1]]%Z.
(** vision/kernels.py:50-54 *)
Definition kernel_sobel_y : list (list R) := map (map IZR) [[-1; -2; -1]; [0; 0; 0]; [1; 2; 1]]%Z.

(** jnp.linspace(a, b, n) *)
Definition linspace (a b : R) (n i : nat) : R := if (n =? 1)%nat then a else a + INR i * ((b - a) / INR (n - 1)).
(** vision/kernels.py:58-81, kernel_gaussian with size (h, w) and sigma (sigma_x, sigma_y) *)
Definition kernel_gaussian (h w : nat) (sigma_x sigma_y : R) (i j : nat) : R :=
  let ax_x := linspace (- (INR w - 1) / 2) ((INR w - 1) / 2) w in
  let ax_y := linspace (- (INR h - 1) / 2) ((INR h - 1) / 2) h in
  let factor_x := 2 / sigma_x ^ 2 in
  let factor_y := 2 / sigma_y ^ 2 in
  let kernel := fun i j => exp (- (ax_x j ^ 2 * factor_x + ax_y i ^ 2 * factor_y)) in
  kernel i j / rsum h (fun i => rsum w (fun j => kernel i j)).

(** geo/wavelets.py:20-33, ricker *)
Definition ricker (t f0 : R) : R := (1 - 2 * (PI * f0 * t) ^ 2) * exp (- (PI * f0 * t) ^ 2).
