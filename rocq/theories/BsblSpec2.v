(** Vocabulary for what block sparse Bayesian learning learns in one step: the
    correlation inside the blocks, their variances and the noise level. *)
From Coq Require Import List Arith Bool Reals.
From Verif Require Import Scalar Vec RVec BsblModel BsblSpec.
Local Open Scope R_scope.

(** The matrix with entries r^|p-q|. *)
Definition ar1 (r : R) : fmat := fun p q => r ^ (p - q + (q - p)).

(** Block i has covariance gam_i r^|p-q|; only the active blocks count. *)
Definition block_prior (b : nat) (act : nat -> bool) (gam : fvec) (r : R) : fmat :=
  prior b act (fun i p q => gam i * ar1 r p q).

(** A state with a positive noise level, non-negative variances and prior
    covariances gam_i r^|p-q|, or without prior covariances and with all
    variances zero. *)
Definition good_state (nb : nat) (s : bsbl_state) : Prop :=
  0 < bs_lam s /\ (forall i, (i < nb)%nat -> 0 <= bs_gam s i) /\
  match bs_S0 s with
  | Some S0 => exists r, Rabs r < 1 /\
      forall i p q, (i < nb)%nat -> S0 i p q = bs_gam s i * ar1 r p q
  | None => forall i, (i < nb)%nat -> bs_gam s i = 0
  end.

(** What is used as second moment of block i: its posterior covariance, with
    the squared norm of its mean added to every entry. *)
Definition used_moment (b : nat) (C : fmat) (x : fmat) (i : nat) : fmat :=
  fun p q => C (i * b + p)%nat (i * b + q)%nat + rsum b (fun c => x i c * x i c).

(** The sum of the second moments, those of the active blocks divided by their
    variances. *)
Definition moment_sum (nb : nat) (act : nat -> bool) (gam : fvec)
    (K : nat -> fmat) : fmat :=
  fun p q => rsum nb (fun i => K i p q / (if act i then gam i else 1)).

(** The mean of the first superdiagonal over the mean of the diagonal. *)
Definition lag_ratio (b : nat) (W : fmat) : R :=
  (rsum (b - 1) (fun p => W p (S p)) / INR (b - 1)) /
  (rsum b (fun p => W p p) / INR b).

Definition clip99 (v : R) : R := Rmin (Rmax v (- (99 / 100))) (99 / 100).

(** X is a right inverse of B. *)
Definition inverse_of (b : nat) (B X : fmat) : Prop :=
  forall p q, (p < b)%nat -> (q < b)%nat ->
    rsum b (fun l => B p l * X l q) = if Nat.eqb p q then 1 else 0.

(** The trace of A B. *)
Definition trace_mul (b : nat) (A B : fmat) : R :=
  rsum b (fun p => rsum b (fun q => A p q * B q p)).

(** The covariance of the measurements: Phi P Phi^T + lam I. *)
Definition data_cov (n : nat) (Phi P : fmat) (lam : R) : fmat :=
  fun p q => rsum n (fun l => rsum n (fun k => Phi p k * P k l) * Phi q l)
             + (if Nat.eqb p q then lam else 0).

(** From state s the step learned the correlation r' and the state s', where C
    is the posterior covariance for the variances and the correlation r of s. *)
Definition learned (m nb b : nat) (Phi : fmat) (act : nat -> bool)
    (s s' : bsbl_state) (r : R) (C : fmat) (r' : R) : Prop :=
  Rabs r < 1 /\
  (forall S0, bs_S0 s = Some S0 -> forall i p q, (i < nb)%nat ->
     S0 i p q = bs_gam s i * ar1 r p q) /\
  posterior_cov m (nb * b) Phi (block_prior b act (bs_gam s) r) (bs_lam s) C /\
  Rabs r' <= 99 / 100 /\
  ((2 <= b)%nat ->
     let W := moment_sum nb act (bs_gam s) (used_moment b C (bs_mu s')) in
     0 < rsum b (fun p => W p p) /\ r' = clip99 (lag_ratio b W)) /\
  exists S0', bs_S0 s' = Some S0' /\
    forall i p q, (i < nb)%nat -> S0' i p q = bs_gam s' i * ar1 r' p q.

(** The noise level by the rule chosen: kept, the low SNR rule, the high SNR
    rule. *)
Definition noise_learned (m nb b : nat) (Phi : fmat) (rule : nat)
    (s s' : bsbl_state) (C : fmat) (r' : R) : Prop :=
  match rule with
  | O => bs_lam s' = bs_lam s
  | S O => bs_lam s' * INR m = bs_rn s' + rsum nb (fun i => rsum m (fun p =>
      rsum b (fun c => rsum b (fun d => Phi p (i * b + c)%nat *
        C (i * b + c)%nat (i * b + d)%nat * Phi p (i * b + d)%nat))))
  | _ => (forall i, (i < nb)%nat -> bs_gam s i <> 0) /\
      forall X, inverse_of b (ar1 r') X ->
      bs_lam s' * INR m = bs_rn s' + bs_lam s * (INR nb - rsum nb (fun i =>
        trace_mul b (fun p q => C (i * b + p)%nat (i * b + q)%nat) X
          / bs_gam s i))
  end.

(** The singular value decompositions of symmetric positive definite b x b
    matrices are right. *)
Definition svd_ok (b : nat) (svd : fmat -> fmat * fvec * fmat) : Prop :=
  forall B, spd b B -> let '(u, s, vh) := svd B in
    (forall i, (i < b)%nat -> 0 <= s i) /\
    (forall i j, (i < b)%nat -> (j < b)%nat ->
       rsum b (fun l => u l i * u l j) = if Nat.eqb i j then 1 else 0) /\
    (forall i j, (i < b)%nat -> (j < b)%nat ->
       rsum b (fun l => vh i l * vh j l) = if Nat.eqb i j then 1 else 0) /\
    (forall i j, (i < b)%nat -> (j < b)%nat ->
       rsum b (fun l => u i l * s l * vh l j) = B i j).

(** The variances of the bound optimisation: the new variance of an active block
    minimises g T + gam^2 N / g, where T = tr(Phi_i^T V^-1 Phi_i B) and
    N = h^T B h with h = Phi_i^T V^-1 y, for the covariance V of the
    measurements and the learned correlation B. *)
Definition bo_rule (m nb b : nat) (Phi : fmat) (y : fvec) (act : nat -> bool)
    (s s' : bsbl_state) (r r' : R) : Prop :=
  let V := data_cov (nb * b) Phi (block_prior b act (bs_gam s) r) (bs_lam s) in
  forall i Z z, (i < nb)%nat -> act i = true ->
    (forall p k, (p < m)%nat -> (k < nb * b)%nat ->
       rsum m (fun l => V p l * Z l k) = Phi p k) ->
    (forall p, (p < m)%nat -> rsum m (fun l => V p l * z l) = y p) ->
    let N := quad b (ar1 r') (fun c =>
      rsum m (fun p => Phi p (i * b + c)%nat * z p)) in
    let T := trace_mul b (fun c d =>
      rsum m (fun p => Z p (i * b + c)%nat * Phi p (i * b + d)%nat)) (ar1 r') in
    let cost := fun g => g * T + bs_gam s i * bs_gam s i * N / g in
    0 < T /\ bs_gam s' i = bs_gam s i * sqrt N / sqrt T /\
    (0 < bs_gam s' i -> forall g, 0 < g -> cost (bs_gam s' i) <= cost g).
