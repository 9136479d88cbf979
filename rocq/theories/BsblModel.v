(** Block sparse Bayesian learning (src/cr/sparse/_src/block/bsbl.py).

    Arrays are functions of their indices; the sizes are passed along (m
    measurements, nb blocks of b coefficients).  Arithmetic is exact.  The
    numerical routines of NumPy are arguments of the model: [solve A P] is
    jnp.linalg.solve for m x m systems, [inv B] is jnp.linalg.inv for b x b
    matrices and [svd B] is jnp.linalg.svd for b x b matrices.  [None] is
    returned where the code would put a NaN or an infinity into the means,
    the variances or the noise level. *)
From Coq Require Import List Arith Bool Reals.
From Verif Require Import Scalar Vec RVec Loop XReal.
Import ListNotations.
Local Open Scope R_scope.

(** One and two dimensional arrays as functions of the indices. *)
Definition fvec := nat -> R.
Definition fmat := nat -> nat -> R.

(** A @ B with inner dimension k. *)
Definition fmul (k : nat) (A B : fmat) : fmat :=
  fun i j => rsum k (fun l => A i l * B l j).
(** A @ x with inner dimension k. *)
Definition fmv (k : nat) (A : fmat) (x : fvec) : fvec :=
  fun i => rsum k (fun l => A i l * x l).
(** A.T *)
Definition ftr (A : fmat) : fmat := fun i j => A j i.
(** jnp.trace *)
Definition ftrace (k : nat) (A : fmat) : R := rsum k (fun i => A i i).
(** squared Euclidean norm *)
Definition fsq (k : nat) (x : fvec) : R := rsum k (fun i => x i * x i).
(** jnp.eye *)
Definition feye : fmat := fun i j => if Nat.eqb i j then 1 else 0.
(** jnp.max of non-negative numbers *)
Fixpoint fmax (n : nat) (f : nat -> R) : R :=
  match n with O => 0 | S n => Rmax (fmax n f) (f n) end.

(** Options that influence the iterations, bsbl.py:312-340. *)
Record bsbl_options := mkBO {
  bo_block_corr : nat;
  bo_learn_lambda : nat;
  bo_prune : R;
  bo_lambda : R;
  bo_max_iters : nat;
  bo_eps : R
}.

(** Model of BSBL_State, bsbl.py:427-447.  [bs_S0] is [None] when the prior
    matrices hold NaN. *)
Record bsbl_state := mkBS {
  bs_mu : fmat;
  bs_r : fvec;
  bs_rn : R;
  bs_gam : fvec;
  bs_S0 : option (nat -> fmat);
  bs_lam : R;
  bs_dmu : R;
  bs_it : nat
}.

Section Bsbl.
  Variables (m nb b : nat) (Phi : fmat) (y : fvec).
  Variable solve : fmat -> fmat -> fmat.
  Variable inv : fmat -> fmat.
  Variable svd : fmat -> fmat * fvec * fmat.

  (** Model of get_subdicts, bsbl.py:62-65: entry (r, c) of block i. *)
  Definition subdict (i : nat) : fmat := fun r c => Phi r (i * b + c)%nat.

  (** Model of sqrtm_svd, bsbl.py:43-48. *)
  Definition sqrtm_svd (B : fmat) : fmat :=
    let '(u, s, vh) := svd B in
    fmul b (fmul b u (fun i j => if Nat.eqb i j then sqrt (s i) else 0)) vh.

  (** Model of phi_b_phi, bsbl.py:67-69. *)
  Definition phi_b_phi (start : nat) (S0 : fmat) : fmat :=
    let sub := fun r c => Phi r (start + c)%nat in
    fmul b (fmul b sub S0) (ftr sub).

  (** Model of cum_phi_b_phi_ref, bsbl.py:71-82: the sum in the order of the
      loop. *)
  Definition cum_phi_b_phi_ref (S0 : nat -> fmat) : fmat :=
    fold_left (fun acc i => fun p q => acc p q + phi_b_phi (i * b) (S0 i) p q)
      (seq 0 nb) (fun _ _ => 0).

  (** Model of cum_phi_b_phi, bsbl.py:86-90. *)
  Definition cum_phi_b_phi (S0 : nat -> fmat) : fmat :=
    fun p q => rsum nb (fun i =>
      fmul b (fmul b (subdict i) (S0 i)) (ftr (subdict i)) p q).

  (** Model of cum_phi_b_phi_pruned, bsbl.py:92-103. *)
  Definition cum_phi_b_phi_pruned (S0 : nat -> fmat) (act : nat -> bool) : fmat :=
    fun p q => rsum nb (fun i =>
      if act i then fmul b (fmul b (subdict i) (S0 i)) (ftr (subdict i)) p q
      else 0).

  (** The system matrix of bsbl.py:108 (crn.add_to_diagonal). *)
  Definition add_to_diagonal (A : fmat) (lam : R) : fmat :=
    fun i j => A i j + (if Nat.eqb i j then lam else 0).

  (** Model of compute_h, bsbl.py:105-110. *)
  Definition compute_h (PBP : fmat) (lam : R) : fmat :=
    ftr (solve (add_to_diagonal PBP lam) Phi).

  (** Hy split into blocks, bsbl.py:114-117, 124-127. *)
  Definition h_y (H : fmat) : fmat :=
    fun i c => fmv m H y (i * b + c)%nat.

  (** Model of compute_mu_x, bsbl.py:113-120 (means). *)
  Definition compute_mu_x (S0 : nat -> fmat) (H : fmat) : fmat :=
    fun i => fmv b (S0 i) (h_y H i).

  (** Model of compute_mu_x_pruned, bsbl.py:123-138 (means). *)
  Definition compute_mu_x_pruned (S0 : nat -> fmat) (H : fmat)
      (act : nat -> bool) : fmat :=
    fun i => if act i then fmv b (S0 i) (h_y H i) else fun _ => 0.

  (** The diagonal blocks of H @ Phi, bsbl.py:144-146, 154-156. *)
  Definition h_phi (H : fmat) (i : nat) : fmat :=
    fun p q => fmul m H Phi (i * b + p)%nat (i * b + q)%nat.

  (** Model of compute_sigma_x, bsbl.py:141-150. *)
  Definition compute_sigma_x (S0 : nat -> fmat) (H : fmat) (i : nat) : fmat :=
    fun p q => S0 i p q - fmul b (fmul b (S0 i) (h_phi H i)) (S0 i) p q.

  (** Model of compute_sigma_x_pruned, bsbl.py:152-165. *)
  Definition compute_sigma_x_pruned (S0 : nat -> fmat) (H : fmat)
      (act : nat -> bool) (i : nat) : fmat :=
    if act i then compute_sigma_x S0 H i else fun _ _ => 0.

  (** Model of compute_cov_x, bsbl.py:167-171: for one dimensional arrays
      mx @ mx.T is the inner product, and the sum adds it to every entry. *)
  Definition compute_cov_x (Sx : nat -> fmat) (mu : fmat) (i : nat) : fmat :=
    fun p q => Sx i p q + rsum b (fun c => mu i c * mu i c).

  (** Model of compute_cov_x_sum, bsbl.py:174-178; the divisors are assumed
      to be nonzero here, the callers check it. *)
  Definition compute_cov_x_sum (Cx : nat -> fmat) (gam : fvec) : fmat :=
    fun p q => rsum nb (fun i => Cx i p q / gam i).

  (** Model of compute_cov_x_sum_pruned, bsbl.py:181-188. *)
  Definition compute_cov_x_sum_pruned (Cx : nat -> fmat) (gam : fvec)
      (act : nat -> bool) : fmat :=
    fun p q => rsum nb (fun i => if act i then Cx i p q / gam i else Cx i p q).

  (** The clipped correlation coefficient of bsbl.py:191-196.  The mean of an
      empty diagonal (b = 1) is NaN. *)
  Definition corr_coef (B0 : fmat) : xr :=
    let m0 := rsum b (fun i => B0 i i) / INR b in
    let m1 := rsum (b - 1) (fun i => B0 i (S i)) / INR (b - 1) in
    let r := if Nat.eqb b 1 then NaN else xdiv m1 m0 in
    xmin (xmax r (- (99 / 100))) (99 / 100).

  (** The Toeplitz matrix with entries r^|i-j|, bsbl.py:200-201. *)
  Definition toeplitz (r : R) : fmat := fun i j => r ^ (i - j + (j - i)).

  (** Model of compute_B_B_inv, bsbl.py:190-203.  NaN ** 0 is 1, so that a NaN
      coefficient does no harm to blocks of length one. *)
  Definition compute_B_B_inv (B0 : fmat) : option (fmat * fmat) :=
    if Nat.eqb b 1 then Some (toeplitz 0, inv (toeplitz 0))
    else match corr_coef B0 with
         | Fin r => Some (toeplitz r, inv (toeplitz r))
         | _ => None
         end.

  (** Model of update_lambda_high_snr, bsbl.py:206-215.  A zero divisor gives
      NaN or an infinity. *)
  Definition update_lambda_high_snr (lam : R) (gam : fvec) (Sx : nat -> fmat)
      (Binv : fmat) (rn : R) : option R :=
    if forallb (fun i => negb (Reqb (gam i) 0)) (seq 0 nb) then
      let comp := rsum nb (fun i => ftrace b (fmul b (Sx i) Binv) / gam i) in
      let carry := lam * (INR nb - comp) in
      Some ((rn + carry) / INR m)
    else None.

  (** Model of update_lambda_low_snr, bsbl.py:217-224. *)
  Definition update_lambda_low_snr (Sx : nat -> fmat) (rn : R) : R :=
    let comp := rsum nb (fun i =>
      ftrace m (fmul b (fmul b (subdict i) (Sx i)) (ftr (subdict i)))) in
    (rn + comp) / INR m.

  (** Model of update_lambda_rule_jittable, bsbl.py:235-245 (lax.switch clamps
      its index).  [None] as inverse stands for a matrix of NaN. *)
  Definition update_lambda (rule : nat) (lam : R) (gam : fvec)
      (Sx : nat -> fmat) (Binv : option fmat) (rn : R) : option R :=
    match rule with
    | O => Some lam
    | S O => Some (update_lambda_low_snr Sx rn)
    | _ => match Binv with
           | Some Bi => update_lambda_high_snr lam gam Sx Bi rn
           | None => None
           end
    end.

  (** Model of update_gammas_em_pruned, bsbl.py:255-265. *)
  Definition update_gammas_em_pruned (Cx : nat -> fmat) (Binv : fmat)
      (act : nat -> bool) : fvec :=
    fun i => (if act i then ftrace b (fmul b Binv (Cx i)) else 0) / INR b.

  (** Model of mapper in update_gammas_bo and update_gammas_bo_pruned,
      bsbl.py:272-276, 286-290. *)
  Definition bo_mapper (B : fmat) (g : R) (hy : fvec) (hphi : fmat) : option R :=
    let numer := sqrt (fsq b (fmv b (sqrtm_svd B) hy)) in
    let tr := ftrace b (fmul b hphi B) in
    if Rltb 0 tr then Some (g * numer / sqrt tr) else None.

  (** Model of update_gammas_bo_pruned, bsbl.py:281-298. *)
  Definition update_gammas_bo_pruned (gam : fvec) (B Hy : fmat)
      (HPhi : nat -> fmat) (act : nat -> bool) : option fvec :=
    if forallb (fun i => if act i then
                  match bo_mapper B (gam i) (Hy i) (HPhi i) with
                  | Some _ => true | None => false end
                else true) (seq 0 nb)
    then Some (fun i => if act i then
                  match bo_mapper B (gam i) (Hy i) (HPhi i) with
                  | Some g => g | None => 0 end
                else 0)
    else None.

  (** Model of update_sigma_0, bsbl.py:301-305. *)
  Definition update_sigma_0 (gam : fvec) (B : fmat) (i : nat) : fmat :=
    fun p q => gam i * B p q.

  (** The flattened means, bsbl.py:449-451, 552, 680, 803. *)
  Definition flatten (mu : fmat) : fvec :=
    fun k => mu (k / b)%nat (k mod b)%nat.

  (** The residual, bsbl.py:554, 682, 805. *)
  Definition residual (mu : fmat) : fvec :=
    fun r => y r - fmv (nb * b) Phi (flatten mu) r.

  (** The convergence measure, bsbl.py:569-571, 697-699, 820-822. *)
  Definition mu_change (mu old : fmat) : R :=
    fmax nb (fun i => fmax b (fun c => Rabs (mu i c - old i c))).

  (** Model of init_func, bsbl.py:522-538 (also 650-666, 774-790), with
      init_sigmas (50-53) and init_gammas (56-57). *)
  Definition bsbl_init (o : bsbl_options) : bsbl_state :=
    mkBS (fun _ _ => 0) y (fsq m y) (fun _ => 1) (Some (fun _ => feye))
         (bo_lambda o) 1 0.

  (** Whether some block satisfies a test. *)
  Definition some_block (f : nat -> bool) : bool := existsb f (seq 0 nb).

  (** The part that bsbl_em and bsbl_bo share, bsbl.py:541-563, 669-691: the
      active blocks, the means, H, the posterior covariances, the second
      moments and the matrices B and B_inv.  NaN prior matrices are harmless
      only when no block is active.  An active block with variance zero
      (possible for a negative threshold) makes line 546 divide by zero. *)
  Definition pruned_parts (o : bsbl_options) (s : bsbl_state)
    : option ((nat -> bool) * fmat * fmat * (nat -> fmat) * (nat -> fmat)
              * option (fmat * fmat)) :=
    let act := fun i => Rltb (bo_prune o) (bs_gam s i) in
    match bs_S0 s, some_block act with
    | None, true => None
    | S0, _ =>
        let S0 := match S0 with Some S0 => S0 | None => fun _ _ _ => 0 end in
        let PBP := cum_phi_b_phi_pruned S0 act in
        let H := compute_h PBP (bs_lam s) in
        let mu := compute_mu_x_pruned S0 H act in
        let Sx := compute_sigma_x_pruned S0 H act in
        let Cx := compute_cov_x Sx mu in
        if some_block (fun i => act i && Reqb (bs_gam s i) 0) then None
        else
          let Bi_sum := compute_cov_x_sum_pruned Cx (bs_gam s) act in
          Some (act, mu, H, Sx, Cx, compute_B_B_inv Bi_sum)
    end.

  (** The new state, bsbl.py:565-582, 693-710, 816-833. *)
  Definition next_state (s : bsbl_state) (mu : fmat) (gam : fvec)
      (B : option fmat) (lam : R) : bsbl_state :=
    let r := residual mu in
    mkBS mu r (fsq m r) gam
      (match B with Some B => Some (update_sigma_0 gam B) | None => None end)
      lam (mu_change mu (bs_mu s)) (S (bs_it s)).

  (** Model of body_func of bsbl_em, bsbl.py:540-582. *)
  Definition em_body (o : bsbl_options) (s : bsbl_state) : option bsbl_state :=
    match pruned_parts o s with
    | None => None
    | Some (act, mu, H, Sx, Cx, BB) =>
        let rn := fsq m (residual mu) in
        match update_lambda (bo_learn_lambda o) (bs_lam s) (bs_gam s) Sx
                (option_map snd BB) rn with
        | None => None
        | Some lam =>
            match BB with
            | Some (B, Bi) =>
                Some (next_state s mu (update_gammas_em_pruned Cx Bi act)
                        (Some B) lam)
            | None =>
                if some_block act then None
                else Some (next_state s mu (fun _ => 0) None lam)
            end
        end
    end.

  (** Model of body_func of bsbl_bo, bsbl.py:668-710. *)
  Definition bo_body (o : bsbl_options) (s : bsbl_state) : option bsbl_state :=
    match pruned_parts o s with
    | None => None
    | Some (act, mu, H, Sx, Cx, BB) =>
        let rn := fsq m (residual mu) in
        match update_lambda (bo_learn_lambda o) (bs_lam s) (bs_gam s) Sx
                (option_map snd BB) rn with
        | None => None
        | Some lam =>
            match BB with
            | Some (B, Bi) =>
                match update_gammas_bo_pruned (bs_gam s) B (h_y H) (h_phi H)
                        act with
                | Some gam => Some (next_state s mu gam (Some B) lam)
                | None => None
                end
            | None =>
                if some_block act then None
                else Some (next_state s mu (fun _ => 0) None lam)
            end
        end
    end.

  (** Model of body_func of bsbl_bo_np, bsbl.py:792-833: no block is
      pruned. *)
  Definition bo_np_body (o : bsbl_options) (s : bsbl_state) : option bsbl_state :=
    match bs_S0 s with
    | None => None
    | Some S0 =>
        let H := compute_h (cum_phi_b_phi S0) (bs_lam s) in
        let mu := compute_mu_x S0 H in
        let Sx := compute_sigma_x S0 H in
        let Cx := compute_cov_x Sx mu in
        if some_block (fun i => Reqb (bs_gam s i) 0) then None
        else
          match compute_B_B_inv (compute_cov_x_sum Cx (bs_gam s)) with
          | None => None
          | Some (B, Bi) =>
              let rn := fsq m (residual mu) in
              match update_lambda (bo_learn_lambda o) (bs_lam s) (bs_gam s) Sx
                      (Some Bi) rn with
              | None => None
              | Some lam =>
                  match update_gammas_bo_pruned (bs_gam s) B (h_y H) (h_phi H)
                          (fun _ => true) with
                  | Some gam => Some (next_state s mu gam (Some B) lam)
                  | None => None
                  end
              end
          end
    end.

  (** Model of cond_func, bsbl.py:585-589, 713-717, 836-840. *)
  Definition bsbl_cond (o : bsbl_options) (s : bsbl_state) : bool :=
    Rltb (bo_eps o) (bs_dmu s) && Nat.ltb (bs_it s) (bo_max_iters o).

  (** Model of bsbl_em, bsbl.py:478-595. *)
  Definition bsbl_em (o : bsbl_options) (fuel : nat) : outcome bsbl_state :=
    while_ (bsbl_cond o) (em_body o) fuel (bsbl_init o).

  (** Model of bsbl_bo, bsbl.py:606-723. *)
  Definition bsbl_bo (o : bsbl_options) (fuel : nat) : outcome bsbl_state :=
    while_ (bsbl_cond o) (bo_body o) fuel (bsbl_init o).

  (** Model of bsbl_bo_np, bsbl.py:730-846. *)
  Definition bsbl_bo_np (o : bsbl_options) (fuel : nat) : outcome bsbl_state :=
    while_ (bsbl_cond o) (bo_np_body o) fuel (bsbl_init o).
End Bsbl.
