(** Model of the greedy pursuit solvers cr/sparse/_src/pursuit on real data in
    exact arithmetic. *)
From Coq Require Import List Arith Bool Reals.
From Verif Require Import Vec RVec RMat Loop OptModel CGModel SlsModel SortedL1Model SelModel DictModel SolverSpec.
Import ListNotations.
Local Open Scope R_scope.

(** A dictionary as the solvers use it: number of atoms, r |-> Phi^T r and
    i |-> i-th atom.  The matrix_solve variants use Phi.T @ r and Phi[:, i]; the
    operator_solve variants use Phi.trans and Phi.times of a one-hot vector
    (lop.py:30-37 for several columns). *)
Record dictionary := Dict { d_n : nat; d_trans : vec -> vec; d_atom : nat -> vec }.
Definition matrix_dict (Phi : mat) : dictionary := Dict (ncols Phi) (mtv (ncols Phi) Phi) (col Phi).
(** zeros(n).at[i].set(1) *)
Definition onehot (n i : nat) : vec := tab n (fun j => if (j =? i)%nat then 1 else 0).
Definition operator_dict (n : nat) (A : simple_op) : dictionary :=
  Dict n (so_trans A) (fun i => so_times A (onehot n i)).
(** Phi_I @ x_I, an m-vector *)
Definition synth (D : dictionary) (m : nat) (I : list nat) (x : vec) : vec := lincomb m x (map (d_atom D) I).

(** *** mp.py *)
(** mp.py:25-35 *)
Record mp_state := MPState { mp_x : vec; mp_r : vec; mp_rn : R; mp_it : nat }.
(** x.at[i].add(c) *)
Definition add_at (x : vec) (i : nat) (c : R) : vec := tab (length x) (fun j => if (j =? i)%nat then x@j + c else x@j).
(** mp.py:98-104 (operator), 174-180 (matrix) *)
Definition mp_init (D : dictionary) (y : vec) : mp_state := MPState (rzero (d_n D)) y (rdot y y) 0.
(** mp.py:106-123, 182-199.  The new residual norm is computed but the field
    r_norm_sqr receives y_norm_sqr. *)
Definition mp_body (D : dictionary) (y : vec) (s : mp_state) : option mp_state :=
  let y_norm_sqr := rdot y y in
  let h := d_trans D (mp_r s) in
  let best_match_index := argmax (map Rabs h) in
  let coeff := h@best_match_index in
  let x := add_at (mp_x s) best_match_index coeff in
  let r := rsub (mp_r s) (rscale coeff (d_atom D best_match_index)) in
  Some (MPState x r y_norm_sqr (S (mp_it s))).
(** mp.py:92-94, 125-132; 168-170, 201-208 *)
Definition mp_cond (y : vec) (max_iters : nat) (res_norm_rtol : R) (s : mp_state) : bool :=
  let max_r_norm_sqr := rdot y y * (res_norm_rtol ^ 2) in
  Rltb max_r_norm_sqr (mp_rn s) && (mp_it s <? max_iters)%nat.
(** mp.py:65-138 (solve), 141-214 (matrix_solve) *)
Definition mp (D : dictionary) (y : vec) (max_iters : nat) (res_norm_rtol : R) (fuel : nat) : outcome mp_state :=
  while_ (mp_cond y max_iters res_norm_rtol) (mp_body D y) fuel (mp_init D y).

(** *** pursuit/util.py:30-40, Cholesky factor of the Gram matrix *)
(** The lower triangular factor L, most recent row first; a row is the pair
    (w, s) of its off-diagonal part and its diagonal entry. *)
Definition chol := list (vec * R).
(** the factor as a square matrix: L0 = hstack((L, z)), L1 = hstack((w.T, s)), vstack((L0, L1)) *)
Fixpoint chol_mat (L : chol) : mat :=
  match L with
  | [] => []
  | (w, s) :: L => map (fun r => r ++ [0]) (chol_mat L) ++ [w ++ [s]]
  end.
(** cr.nimble solve_Lx_b: forward substitution *)
Fixpoint solve_Lx_b (L : chol) (b : vec) : vec :=
  match L with
  | [] => []
  | (w, s) :: L => let k := length L in
    let x := solve_Lx_b L (firstn k b) in x ++ [(b@k - rdot w x) / s]
  end.
(** cr.nimble solve_LTx_b: back substitution with L^T *)
Fixpoint solve_LTx_b (L : chol) (b : vec) : vec :=
  match L with
  | [] => []
  | (w, s) :: L => let k := length L in
    let x := b@k / s in solve_LTx_b L (rsub (firstn k b) (rscale x w)) ++ [x]
  end.
(** cr.nimble solve_spd_chol: L L^T x = b *)
Definition solve_spd_chol (L : chol) (b : vec) : vec := solve_LTx_b L (solve_Lx_b L b).
(** util.py:30-40.  None stands for the NaN (or zero pivot) produced when
    1 - w.w is not positive. *)
Definition gram_chol_update (L : chol) (v : vec) : option chol :=
  let w := solve_Lx_b L v in
  let d := 1 - rdot w w in
  if Rltb 0 d then Some ((w, sqrt d) :: L) else None.

(** *** omp.py *)
(** omp.py:106-131; Phi_I is determined by I and omitted *)
Record omp_state := OMPState { om_x : vec; om_I : list nat; om_r : vec; om_L : chol; om_rn : R; om_it : nat }.
(** omp.py:45-70 *)
Definition omp_first (D : dictionary) (y : vec) : omp_state :=
  let p := d_trans D y in
  let i := abs_max_idx p in
  let I := [i] in
  let L := [([], 1)] in
  let x_I := gather p I in
  let r := rsub y (synth D (length y) I x_I) in
  OMPState x_I I r L (rdot r r) 1.
(** omp.py:73-96 (matrix), 144-172 (operator) *)
Definition omp_step (D : dictionary) (y : vec) (s : omp_state) : option omp_state :=
  let p := d_trans D y in
  let h := d_trans D (om_r s) in
  let i := abs_max_idx h in
  let I := om_I s ++ [i] in
  let phi_i := d_atom D i in
  let v := map (fun j => rdot (d_atom D j) phi_i) (om_I s) in
  match gram_chol_update (om_L s) v with
  | None => None
  | Some L =>
    let p_I := gather p I in
    let x_I := solve_spd_chol L p_I in
    let r := rsub y (synth D (length y) I x_I) in
    Some (OMPState x_I I r L (rdot r r) (S (om_it s)))
  end.
(** k further steps *)
Fixpoint omp_steps (D : dictionary) (y : vec) (k : nat) : option omp_state :=
  match k with
  | O => Some (omp_first D y)
  | S k => match omp_steps D y k with None => None | Some s => omp_step D y s end
  end.
(** omp.py:25-97; the returned value refers to the loop variable k, which is
    unbound when the loop range(1, K) is empty: None *)
Definition omp_matrix (D : dictionary) (y : vec) (K : nat) : option omp_state :=
  if (K <=? 1)%nat then None else omp_steps D y (K - 1).
(** omp.py:214-236; r_norm_sqr is initialised with the norm of y *)
Definition omp_op_init (D : dictionary) (y : vec) : omp_state :=
  let s := omp_first D y in OMPState (om_x s) (om_I s) (om_r s) (om_L s) (rdot y y) 1.
(** omp.py:242-248 *)
Definition omp_op_cond (K : nat) (res_norm_rtol : R) (s : omp_state) : bool :=
  Rltb (res_norm_rtol ^ 2) (om_rn s) && (om_it s <? K)%nat.
(** omp.py:177-259; for y = 0 the scale 1 / y_norm is infinite: Fail *)
Definition omp_operator (D : dictionary) (y : vec) (K : nat) (res_norm_rtol : R) (fuel : nat) : outcome omp_state :=
  let y_norm := nrm y in
  match normalize y with
  | None => Fail
  | Some yn =>
    match while_ (omp_op_cond K res_norm_rtol) (omp_step D yn) fuel (omp_op_init D yn) with
    | Done s => Done (OMPState (rscale y_norm (om_x s)) (om_I s) (rscale y_norm (om_r s)) (om_L s)
                               (om_rn s * (y_norm * y_norm)) (om_it s))
    | Fail => Fail
    | Fuel => Fuel
    end
  end.

(** *** common state of cosamp, iht, htp and sp: pursuit/defs.py:105-131; the
    fields x_I_prev and r_norm_sqr_prev are never read and omitted *)
Record ps := PS { p_x : vec; p_I : list nat; p_r : vec; p_rn : R; p_it : nat; p_Iprev : list nat }.
(** RecoverySolution.x, defs.py:82-84 *)
Definition solution_x (n : nat) (s : ps) : vec := scatter n (p_I s) (p_x s).
(** h.at[I].set(0) *)
Definition zero_at (h : vec) (I : list nat) : vec := tab (length h) (fun j => if existsb (Nat.eqb j) I then 0 else h@j).
(** I_all[Ia] *)
Definition pick (J Ia : list nat) : list nat := map (fun a => nth a J 0%nat) Ia.
(** jnp.sort of indices *)
Fixpoint ninsert (a : nat) (l : list nat) : list nat :=
  match l with [] => [a] | b :: l' => if (a <=? b)%nat then a :: l else b :: ninsert a l' end.
Definition nsort (l : list nat) : list nat := fold_right ninsert [] l.
Fixpoint neqb_list (u v : list nat) : bool :=
  match u, v with
  | [], [] => true
  | i :: u, j :: v => (i =? j)%nat && neqb_list u v
  | _, _ => false
  end.
(** limits on the residual norm and on the iterations: cosamp.py:111-117, iht.py:104-111, sp.py:87-93 *)
Definition ps_cond (max_rn : R) (max_iters : nat) (s : ps) : bool := Rltb max_rn (p_rn s) && (p_it s <? max_iters)%nat.
(** the same with the test for a stationary support: cosamp.py:223-239, htp.py:110-122, 217-229, sp.py:190-202 *)
Definition ps_cond_support (max_rn : R) (max_iters min_iters : nat) (s : ps) : bool :=
  ps_cond max_rn max_iters s && ((p_it s <? min_iters)%nat || negb (neqb_list (p_I s) (p_Iprev s))).
Definition min_iters (K : nat) : nat := Nat.min (3 * K) 20.
(** assemble a state from a support and coefficients: r = y - Phi_I @ x_I; r_norm_sqr = r.T @ r *)
Definition ps_make (D : dictionary) (y : vec) (I : list nat) (x : vec) (it : nat) (Iprev : list nat) : ps :=
  let r := rsub y (synth D (length y) I x) in PS x I r (rdot r r) it Iprev.

Section LS.
  (** jnp.linalg.lstsq(Phi_I, y)[0], given the columns of Phi_I *)
  Variable lstsq : list vec -> vec -> vec.
  (** *** cosamp.py *)
  (** cosamp.py:46-73, 158-185; I is sorted, x_I is not permuted with it *)
  Definition cosamp_init (D : dictionary) (y : vec) (K : nat) : ps :=
    let h := d_trans D y in
    let I_3k := largest_indices h (3 * K) in
    let x_3I := lstsq (map (d_atom D) I_3k) y in
    let Ia := largest_indices x_3I K in
    let I := nsort (pick I_3k Ia) in
    let x_I := gather x_3I Ia in
    ps_make D y I x_I 1 (seq 0 K).
  (** cosamp.py:76-109, 188-221 *)
  Definition cosamp_body (D : dictionary) (y : vec) (K : nat) (s : ps) : option ps :=
    let h := zero_at (d_trans D (p_r s)) (p_I s) in
    let I_2k := largest_indices h (2 * K) in
    let I_3k := p_I s ++ I_2k in
    let x_3I := lstsq (map (d_atom D) I_3k) y in
    let Ia := largest_indices x_3I K in
    let I := pick I_3k Ia in
    let x_I := gather x_3I Ia in
    Some (ps_make D y I x_I (S (p_it s)) (p_I s)).
  (** cosamp.py:29-121 *)
  Definition cosamp_matrix (D : dictionary) (y : vec) (K max_iters : nat) (rtol : R) (fuel : nat) : outcome ps :=
    while_ (ps_cond (rdot y y * rtol ^ 2) max_iters) (cosamp_body D y K) fuel (cosamp_init D y K).
  (** y_norm * x_I, y_norm * r, r_norm_sqr * y_norm_sqr: cosamp.py:246-251, sp.py:205-210 *)
  Definition ps_scale (c : R) (s : ps) : ps := PS (rscale c (p_x s)) (p_I s) (rscale c (p_r s)) (p_rn s * (c * c)) (p_it s) (p_Iprev s).
  Definition rescaled (run : vec -> outcome ps) (y : vec) : outcome ps :=
    match normalize y with
    | None => Fail
    | Some yn => match run yn with Done s => Done (ps_scale (nrm y) s) | Fail => Fail | Fuel => Fuel end
    end.
  (** cosamp.py:126-251 *)
  Definition cosamp_operator (D : dictionary) (y : vec) (K max_iters : nat) (rtol : R) (fuel : nat) : outcome ps :=
    rescaled (fun yn => while_ (ps_cond_support (rtol ^ 2) max_iters (min_iters K)) (cosamp_body D yn K) fuel (cosamp_init D yn K)) y.

  (** *** sp.py *)
  (** sp.py:41-55, 132-152 *)
  Definition sp_init (D : dictionary) (y : vec) (K : nat) : ps :=
    let h := d_trans D y in
    let I := largest_indices h K in
    let x_I := lstsq (map (d_atom D) I) y in
    ps_make D y I x_I 1 (seq 0 K).
  (** sp.py:57-85, 154-188 *)
  Definition sp_body (D : dictionary) (y : vec) (K : nat) (s : ps) : option ps :=
    let h := zero_at (d_trans D (p_r s)) (p_I s) in
    let I_new := largest_indices h K in
    let I_2k := p_I s ++ I_new in
    let x_p := lstsq (map (d_atom D) I_2k) y in
    let Ia := largest_indices x_p K in
    let I := pick I_2k Ia in
    let x_I := lstsq (map (d_atom D) I) y in
    Some (ps_make D y I x_I (S (p_it s)) (p_I s)).
  (** sp.py:28-96 *)
  Definition sp_matrix (D : dictionary) (y : vec) (K max_iters : nat) (rtol : R) (fuel : nat) : outcome ps :=
    while_ (ps_cond (rdot y y * rtol ^ 2) max_iters) (sp_body D y K) fuel (sp_init D y K).
  (** sp.py:101-210 *)
  Definition sp_operator (D : dictionary) (y : vec) (K max_iters : nat) (rtol : R) (fuel : nat) : outcome ps :=
    rescaled (fun yn => while_ (ps_cond_support (rtol ^ 2) max_iters (min_iters K)) (sp_body D yn K) fuel (sp_init D yn K)) y.

  (** *** iht.py and htp.py *)
  (** Step size: [Some mu] is a fixed step, [None] the normalised variant.  The
      default step 0.98 / upper_frame_bound(Phi) is passed as [Some mu] by [iht_step]. *)
  Definition iht_step (normalized : bool) (step_size : option R) (upper_frame_bound : R) : option R :=
    if normalized then None else match step_size with Some mu => Some mu | None => Some (98 / 100 / upper_frame_bound) end.
  (** iht.py:45-54, 140-149, htp.py:48-57, 155-164; 0/0 gives None *)
  Definition get_step_size (D : dictionary) (m : nat) (step : option R) (h : vec) (I : list nat) : option R :=
    match step with
    | Some mu => Some mu
    | None => let h_I := gather h I in
              let Ah := synth D m I h_I in
              fdiv (rdot h_I h_I) (rdot Ah Ah)
    end.
  (** cr.nimble hard_threshold and hard_threshold_sorted: the K largest entries and their positions *)
  Definition hard_threshold (x : vec) (K : nat) : list nat * vec := let I := largest_indices x K in (I, gather x I).
  Definition hard_threshold_sorted (x : vec) (K : nat) : list nat * vec := let I := nsort (largest_indices x K) in (I, gather x I).
  (** iht.py:56-77, 151-172; htp.py:59-80, 166-187 *)
  Definition iht_init (D : dictionary) (y : vec) (K : nat) (step : option R) : option ps :=
    let I_prev := seq 0 K in
    let h := d_trans D y in
    match get_step_size D (length y) step h I_prev with
    | None => None
    | Some mu =>
      let x := rscale mu h in
      let (J, x_J) := hard_threshold x K in
      Some (ps_make D y J x_J 1 I_prev)
    end.
  (** iht.py:79-102, 174-197 *)
  Definition iht_body (D : dictionary) (y : vec) (K : nat) (step : option R) (s : ps) : option ps :=
    let h := d_trans D (p_r s) in
    let x := scatter (d_n D) (p_I s) (p_x s) in
    match get_step_size D (length y) step h (p_I s) with
    | None => None
    | Some mu =>
      let x := radd x (rscale mu h) in
      let (J, x_J) := hard_threshold x K in
      Some (ps_make D y J x_J (S (p_it s)) (p_I s))
    end.
  (** iht.py:26-115, 121-210 *)
  Definition iht (D : dictionary) (y : vec) (K : nat) (step : option R) (max_iters : nat) (rtol : R) (fuel : nat) : outcome ps :=
    match iht_init D y K step with
    | None => Fail
    | Some s0 => while_ (ps_cond (rdot y y * rtol ^ 2) max_iters) (iht_body D y K step) fuel s0
    end.
  (** htp.py:82-108, 189-215 *)
  Definition htp_body (D : dictionary) (y : vec) (K : nat) (step : option R) (s : ps) : option ps :=
    let h := d_trans D (p_r s) in
    let x := scatter (d_n D) (p_I s) (p_x s) in
    match get_step_size D (length y) step h (p_I s) with
    | None => None
    | Some mu =>
      let x := radd x (rscale mu h) in
      let (J, _) := hard_threshold_sorted x K in
      let x_J := lstsq (map (d_atom D) J) y in
      Some (ps_make D y J x_J (S (p_it s)) (p_I s))
    end.
  (** htp.py:29-126, 135-233 *)
  Definition htp (D : dictionary) (y : vec) (K : nat) (step : option R) (max_iters : nat) (rtol : R) (fuel : nat) : outcome ps :=
    match iht_init D y K step with
    | None => Fail
    | Some s0 => while_ (ps_cond_support (rdot y y * rtol ^ 2) max_iters (min_iters K)) (htp_body D y K step) fuel s0
    end.
End LS.
