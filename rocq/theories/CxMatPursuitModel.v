(** Model of the greedy pursuit solvers for matrices (matrix_solve in pursuit/sp.py, omp.py, mp.py, cosamp.py,
    iht.py, htp.py) on complex data, in exact arithmetic. *)
From Coq Require Import List Arith Bool Reals.
From Verif Require Import Scalar Vec RVec Loop OptModel SelModel PursuitModel CxSpec CxSpglModel CxPursuitModel.
Import ListNotations.
Local Open Scope R_scope.

(** A matrix is given by its columns. Phi.T @ r: no conjugation *)
Definition mcorr (Phi : list cvec) (r : cvec) : cvec := map (fun a => dotu a r) Phi.
(** Phi[:, I], again by columns *)
Definition mcols (Phi : list cvec) (I : list nat) : list cvec := map (fun i => nth i Phi []) I.
(** Phi_I @ x_I, an m-vector *)
Definition msynth (Phi : list cvec) (m : nat) (I : list nat) (x : cvec) : cvec := @Vec.lincomb Cs m x (mcols Phi I).

(** *** sp.py:28-96 *)
(** pursuit/defs.py, RecoverySolution; the field length is Phi.shape[1] *)
Record msol := MSol { ms_x : cvec; ms_I : list nat; ms_r : cvec; ms_rn : Cx; ms_it : nat }.
(** sp.py:51-55, 82-85: r = y - Phi_I @ x_I; r_norm_sqr = r.T @ r *)
Definition ms_make (Phi : list cvec) (y : cvec) (I : list nat) (x : cvec) (it : nat) : msol :=
  let r := vsub y (msynth Phi (length y) I x) in MSol x I r (sumsq r) it.
Section LS.
  (** jnp.linalg.lstsq(Phi_I, y)[0], given the columns of Phi_I *)
  Variable lstsq : list cvec -> cvec -> cvec.
  (** sp.py:41-55 *)
  Definition msp_init (Phi : list cvec) (y : cvec) (K : nat) : msol :=
    let h := mcorr Phi y in
    let I := clargest_indices h K in
    let x_I := lstsq (mcols Phi I) y in
    ms_make Phi y I x_I 1.
  (** sp.py:57-85 *)
  Definition msp_body (Phi : list cvec) (y : cvec) (K : nat) (s : msol) : option msol :=
    let h := czero_at (mcorr Phi (ms_r s)) (ms_I s) in
    let I_new := clargest_indices h K in
    let I_2k := ms_I s ++ I_new in
    let x_p := lstsq (mcols Phi I_2k) y in
    let Ia := clargest_indices x_p K in
    let I := pick I_2k Ia in
    let x_I := lstsq (mcols Phi I) y in
    Some (ms_make Phi y I x_I (S (ms_it s))).
  (** sp.py:33-36, 87-93 *)
  Definition msp_cond (y : cvec) (max_iters : nat) (rtol : R) (s : msol) : bool :=
    Cgtb (ms_rn s) (Cmul (sumsq y) (rtol ^ 2, 0)) && (ms_it s <? max_iters)%nat.
  (** sp.py:28-96 *)
  Definition msp (Phi : list cvec) (y : cvec) (K max_iters : nat) (rtol : R) (fuel : nat) : outcome msol :=
    while_ (msp_cond y max_iters rtol) (msp_body Phi y K) fuel (msp_init Phi y K).
End LS.

(** *** omp.py:25-97 *)
Section OMP.
  (** cr.nimble solve_Lx_b and solve_spd_chol, and the complex jnp.sqrt *)
  Variables (solve_L spd : list cvec -> cvec -> cvec) (csqrt : Cx -> Cx).
  (** the solution so far and the factor L *)
  Record momp_state := MOMP { mo_sol : msol; mo_L : list cvec }.
  (** omp.py:50-71 *)
  Definition momp_init (Phi : list cvec) (y : cvec) : momp_state :=
    let p := mcorr Phi y in
    let i := cabs_max_idx p in
    MOMP (ms_make Phi y [i] (cgather p [i]) 1) [[(1, 0)]].
  (** omp.py:74-96 *)
  Definition momp_step (Phi : list cvec) (y : cvec) (s : momp_state) : momp_state :=
    let p := mcorr Phi y in
    let h := mcorr Phi (ms_r (mo_sol s)) in
    let i := cabs_max_idx h in
    let I := ms_I (mo_sol s) ++ [i] in
    let phi_i := nth i Phi [] in
    let v := map (fun a => dotu a phi_i) (mcols Phi (ms_I (mo_sol s))) in
    let L := cgram_chol_update solve_L csqrt (mo_L s) v in
    let x_I := spd L (cgather p I) in
    MOMP (ms_make Phi y I x_I (S (ms_it (mo_sol s)))) L.
  (** omp.py:25-97; for fewer than two iterations the name k of the return statement is unbound: NameError *)
  Definition momp (Phi : list cvec) (y : cvec) (K : nat) : outcome msol :=
    if (K <? 2)%nat then Fail else Done (mo_sol (Nat.iter (K - 1) (momp_step Phi y) (momp_init Phi y))).
End OMP.

(** *** mp.py:141-214: as for operators, with Phi.T @ r for the correlations *)
Definition mdict (Phi : list cvec) : cdictionary := CDict (length Phi) (mcorr Phi) (fun i => nth i Phi []).
(** mp.py:141-214 *)
Definition mmp (Phi : list cvec) (y : cvec) (max_iters : nat) (rtol : R) (fuel : nat) : outcome cmp_state :=
  cmp (mdict Phi) y max_iters rtol fuel.

(** *** the types of the loop variables, for a matrix of type ta and data of type ty *)
(** cosamp.py:46-74: x_I_prev = jnp.zeros(K), r_norm_sqr_prev = y.T @ y *)
Definition mcosamp_init_types (ta ty : array_type) : pursuit_carry :=
  let x := result_type ta ty in let r := result_type ty (result_type ta x) in PCarry x r r RealArr ty.
(** cosamp.py:76-106: x_I_prev = state.x_I, r_norm_sqr_prev = state.r_norm_sqr *)
Definition mcosamp_body_types (ta ty : array_type) (c : pursuit_carry) : pursuit_carry :=
  let x := result_type ta ty in let r := result_type ty (result_type ta x) in PCarry x r r (pt_x c) (pt_rn c).
Definition mcosamp_accepts (ta ty : array_type) : Prop := mcosamp_body_types ta ty (mcosamp_init_types ta ty) = mcosamp_init_types ta ty.
(** iht.py:56-77, htp.py:59-80: x_I = (mu * h)[I] with h = Phi.T @ y *)
Definition miht_init_types (ta ty : array_type) : pursuit_carry :=
  let x := result_type ta ty in let r := result_type ty (result_type ta x) in PCarry x r r RealArr ty.
(** iht.py:79-101, htp.py:82-108 *)
Definition miht_body_types (ta ty : array_type) (c : pursuit_carry) : pursuit_carry :=
  let x := result_type (pt_x c) (result_type ta (pt_r c)) in
  let r := result_type ty (result_type ta x) in PCarry x r r (pt_x c) (pt_rn c).
Definition miht_accepts (ta ty : array_type) : Prop := miht_body_types ta ty (miht_init_types ta ty) = miht_init_types ta ty.
(** sp.py:41-85: the fields x_I, r, r_norm_sqr *)
Definition msp_types (ta ty : array_type) : array_type * array_type * array_type :=
  let x := result_type ta ty in let r := result_type ty (result_type ta x) in (x, r, r).
(** sp.py:57-85 computes the fields anew from Phi and y *)
Definition msp_body_types (ta ty : array_type) (c : array_type * array_type * array_type) : array_type * array_type * array_type :=
  let x := result_type ta ty in let r := result_type ty (result_type ta x) in (x, r, r).
Definition msp_accepts (ta ty : array_type) : Prop := msp_body_types ta ty (msp_types ta ty) = msp_types ta ty.
(** mp.py:172-180: the fields x, r, r_norm_sqr *)
Definition mmp_types (ta ty : array_type) : array_type * array_type * array_type := (RealArr, ty, ty).
(** mp.py:182-199: x.at[i].add keeps the type of x *)
Definition mmp_body_types (ta ty : array_type) (c : array_type * array_type * array_type) : array_type * array_type * array_type :=
  match c with (x, r, _) => let h := result_type ta r in (x, result_type r (result_type h ta), ty) end.
Definition mmp_accepts (ta ty : array_type) : Prop := mmp_body_types ta ty (mmp_types ta ty) = mmp_types ta ty.
