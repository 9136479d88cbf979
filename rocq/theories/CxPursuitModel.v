(** Model of the greedy pursuit solvers for linear operators (pursuit/cosamp.py, sp.py, omp.py, iht.py,
    htp.py, mp.py) on complex data, in exact arithmetic. *)
From Coq Require Import List Arith Bool Reals.
From Verif Require Import Scalar Vec RVec Loop OptModel SortedL1Model SelModel PursuitModel CxSpec CxSpglModel.
Import ListNotations.
Local Open Scope R_scope.

(** A dictionary as the solvers use it: number of atoms, r |-> Phi^H r (Phi.trans) and i |-> i-th atom
    (Phi.times of a one-hot vector; lop.py:30-37 for several columns) *)
Record cdictionary := CDict { cd_n : nat; cd_trans : cvec -> cvec; cd_atom : nat -> cvec }.
(** Phi_I @ x_I, an m-vector *)
Definition csynth (D : cdictionary) (m : nat) (I : list nat) (x : cvec) : cvec := @Vec.lincomb Cs m x (map (cd_atom D) I).
(** x[I] *)
Definition cgather (x : cvec) (I : list nat) : cvec := map (fun i => nth i x (0, 0)) I.
(** pursuit/util.py:20-23; abs is the modulus *)
Definition cabs_max_idx (h : cvec) : nat := argmax (map cabs h).
(** pursuit/util.py:25-27 *)
Definition clargest_indices (h : cvec) (K : nat) : list nat := firstn K (rev (argsort (map cabs h))).
(** h.at[I].set(0) *)
Definition czero_at (h : cvec) (I : list nat) : cvec := tab (length h) (fun j => if existsb (Nat.eqb j) I then (0, 0) else nth j h (0, 0)).
(** r.T @ r: no conjugation *)
Definition sumsq (r : cvec) : Cx := dotu r r.
(** jnp.abs(jnp.vdot(r, r)) *)
Definition energy (r : cvec) : R := cabs (inner r r).
(** a > b for complex numbers in jax.numpy: the real parts are compared first, then the imaginary parts *)
Definition Cgtb (a b : Cx) : bool := Rltb (fst b) (fst a) || (Reqb (fst a) (fst b) && Rltb (snd b) (snd a)).

(** *** cosamp.py and sp.py *)
(** pursuit/defs.py; the fields x_I_prev and r_norm_sqr_prev are never read (their types: below) *)
Record cps := CPS { cp_x : cvec; cp_I : list nat; cp_r : cvec; cp_rn : R; cp_it : nat; cp_Iprev : list nat }.
(** assemble a state: r = y - Phi_I @ x_I; r_norm_sqr = jnp.abs(jnp.vdot(r, r)) *)
Definition cps_make (D : cdictionary) (y : cvec) (I : list nat) (x : cvec) (it : nat) (Iprev : list nat) : cps :=
  let r := vsub y (csynth D (length y) I x) in CPS x I r (energy r) it Iprev.
(** cosamp.py:223-239, sp.py:190-202 *)
Definition cps_cond (max_rn : R) (max_iters min_iters : nat) (s : cps) : bool :=
  Rltb max_rn (cp_rn s) && (cp_it s <? max_iters)%nat && ((cp_it s <? min_iters)%nat || negb (neqb_list (cp_I s) (cp_Iprev s))).
(** cosamp.py:246-251, sp.py:205-210 *)
Definition cps_scale (c : R) (s : cps) : cps :=
  CPS (vscale (ofR c : Cs) (cp_x s)) (cp_I s) (vscale (ofR c : Cs) (cp_r s)) (cp_rn s * (c * c)) (cp_it s) (cp_Iprev s).
(** cosamp.py:143-147, sp.py:117-121: the signal divided by its norm; for y = 0 the scale is infinite: Fail *)
Definition crescaled (run : cvec -> outcome cps) (y : cvec) : outcome cps :=
  let y_norm := sqrt (energy y) in
  if Reqb y_norm 0 then Fail
  else match run (vscale (ofR (1 / y_norm) : Cs) y) with Done s => Done (cps_scale y_norm s) | Fail => Fail | Fuel => Fuel end.
Section LS.
  (** jnp.linalg.lstsq(Phi_I, y)[0], given the columns of Phi_I *)
  Variable lstsq : list cvec -> cvec -> cvec.
  (** cosamp.py:158-186; I is sorted, x_I is not permuted with it *)
  Definition ccosamp_init (D : cdictionary) (y : cvec) (K : nat) : cps :=
    let h := cd_trans D y in
    let I_3k := clargest_indices h (3 * K) in
    let x_3I := lstsq (map (cd_atom D) I_3k) y in
    let Ia := clargest_indices x_3I K in
    let I := nsort (pick I_3k Ia) in
    let x_I := cgather x_3I Ia in
    cps_make D y I x_I 1 (seq 0 K).
  (** cosamp.py:188-221 *)
  Definition ccosamp_body (D : cdictionary) (y : cvec) (K : nat) (s : cps) : option cps :=
    let h := czero_at (cd_trans D (cp_r s)) (cp_I s) in
    let I_2k := clargest_indices h (2 * K) in
    let I_3k := cp_I s ++ I_2k in
    let x_3I := lstsq (map (cd_atom D) I_3k) y in
    let Ia := clargest_indices x_3I K in
    let I := pick I_3k Ia in
    let x_I := cgather x_3I Ia in
    Some (cps_make D y I x_I (S (cp_it s)) (cp_I s)).
  (** cosamp.py:126-251 *)
  Definition ccosamp (D : cdictionary) (y : cvec) (K max_iters : nat) (rtol : R) (fuel : nat) : outcome cps :=
    crescaled (fun yn => while_ (cps_cond (rtol ^ 2) max_iters (min_iters K)) (ccosamp_body D yn K) fuel (ccosamp_init D yn K)) y.
  (** sp.py:132-152 *)
  Definition csp_init (D : cdictionary) (y : cvec) (K : nat) : cps :=
    let h := cd_trans D y in
    let I := clargest_indices h K in
    let x_I := lstsq (map (cd_atom D) I) y in
    cps_make D y I x_I 1 (seq 0 K).
  (** sp.py:154-188 *)
  Definition csp_body (D : cdictionary) (y : cvec) (K : nat) (s : cps) : option cps :=
    let h := czero_at (cd_trans D (cp_r s)) (cp_I s) in
    let I_new := clargest_indices h K in
    let I_2k := cp_I s ++ I_new in
    let x_p := lstsq (map (cd_atom D) I_2k) y in
    let Ia := clargest_indices x_p K in
    let I := pick I_2k Ia in
    let x_I := lstsq (map (cd_atom D) I) y in
    Some (cps_make D y I x_I (S (cp_it s)) (cp_I s)).
  (** sp.py:101-210 *)
  Definition csp (D : cdictionary) (y : cvec) (K max_iters : nat) (rtol : R) (fuel : nat) : outcome cps :=
    crescaled (fun yn => while_ (cps_cond (rtol ^ 2) max_iters (min_iters K)) (csp_body D yn K) fuel (csp_init D yn K)) y.
End LS.

(** *** omp.py:111-259 *)
(** omp.py:116-131; Phi_I is determined by I and omitted.  L is a list of rows. *)
Record comp_state := COMPState { com_x : cvec; com_I : list nat; com_r : cvec; com_L : list cvec; com_rn : Cx; com_it : nat }.
Section OMP.
  (** cr.nimble solve_Lx_b and solve_spd_chol, and the complex jnp.sqrt *)
  Variables (solve_L spd : list cvec -> cvec -> cvec) (csqrt : Cx -> Cx).
  (** util.py:30-40: w.T @ w without conjugation; L0 = hstack((L, z)), L1 = hstack((w.T, s)) *)
  Definition cgram_chol_update (L : list cvec) (v : cvec) : list cvec :=
    let w := solve_L L v in
    let s := csqrt (Csub (1, 0) (sumsq w)) in
    map (fun r => r ++ [(0, 0)]) L ++ [w ++ [s]].
  (** omp.py:214-236; r_norm_sqr is initialised with the energy of y *)
  Definition comp_init (D : cdictionary) (y : cvec) : comp_state :=
    let p := cd_trans D y in
    let i := cabs_max_idx p in
    let x0 := nth i p (0, 0) in
    let r := vsub y (vscale (x0 : Cs) (cd_atom D i)) in
    COMPState [x0] [i] r [[(1, 0)]] (energy y, 0) 1.
  (** omp.py:144-172; crn.AH_v conjugates *)
  Definition comp_step (D : cdictionary) (y : cvec) (s : comp_state) : option comp_state :=
    let p := cd_trans D y in
    let h := cd_trans D (com_r s) in
    let i := cabs_max_idx h in
    let I := com_I s ++ [i] in
    let phi_i := cd_atom D i in
    let v := map (fun j => inner (cd_atom D j) phi_i) (com_I s) in
    let L := cgram_chol_update (com_L s) v in
    let x_I := spd L (cgather p I) in
    let r := vsub y (csynth D (length y) I x_I) in
    Some (COMPState x_I I r L (sumsq r) (S (com_it s))).
  (** omp.py:242-248 *)
  Definition comp_cond (K : nat) (rtol : R) (s : comp_state) : bool := Cgtb (com_rn s) (rtol ^ 2, 0) && (com_it s <? K)%nat.
  (** omp.py:177-259 *)
  Definition comp (D : cdictionary) (y : cvec) (K : nat) (rtol : R) (fuel : nat) : outcome comp_state :=
    let y_norm := sqrt (energy y) in
    if Reqb y_norm 0 then Fail
    else let yn := vscale (ofR (1 / y_norm) : Cs) y in
      match while_ (comp_cond K rtol) (comp_step D yn) fuel (comp_init D yn) with
      | Done s => Done (COMPState (vscale (ofR y_norm : Cs) (com_x s)) (com_I s) (vscale (ofR y_norm : Cs) (com_r s)) (com_L s)
                          (Cmul (com_rn s) (y_norm * y_norm, 0)) (com_it s))
      | Fail => Fail
      | Fuel => Fuel
      end.
End OMP.

(** *** mp.py:65-138 *)
(** mp.py:25-35; x = jnp.zeros(n) is a real array and stays one *)
Record cmp_state := CMPState { cm_x : vec; cm_r : cvec; cm_rn : Cx; cm_it : nat }.
(** mp.py:98-104 *)
Definition cmp_init (D : cdictionary) (y : cvec) : cmp_state := CMPState (repeat 0 (cd_n D)) y (sumsq y) 0.
(** mp.py:106-123.  state.x.at[i].add(coeff) converts coeff to the type of x, which drops its imaginary
    part; the field r_norm_sqr receives y_norm_sqr *)
Definition cmp_body (D : cdictionary) (y : cvec) (s : cmp_state) : option cmp_state :=
  let h := cd_trans D (cm_r s) in
  let best := cabs_max_idx h in
  let coeff := nth best h (0, 0) in
  let x := add_at (cm_x s) best (fst coeff) in
  let r := vsub (cm_r s) (vscale (coeff : Cs) (cd_atom D best)) in
  Some (CMPState x r (sumsq y) (S (cm_it s))).
(** mp.py:92-95, 125-132 *)
Definition cmp_cond (y : cvec) (max_iters : nat) (rtol : R) (s : cmp_state) : bool :=
  Cgtb (cm_rn s) (Cmul (sumsq y) (rtol ^ 2, 0)) && (cm_it s <? max_iters)%nat.
(** mp.py:65-138 *)
Definition cmp (D : cdictionary) (y : cvec) (max_iters : nat) (rtol : R) (fuel : nat) : outcome cmp_state :=
  while_ (cmp_cond y max_iters rtol) (cmp_body D y) fuel (cmp_init D y).

(** *** the types of the loop variables, for an operator of type ta, data of type ty and the flag Phi.real *)
(** the fields x_I, r, r_norm_sqr, x_I_prev and r_norm_sqr_prev *)
Record pursuit_carry := PCarry { pt_x : array_type; pt_r : array_type; pt_rn : array_type; pt_xprev : array_type; pt_rnprev : array_type }.
(** cosamp.py:149, 158-186, sp.py:123, 132-152: x_I_prev = jnp.zeros(K, dtype=dtype), r_norm_sqr_prev = 1. *)
Definition sp_init_types (flag_real : bool) (ta ty : array_type) : pursuit_carry :=
  let x := result_type ta ty in
  PCarry x (result_type ty (result_type ta x)) RealArr (if flag_real then RealArr else ComplexArr) RealArr.
(** cosamp.py:188-221, sp.py:154-188: x_I_prev = state.x_I, r_norm_sqr_prev = state.r_norm_sqr *)
Definition sp_body_types (ta ty : array_type) (c : pursuit_carry) : pursuit_carry :=
  let x := result_type ta ty in
  PCarry x (result_type ty (result_type ta x)) RealArr (pt_x c) (pt_rn c).
(** lax.while_loop raises TypeError when the body changes the type of the loop variable *)
Definition sp_accepts (flag_real : bool) (ta ty : array_type) : Prop :=
  sp_body_types ta ty (sp_init_types flag_real ta ty) = sp_init_types flag_real ta ty.
(** iht.py:151-172, htp.py:166-187: x_I_prev = jnp.zeros(K), r_norm_sqr_prev = y.T @ y. The step
    size is real when given and of the type of h otherwise *)
Definition iht_init_types (ta ty : array_type) : pursuit_carry :=
  let x := result_type ta ty in let r := result_type ty (result_type ta x) in PCarry x r r RealArr ty.
(** iht.py:174-197, htp.py:189-215 *)
Definition iht_body_types (ta ty : array_type) (c : pursuit_carry) : pursuit_carry :=
  let x := result_type (pt_x c) (result_type ta (pt_r c)) in
  let r := result_type ty (result_type ta x) in PCarry x r r (pt_x c) (pt_rn c).
Definition iht_accepts (ta ty : array_type) : Prop := iht_body_types ta ty (iht_init_types ta ty) = iht_init_types ta ty.
