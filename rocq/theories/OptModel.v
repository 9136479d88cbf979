(** Model of projections, indicators, proximal operators, smooth functions and
    thresholding (cr/sparse/_src/opt, cr/sparse/_src/geo/thresholding.py) on
    real vectors, in exact arithmetic. *)
From Coq Require Import List Arith Bool Reals.
From Verif Require Import Scalar Vec Loop RVec RMat XReal.
Import ListNotations.
Local Open Scope R_scope.

(** *** projectors, opt/projectors/basic.py *)
(** basic.py:25-33 *)
Definition proj_zero (x : vec) : vec := rzero (length x).
(** basic.py:36-45 *)
Definition proj_identity (x : vec) : vec := x.
(** basic.py:47-57; c is already broadcast to the shape of x *)
Definition proj_singleton (c : vec) (x : vec) : vec := c.
(** basic.py:60-81.  qr and the triangular solvers are external: [solveUT] is
    solve_UTx_b(R, .) and [solveU] is solve_Ux_b(R, .). *)
Definition proj_affine (n : nat) (A : mat) (b : vec) (solveUT solveU : vec -> vec) (x : vec) : vec :=
  let r := rsub b (mv A x) in
  let v := solveUT r in
  let w := solveU v in
  let h := mtv n A w in
  radd x h.
(** jnp.maximum / jnp.minimum on arrays *)
Definition vmax (x y : vec) : vec := zipw Rmax x y.
Definition vmin (x y : vec) : vec := zipw Rmin x y.
(** basic.py:84-123; None for both bounds raises ValueError *)
Definition proj_box (l u : option vec) : option (vec -> vec) :=
  match l, u with
  | None, None => None
  | None, Some u => Some (fun x => vmin x u)
  | Some l, None => Some (fun x => vmax x l)
  | Some l, Some u => Some (fun x => vmin (vmax x l) u)
  end.
(** basic.py:163-194: x = (x_pre, t) *)
Definition proj_conic (x : vec) : vec :=
  let x_pre := removelast x in
  let t := last x 0 in
  let abs_t := Rabs t in
  let norm_x := nrm x_pre in
  if Rltb abs_t norm_x then
    let pre := rscale (/ norm_x) x_pre in
    let y := pre ++ [1] in
    let alpha := (norm_x + t) / 2 in
    rscale alpha y
  else if Rltb 0 t then x else rzero (length x).

(** *** opt/projectors/lpballs.py *)
(** lpballs.py:26-57; None models the ValueError for q <= 0 *)
Definition proj_l2_ball (q : R) : option (vec -> vec) :=
  if Rleb q 0 then None else
  Some (fun x => let norm_x := nrm x in if Rltb q norm_x then rscale (q / norm_x) x else x).
(** lpballs.py:60-86.  With a matrix A the function raises NotImplementedError (93). *)
Definition proj_l2_ball_at (q : R) (b : vec) : option (vec -> vec) :=
  if Rleb q 0 then None else
  Some (fun x =>
    let r := rsub x b in
    let norm_r := nrm r in
    let r := if Rltb q norm_r then rscale ((q - 1 / 10000000) * / norm_r) r else r in
    radd r b).
(** jnp.sort (ascending) *)
Fixpoint rinsert (a : R) (l : vec) : vec :=
  match l with [] => [a] | b :: l' => if Rleb a b then a :: l else b :: rinsert a l' end.
Fixpoint rsort (l : vec) : vec := match l with [] => [] | a :: l => rinsert a (rsort l) end.
(** jnp.cumsum *)
Fixpoint rcumsum_from (acc : R) (x : vec) : vec :=
  match x with [] => [] | a :: x => (acc + a) :: rcumsum_from (acc + a) x end.
Definition rcumsum (x : vec) : vec := rcumsum_from 0 x.
(** jnp.argmax of booleans: first true, or 0 *)
Fixpoint first_true (k : nat) (l : list bool) : option nat :=
  match l with [] => None | true :: _ => Some k | false :: l => first_true (S k) l end.
Definition argmax_bool (l : list bool) : nat := match first_true 0 l with Some k => k | None => 0%nat end.
(** shrinkage.py:19-25 and the last line of project_inside_ball *)
Definition shrink (a : vec) (kappa : R) : vec := map (fun x => Rmax 0 (x - kappa) + Rmin 0 (x + kappa)) a.
(** lpballs.py:160-172 and cvx/spgl1.py:81-95: threshold, as a
    function of the vector of absolute values *)
Definition l1_threshold (abs_y : vec) (q : R) : R :=
  let u := rev (rsort abs_y) in
  let cu := rcumsum u in
  let cu_diff := map (fun c => c - q) cu in
  let u_scaled := tab (length u) (fun k => u@k * INR (k + 1)) in
  let flags := zipw (fun a b => Rltb b a) cu_diff u_scaled in
  let K := argmax_bool flags in
  let K := if (K =? 0)%nat then length flags else K in
  (cu@(K - 1) - q) / INR K.
(** lpballs.py:160-174, cvx/spgl1.py:81-96 *)
Definition project_inside_ball (y : vec) (q : R) : vec := shrink y (l1_threshold (map Rabs y) q).
(** lpballs.py:179-192, b is None *)
Definition proj_l1_ball (q : R) (x : vec) : vec :=
  if Rltb q (nrm1 x) then project_inside_ball x q else x.
(** lpballs.py:195-212 *)
Definition proj_l1_ball_at (q : R) (b : vec) (x : vec) : vec :=
  let r := rsub x b in
  let r := if Rltb q (nrm1 r) then project_inside_ball r q else r in
  radd r b.

(** cvx/spgl1.py:81-113, real input *)
Definition spgl1_project_to_l1_ball (x : vec) (q : R) : vec :=
  if Rltb q (nrm1 x) then
    let kappa := l1_threshold (map Rabs x) q in
    map (fun a => Rmax 0 (a - kappa) + Rmin 0 (a + kappa)) x
  else x.
(** complex numbers as pairs *)
Definition cabs (z : R * R) : R := sqrt (fst z * fst z + snd z * snd z).
Definition cnrm1 (x : list (R * R)) : R := rlsum (map cabs x).
(** max(|z| - tau, 0) * exp(1j*angle(z)); exp(1j*angle(z)) is z/|z|, and 1 at 0 *)
Definition cshrink1 (tau : R) (z : R * R) : R * R :=
  let m := Rmax (cabs z - tau) 0 in
  let dir := if Reqb (cabs z) 0 then (1, 0) else (fst z / cabs z, snd z / cabs z) in
  (m * fst dir, m * snd dir).
(** cvx/spgl1.py:81-113, complex input *)
Definition spgl1_project_to_l1_ball_c (x : list (R * R)) (q : R) : list (R * R) :=
  if Rltb q (cnrm1 x) then
    let kappa := l1_threshold (map cabs x) q in map (cshrink1 kappa) x
  else x.
(** cvx/spgl1.py:115-124, real input *)
Definition spgl1_project_to_l1_ball_at (x b : vec) (q : R) : vec :=
  let r := rsub x b in
  let r := spgl1_project_to_l1_ball r q in
  radd r b.

(** *** opt/projections.py *)
(** projections.py:21-26.  The factor radius / x_norm is computed before the
    selection; jnp.where discards it when x_norm <= radius. *)
Definition project_to_ball (x : vec) (radius : R) : vec :=
  let x_norm := nrm x in
  if Rltb radius x_norm then rscale (radius / x_norm) x else x.
(** projections.py:29-35 (radius > 0) *)
Definition project_to_box (x : vec) (radius : R) : vec :=
  map (fun a => a * (radius / Rmax (Rabs a) radius)) x.
(** projections.py:38-41, for real input *)
Definition project_to_real_upper_limit (x : vec) (limit : R) : vec := map (fun a => Rmin a limit) x.

(** *** indicators: true stands for the value 0, false for infinity *)
Definition vany (p : R -> bool) (x : vec) : bool := existsb p x.
Definition vany2 (p : R -> R -> bool) (x y : vec) : bool := existsb (fun ab => p (fst ab) (snd ab)) (combine x y).
Definition neqb (a b : R) : bool := negb (Reqb a b).
(** indicators/basic.py:21-56 *)
Definition ind_zero (x : vec) : bool := negb (vany (fun a => neqb a 0) x).
(** indicators/basic.py:59-99 *)
Definition ind_singleton (c x : vec) : bool := negb (vany (fun a => neqb a 0) (rsub x c)).
(** indicators/basic.py:102-139: strength may be 0/0 *)
Definition ind_affine (A : mat) (b x : vec) : bool :=
  let r := rsub (mv A x) b in
  negb (xgtb (xdiv (nrm r) (nrm b)) (1 / 10000000000)).
(** indicators/basic.py:142-205 *)
Definition ind_box (l u : option vec) : option (vec -> bool) :=
  match l, u with
  | None, None => None
  | None, Some u => Some (fun x => negb (vany2 (fun a b => Rltb b a) x u))
  | Some l, None => Some (fun x => negb (vany2 Rltb x l))
  | Some l, Some u => Some (fun x => negb (vany2 Rltb x l || vany2 (fun a b => Rltb b a) x u))
  end.
(** indicators/basic.py:239-267 *)
Definition ind_conic (x : vec) : bool := Rleb (nrm (removelast x)) (last x 0).
(** indicators/lpballs.py:23-104 *)
Definition ind_l2_ball (q : R) : option (vec -> bool) :=
  if Rleb q 0 then None else Some (fun x => negb (Rltb q (nrm x))).
Definition ind_l2_ball_at (q : R) (b : vec) : option (vec -> bool) :=
  if Rleb q 0 then None else Some (fun x => negb (Rltb q (nrm (rsub x b)))).
Definition ind_l2_ball_A (q : R) (A : mat) (b : vec) : option (vec -> bool) :=
  if Rleb q 0 then None else Some (fun x => negb (Rltb q (nrm (rsub (mv A x) b)))).
(** indicators/lpballs.py:107-189 *)
Definition ind_l1_ball (q : R) (x : vec) : bool := negb (Rltb q (nrm1 x)).
Definition ind_l1_ball_at (q : R) (b x : vec) : bool := negb (Rltb q (nrm1 (rsub x b))).
Definition ind_l1_ball_A (q : R) (A : mat) (b x : vec) : bool := negb (Rltb q (nrm1 (rsub (mv A x) b))).

(** *** proximal operators; a prox-capable function is (func, prox_op) and
    prox_vec_val (prox.py:105-120) evaluates func at the proximal point *)
Record proxcap := ProxCap {
  pfunc : vec -> xr;
  prox_op : vec -> R -> list xr;
  prox_vec_val : vec -> R -> list xr * xr }.
(** every entry finite *)
Fixpoint finite (x : list xr) : option vec :=
  match x with
  | [] => Some []
  | Fin a :: x => option_map (cons a) (finite x)
  | _ => None
  end.
(** prox.py:48-62, 105-120: build.  The value at a vector with a non-finite
    entry is not-a-number. *)
Definition build (func : vec -> xr) (op : vec -> R -> list xr) : proxcap :=
  ProxCap func op (fun x t => let p := op x t in (p, match finite p with Some z => func z | None => NaN end)).
(** prox.py:79-102: build_from_ind_proj *)
Definition build_from_ind_proj (ind : vec -> bool) (proj : vec -> vec) : proxcap :=
  ProxCap (fun x => if ind x then Fin 0 else PInf) (fun x _ => map Fin (proj x)) (fun x _ => (map Fin (proj x), Fin 0)).
(** basic.py:24-64 *)
Definition prox_zero : proxcap :=
  ProxCap (fun _ => Fin 0) (fun x _ => map Fin x) (fun x _ => (map Fin x, Fin 0)).
(** lpnorms.py:25-50 *)
Definition prox_l2 (q : R) : proxcap :=
  build (fun x => Fin (q * nrm x))
        (fun x t => let v := nrm x in
                    let s := xrsub 1 (xinv (xmax (xdiv v (t * q)) 1)) in
                    map (fun a => xmul a s) x).
(** lpnorms.py:54-79; q a scalar *)
Definition prox_l1 (q : R) : proxcap :=
  build (fun x => Fin (nrm1 (rscale q x)))
        (fun x t => let tq := t * q in
                    map (fun a => xmul a (xrsub 1 (xmin (xdiv tq (Rabs a)) 1))) x).
(** lpnorms.py:82-115 *)
Definition prox_l1_pos (q : R) : proxcap :=
  build (fun x => if vany (fun a => Rltb a 0) x then PInf else Fin (nrm1 (rscale q x)))
        (fun x t => let tq := t * q in map (fun a => Fin (Rmax 0 (a - tq))) x).
(** lpnorms.py:117-125 *)
Definition prox_l1_ball (q : R) : proxcap := build_from_ind_proj (ind_l1_ball q) (proj_l1_ball q).

(** proximal.py:19-23: the value of the expression is not returned, so the
    result is None *)
Definition proximal_prox_l1 (x : vec) (t : R) : option vec :=
  let _ := zipw Rminus (map (fun a => Rmax 0 (a - t)) x) (map (fun a => Rmax 0 (- a - t)) x) in None.

(** *** smooth functions: opt/smooth/smooth.py:25-40 *)
Record smooth := Smooth {
  sfunc : vec -> R;
  sgrad : vec -> vec;
  sgrad_val : vec -> vec * R }.
(** smooth.py:58-72, 92-107 *)
Definition build2 (func : vec -> R) (grad : vec -> vec) : smooth :=
  Smooth func grad (fun x => (grad x, func x)).
(** smooth/constant.py:23-39 *)
Definition smooth_constant (c : R) : smooth := build2 (fun _ => c) (fun x => rscale 0 x).
(** smooth/linear.py:23-40 *)
Definition smooth_linear (C : vec) (D : R) : smooth := build2 (fun x => rdot C x + D) (fun _ => C).
(** smooth/quad.py:24-61; None for an absent argument *)
Definition smooth_quad_matrix (P : option mat) (q : option vec) (r : option R) : smooth :=
  build2
  (fun x =>
     let v := match P with None => / 2 * rdot x x | Some P => / 2 * rdot (mv P x) x end in
     let v := match q with None => v | Some q => v + rdot q x end in
     match r with None => v | Some r => v + r end)
  (fun x =>
     let g := match P with None => x | Some P => mv P x end in
     match q with None => g | Some q => radd g q end).
(** smooth/quad.py:64-94 *)
Definition smooth_quad_error (n : nat) (A : mat) (b : vec) : smooth :=
  Smooth
  (fun x => let r := rsub (mv A x) b in / 2 * rdot r r)
  (fun x => let r := rsub (mv A x) b in mtv n A r)
  (fun x => let r := rsub (mv A x) b in
            let v := / 2 * rdot r r in
            let g := mtv n A r in (g, v)).
(** smooth/huber.py:23-49 *)
Definition smooth_huber (tau : R) : smooth :=
  build2
  (fun x => let x_mag := map Rabs x in
            let small := map (fun m => Rleb m tau) x_mag in
            let x_small := map (fun m => / 2 * (m * m) / tau) x_mag in
            let x_large := map (fun m => m - tau / 2) x_mag in
            let v := zipw (fun (c : bool) sl => if c then fst sl else snd sl) small (combine x_small x_large) in
            rlsum v)
  (fun x => map (fun a => a / Rmax tau (Rabs a)) x).
(** smooth/entropy.py:23-80; cnb.log_pos (external) is taken to be the logarithm
    on positive entries and a fixed value 0 at zero.  The value -inf and the
    not-a-number gradient outside the domain are None. *)
Definition log_pos (x : vec) : vec := map (fun a => if Rltb 0 a then ln a else 0) x.
Definition entropy_func (x : vec) : option R :=
  if vany (fun a => Rltb a 0) x then None else Some (- rdot x (log_pos x)).
Definition entropy_grad (x : vec) : option vec :=
  if vany (fun a => Rltb a 0) x then None else Some (map (fun l => - l - 1) (log_pos x)).
Definition entropy_vg_grad_val (x : vec) : option (vec * R) :=
  if vany (fun a => Rltb a 0) x then None
  else let logx := log_pos x in Some (map (fun l => - l - 1) logx, - rdot x logx).
(** smooth/smooth.py:110-140 *)
Definition smooth_func_translate (f : smooth) (b : vec) : smooth :=
  Smooth (fun x => sfunc f (radd x b)) (fun x => sgrad f (radd x b)) (fun x => sgrad_val f (radd x b)).

(** prox_to_smooth.py:22-43, for a prox-capable function with finite results:
    [f] its value, [prox x t] its proximal point *)
Definition moreau_envelope (f : vec -> R) (prox : vec -> R -> vec) (mu : R) : smooth :=
  Smooth
  (fun x => let px := prox x mu in let pv := f px in pv + 1 / 2 * nrm2 (rsub x px))
  (fun x => rscale (1 / mu) (rsub x (prox x mu)))
  (fun x => let px := prox x mu in let pv := f px in
            let v := pv + 1 / 2 * nrm2 (rsub x px) in
            let g := rscale (1 / mu) (rsub x px) in (g, v)).

(** *** geo/thresholding.py *)
(** thresholding.py:29-36 *)
Definition hard_threshold (x : vec) (tau : R) : vec :=
  let gamma := sqrt (2 * tau) in
  map (fun a => (if Rltb gamma (Rabs a) then 1 else 0) * a) x.
(** thresholding.py:40-47, real input *)
Definition soft_threshold (x : vec) (tau : R) : vec := map (fun a => Rmax 0 (a - tau) + Rmin 0 (a + tau)) x.
(** thresholding.py:44-45, complex input *)
Definition soft_threshold_c (x : list (R * R)) (tau : R) : list (R * R) := map (cshrink1 tau) x.
(** thresholding.py:51-62, on real input; the branch value is only used when
    |x| >= gamma.  (|x|/3)^(-1.5) is Rpower. *)
Definition half_gamma (tau : R) : R := Rpower 54 (1 / 3) / 4 * Rpower tau (2 / 3).
Definition half_threshold (x : vec) (tau : R) : vec :=
  let gamma := half_gamma tau in
  map (fun a => if Rleb gamma (Rabs a) then
                  let phi := 2 / 3 * acos (tau / 8 * Rpower (Rabs a / 3) (- (3 / 2))) in
                  2 / 3 * a * (1 + cos (2 * PI / 3 - phi))
                else 0) x.
(** thresholding.py:99-107 *)
Definition gamma_to_tau_half_threshold (gamma : R) : R := Rpower (4 / Rpower 54 (1 / 3) * gamma) (3 / 2).
Definition gamma_to_tau_hard_threshold (gamma : R) : R := / 2 * (gamma * gamma).
(** thresholding.py:66-95; [perc] stands for jnp.percentile(., p), external *)
Definition hard_threshold_percentile (perc : vec -> R) (x : vec) : vec :=
  let gamma := perc (map Rabs x) in
  let tau := / 2 * (gamma * gamma) in
  hard_threshold x tau.
Definition soft_threshold_percentile (perc : vec -> R) (x : vec) : vec :=
  let tau := perc (map Rabs x) in soft_threshold x tau.
Definition half_threshold_percentile (perc : vec -> R) (x : vec) : vec :=
  let gamma := perc (map Rabs x) in
  let tau := Rpower (4 / Rpower 54 (1 / 3) * gamma) (3 / 2) in
  half_threshold x tau.
