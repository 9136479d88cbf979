(** Element types of the loop states of the convex solvers
    cr/sparse/_src/cvx/{adm/yall1,l1ls,focuss}.py.  lax.while_loop traces the
    body once on the types of the initial state and raises a TypeError unless the
    types it returns are the same.  Real numbers mixed with complex ones give
    complex ones.  The Python scalars 0. (dual_objective in yall1.py) and
    jnp.inf (s in l1ls.py) are weakly typed: JAX converts them to the type that
    the body returns, so these fields are left out. *)
From Coq Require Import List Bool.
From Verif Require Import CxSpglModel.
Import ListNotations.

Local Notation "s <+> t" := (result_type s t) (at level 50, left associativity).

(** *** YALL1 *)
(** BPState, yall1.py:38-57, without dual_objective and the counters *)
Record yall_types := YallTypes { yt_x : array_type; yt_x_prev : array_type; yt_z : array_type;
  yt_rp : array_type; yt_rd : array_type; yt_primal : array_type }.
(** the three problems: solve_bp, solve_l1_l2, solve_l1_l2con *)
Inductive yall_kind := YallBp | YallL1L2 | YallL1L2con.
(** primal_objective: |w x|_1 is real (yall1.py:107, 138, 353, 387);
    solve_l1_l2 adds a multiple of rp.T @ rp (yall1.py:228, 269) *)
Definition primal_type (k : yall_kind) (rp : array_type) : array_type :=
  match k with YallL1L2 => rp | _ => RealArr end.
Section Yall.
  Variables (k : yall_kind) (ta tb : array_type).
  (** init, yall1.py:102-114, 220-236, 348-360; x_prev = jnp.zeros(x0.shape) is real *)
  Definition yall_init_types (tx tz : array_type) : yall_types :=
    let rp := tb <+> (ta <+> tx) in
    YallTypes tx RealArr tz rp (ta <+> tb) (primal_type k rp).
  (** iteration, yall1.py:116-146, 238-278, 362-402.  Both branches of
      jnp.where are computed: the box projection has the type of its argument. *)
  Definition yall_iteration_types (c : yall_types) : yall_types :=
    let y := (ta <+> (yt_z c <+> yt_x c)) <+> tb in
    let Aty := ta <+> y in
    let z := Aty <+> yt_x c in
    let rd := z <+> Aty in
    let x := yt_x c <+> rd in
    let rp := tb <+> (ta <+> x) in
    YallTypes x (yt_x c) z rp rd (primal_type k rp).
  (** double_iteration, yall1.py:148-150, 280-282, 404-406 *)
  Definition yall_body_types (c : yall_types) : yall_types := yall_iteration_types (yall_iteration_types c).
  Definition yall_accepts (tx tz : array_type) : Prop := yall_body_types (yall_init_types tx tz) = yall_init_types tx tz.
End Yall.
(** solve, yall1.py:504-508: x0 = Atb / b_max and z0 = jnp.zeros(n) unless given *)
Definition yall_x0 (ta tb : array_type) (x0 : option array_type) : array_type :=
  match x0 with Some t => t | None => ta <+> tb end.
Definition yall_z0 (z0 : option array_type) : array_type := match z0 with Some t => t | None => RealArr end.

(** *** Preconditioned conjugate gradients, pcg.py:36-90: operator A and
    preconditioner M add the types ta and tm; gamma is converted to real *)
Record pcg_types := PcgTypes { pt_x : array_type; pt_r : array_type; pt_p : array_type }.
Section Pcg.
  Variables (ta tm tb : array_type).
  (** pcg.py:47-56 *)
  Definition pcg_init_types (tx : array_type) : pcg_types :=
    let r := tb <+> (ta <+> tx) in PcgTypes tx r (tm <+> r).
  (** pcg.py:58-78; alpha = gamma / vdot(p, A p) has the type of p and A p *)
  Definition pcg_body_types (c : pcg_types) : pcg_types :=
    let Ap := ta <+> pt_p c in
    let alpha := pt_p c <+> Ap in
    let x := pt_x c <+> (alpha <+> pt_p c) in
    let r := pt_r c <+> (alpha <+> Ap) in
    PcgTypes x r ((tm <+> r) <+> pt_p c).
  Definition pcg_accepts (tx : array_type) : Prop := pcg_body_types (pcg_init_types tx) = pcg_init_types tx.
End Pcg.

(** *** Interior point method *)
(** State, l1ls.py:84-114, without s, t and the counters *)
Record l1ls_types := L1lsTypes { lt_x : array_type; lt_u : array_type; lt_z : array_type; lt_nu : array_type;
  lt_dxu : array_type; lt_primal : array_type; lt_dual : array_type; lt_gap : array_type; lt_rel_gap : array_type }.
Section L1ls.
  Variables (ta ty : array_type).
  (** init, l1ls.py:162-175, with get_nu 146-154 (the norm is real),
      get_primal_obj 136-139 and get_dual_obj 141-144; dxu = jnp.zeros(2*n) is real *)
  Definition l1ls_init_types (tx tu : array_type) : l1ls_types :=
    let z := (ta <+> tx) <+> ty in
    let nu := z in
    let primal := z in
    let dual := nu <+> ty in
    let gap := primal <+> dual in
    L1lsTypes tx tu z nu RealArr primal dual gap (gap <+> dual).
  (** l1ls.py:198-208: q1, q2, d1, d2 and the gradient of the barrier function *)
  Definition l1ls_q (c : l1ls_types) : array_type := lt_u c <+> lt_x c.
  Definition l1ls_gradient (c : l1ls_types) : array_type := (ta <+> lt_z c) <+> l1ls_q c.
  (** the inner solve, l1ls.py:254-256: hessian 213-220 and preconditioner 236-243 *)
  Definition l1ls_inner_accepts (c : l1ls_types) : Prop :=
    pcg_accepts (ta <+> l1ls_q c) (l1ls_q c) (l1ls_gradient c) (lt_dxu c).
  (** body, l1ls.py:177-355: the accepted inner loop returns the type it starts
      with, the line search loops (277-316) those of their first candidate *)
  Definition l1ls_body_types (c : l1ls_types) : l1ls_types :=
    let dxu := lt_dxu c in
    let x := lt_x c <+> dxu in
    let u := lt_u c <+> dxu in
    let z := (ta <+> x) <+> ty in
    let nu := z in
    let primal := z in
    let dual := (nu <+> ty) <+> lt_dual c in
    let gap := primal <+> dual in
    L1lsTypes x u z nu dxu primal dual gap (gap <+> lt_dual c).
  Definition l1ls_accepts (tx tu : array_type) : Prop :=
    let c := l1ls_init_types tx tu in l1ls_inner_accepts c /\ l1ls_body_types c = c.
End L1ls.
(** solve, l1ls.py:378-379: jnp.zeros(n), jnp.ones(n) unless given *)
Definition l1ls_start (t : option array_type) : array_type := match t with Some t => t | None => RealArr end.

(** *** FOCUSS *)
(** FocussState, focuss.py:41-51, without the counter *)
Record focuss_types := FocussTypes { ft_x : array_type; ft_r : array_type; ft_rn : array_type }.
(** focuss.py:105-114; x = jnp.ones(n) is real *)
Definition focuss_init_types (tp ty : array_type) : focuss_types :=
  let r := ty <+> (tp <+> RealArr) in FocussTypes RealArr r r.
(** focuss.py:116-126; |x| ** p is real *)
Definition focuss_body_types (tp ty : array_type) (c : focuss_types) : focuss_types :=
  let A := RealArr <+> tp in let G := tp <+> A in
  let x := A <+> (G <+> ty) in
  let r := ty <+> (tp <+> x) in FocussTypes x r r.
Definition focuss_accepts (tp ty : array_type) : Prop :=
  focuss_body_types tp ty (focuss_init_types tp ty) = focuss_init_types tp ty.
