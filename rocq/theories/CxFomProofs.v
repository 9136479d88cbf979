(** Runs of the complex first order method as runs of the real one on vectors of
    twice the length. *)
From Coq Require Import List Arith Bool Lia Reals Lra Psatz.
From Verif Require Import Scalar Vec RVec RMat Loop LoopLemmas XReal SolverSpec SolverLemmas LopModel LopSpec OptSpec OptModel OptProofs OptProofs2 OptProofs3 OptProofs5 SpglProofs OptLemmas SpgSpec FomSpec FomModel FomProofs FomProofs2 FomProps CxSpec CxModel CxProofs CxProofs2 CxSpglModel CxSpglProofs CxSpglProofs2 CxFomModel CxFomSpec.
Import ListNotations.
Set Implicit Arguments.
Unset Strict Implicit.
Local Open Scope R_scope.

Definition lsm (f : csmooth) : smooth :=
  Smooth (fun v => cs_func f (unflat v)) (fun v => flat (cs_grad f (unflat v))) (fun v => let '(g, x) := cs_grad_val f (unflat v) in (flat g, x)).
Definition lpx (p : cproxcap) : proxcap :=
  ProxCap (fun v => cp_func p (unflat v))
    (fun v t => match cp_op p (unflat v) t with Some z => map Fin (flat z) | None => [NaN] end)
    (fun v t => match cp_vec_val p (unflat v) t with Some (z, c) => (map Fin (flat z), c) | None => ([NaN], NaN) end).
Lemma finite_Fin v : finite (map Fin v) = Some v.
Proof. induction v as [|a v IH]; [reflexivity|]. cbn. now rewrite IH. Qed.
Definition fl_fom (s : cfom_state) : fom_state :=
  FomState (cfm_L s) (cfm_theta s)
    (flat (cfm_x s)) (flat (cfm_Ax s)) (flat (cfm_gAx s)) (flat (cfm_gx s)) (cfm_fx s) (cfm_Cx s)
    (flat (cfm_y s)) (flat (cfm_Ay s)) (flat (cfm_gAy s)) (flat (cfm_gy s)) (cfm_fy s) (cfm_Cy s)
    (flat (cfm_z s)) (flat (cfm_Az s)) (flat (cfm_gAz s)) (flat (cfm_gz s)) (cfm_fz s) (cfm_Cz s)
    (cfm_norm_x s) (cfm_norm_dx s) (cfm_iterations s).
Lemma flat_vzero n : flat (vzero n) = rzero (2 * n).
Proof. induction n as [|n IH]; [reflexivity|]. replace (2 * S n)%nat with (S (S (2 * n))) by lia. cbn [vzero repeat flat]. unfold vzero in IH. cbn in *. rewrite IH. reflexivity. Qed.

Section Run.
  Variables (f : csmooth) (h : cproxcap) (A T : cvec -> cvec) (b : cvec) (opt : fom_options).
  Notation rf := (lsm f).
  Notation rh := (lpx h).
  Lemma fl_gv x : sgrad_val (fom_f rf (flat b)) (flat x) = (let '(g, v) := cs_grad_val (cfom_f f b) x in (flat g, v)).
  Proof. unfold fom_f, cfom_f. cbn. rewrite <- flat_add, unflat_flat. reflexivity. Qed.
  Lemma fl_backtrack x Ax gAx y Ay gAy L e beta :
    backtrack_L (flat x) (flat Ax) (flat gAx) (flat y) (flat Ay) (flat gAy) L e beta = cbacktrack_L x Ax gAx y Ay gAy L e beta.
  Proof. unfold backtrack_L, cbacktrack_L. cbv zeta. now rewrite <- !flat_sub, flat_nrm2, flat_dot. Qed.
  Lemma fl_finit x0 : fom_init rf rh (lift A) (flat b) opt (flat x0) = option_map fl_fom (cfom_init f h A b opt x0).
  Proof.
    unfold fom_init, cfom_init. cbv zeta. cbn [pfunc prox_vec_val lpx]. rewrite unflat_flat.
    assert (K : forall x c, (let A_x := lift A (flat x) in let '(g_Ax, f_x) := sgrad_val (fom_f rf (flat b)) A_x in
      Some (FomState (fo_L0 opt) None (flat x) A_x g_Ax (rzero (length (flat x))) f_x c (flat x) A_x g_Ax (rzero (length (flat x))) f_x PInf (flat x) A_x g_Ax (rzero (length (flat x))) f_x c (nrm (flat x)) (nrm (flat x)) 0)) =
      option_map fl_fom (let A_x := A x in let '(g_Ax, f_x) := cs_grad_val (cfom_f f b) A_x in
        Some (CFomState (fo_L0 opt) None x A_x g_Ax (vzero (length x)) f_x c x A_x g_Ax (vzero (length x)) f_x PInf x A_x g_Ax (vzero (length x)) f_x c (cnorm x) (cnorm x) 0))).
    { intros x c. cbv zeta. rewrite lift_flat, fl_gv. destruct (cs_grad_val (cfom_f f b) (A x)) as [g v]. cbn. unfold fl_fom. cbn.
      rewrite flat_len, <- flat_vzero, flat_nrm. reflexivity. }
    destruct (cp_func h x0) eqn:E.
    - apply K.
    - destruct (cp_vec_val h x0 1) as [[z c]|]; [|reflexivity]. rewrite finite_Fin. cbn [option_map]. apply K.
    - destruct (cp_vec_val h x0 1) as [[z c]|]; [|reflexivity]. rewrite finite_Fin. cbn [option_map]. apply K.
    - apply K.
  Qed.
  Lemma fl_fbody s : fom_body rf rh (lift A) (lift T) (flat b) opt (fl_fom s) = option_map fl_fom (cfom_body f h A T b opt s).
  Proof.
    unfold fom_body, cfom_body. cbv zeta. cbn [fl_fom fm_L fm_theta fm_x fm_z fm_iterations fm_gx fm_Cx fm_Cy fm_gAz fm_gz fm_fz].
    set (L := cfm_L s * fo_alpha opt). set (th := advance_theta _ _ _). rewrite <- !flat_scale, <- flat_add.
    set (y := vadd _ _). rewrite lift_flat, fl_gv. destruct (cs_grad_val (cfom_f f b) (A y)) as [gA fy]. rewrite lift_flat.
    destruct (Reqb (th * L) 0); [reflexivity|]. rewrite <- flat_scale, <- flat_sub. cbn [prox_vec_val lpx]. rewrite unflat_flat.
    destruct (cp_vec_val h _ _) as [[z Cz]|]; [|reflexivity]. rewrite finite_Fin. rewrite lift_flat, <- flat_scale, <- flat_add.
    set (x := vadd _ (vscale _ z)). rewrite lift_flat, fl_gv. destruct (cs_grad_val (cfom_f f b) (A x)) as [gx fx].
    rewrite fl_backtrack, <- flat_sub, !flat_nrm. reflexivity.
  Qed.
  Lemma fl_fcond s : fom_cond opt (fl_fom s) = cfom_cond opt s. Proof. reflexivity. Qed.
  Lemma fl_first x0 : fom_first rf rh (lift A) (lift T) (flat b) opt (flat x0) = option_map fl_fom (cfom_first f h A T b opt x0).
  Proof. unfold fom_first, cfom_first. rewrite fl_finit. destruct (cfom_init _ _ _ _ _ _) as [s|]; [|reflexivity]. cbn [option_map]. apply fl_fbody. Qed.
  Lemma fl_freaches s k s' : reaches (cfom_cond opt) (cfom_body f h A T b opt) s k s' ->
    reaches (fom_cond opt) (fom_body rf rh (lift A) (lift T) (flat b) opt) (fl_fom s) k (fl_fom s').
  Proof. intros H. exact (@sim_reaches _ _ fl_fom _ _ _ _ fl_fcond fl_fbody _ _ _ H). Qed.
  Lemma fl_frun x0 fuel : fom rf rh (lift A) (lift T) (flat b) opt (flat x0) fuel =
    match cfom f h A T b opt x0 fuel with Done s => Done (fl_fom s) | Fail => Fail | Fuel => Fuel end.
  Proof.
    unfold fom, cfom. rewrite fl_first. destruct (cfom_first _ _ _ _ _ _ _) as [s|]; [|reflexivity]. cbn [option_map].
    exact (@sim_while _ _ fl_fom _ _ _ _ fl_fcond fl_fbody fuel s).
  Qed.
End Run.

(** *** hypotheses *)
Lemma l_smooth m f : csmooth_ok m f -> smooth_ok (2 * m) (lsm f).
Proof.
  intros [H1 H2]. split.
  - intros u. cbn. rewrite H1. reflexivity.
  - intros u Lu. cbn. rewrite flat_len, H2; [reflexivity|now apply unflat_len].
Qed.
Definition ldom (d : cvec -> Prop) (v : vec) : Prop := d (unflat v).
Lemma unflat_between n x y t : length x = (2 * n)%nat -> length y = (2 * n)%nat ->
  unflat (radd x (rscale t (rsub y x))) = cbetween (unflat x) (unflat y) t.
Proof.
  intros Lx Ly. apply flat_inj. unfold cbetween. rewrite flat_add, !flat_scale, !(@flat_unflat n) by vl. veq.
Qed.
Lemma l_cset n d : cconvex_set n d -> convex_set (2 * n) (ldom d).
Proof. intros H x y t Lx Ly Dx Dy Ht. unfold ldom. rewrite (@unflat_between n) by auto. apply H; auto; now apply unflat_len. Qed.
Lemma l_con n d hv : cconvex_on n d hv -> convex_on (2 * n) (ldom d) (lift_f hv).
Proof. intros H x y t Lx Ly Dx Dy Ht. unfold lift_f. rewrite (@unflat_between n) by auto. apply H; auto; now apply unflat_len. Qed.
Lemma unflat_nsq n x y : length x = (2 * n)%nat -> length y = (2 * n)%nat -> cnsq (vsub (unflat x) (unflat y)) = nrm2 (rsub x y).
Proof. intros Lx Ly. now rewrite <- flat_nrm2, flat_sub, !(@flat_unflat n) by auto. Qed.
Lemma l_capable n d hv p : ccapable n d hv p -> capable (2 * n) (ldom d) (lift_f hv) (lpx p).
Proof.
  intros [H1 H2]. split.
  - intros x Lx. cbn. unfold ldom, lift_f. apply H1. now apply unflat_len.
  - intros v t Lv Ht. destruct (H2 (unflat v) t (unflat_len Lv) Ht) as (z & E & Lz & Dz & M). exists (flat z). cbn [prox_vec_val lpx]. rewrite E. unfold lift_f at 1. rewrite unflat_flat.
    split; [reflexivity|]. split; [rewrite flat_len; lia|]. split; [unfold ldom; now rewrite unflat_flat|].
    intros w Lw Dw. destruct (M (unflat w) (unflat_len Lw) Dw) as [M1 M2]. unfold prox_obj, lift_f. rewrite unflat_flat.
    rewrite (@unflat_nsq n) in M1, M2 by auto. rewrite <- (flat_unflat Lv) in *. rewrite <- flat_sub, flat_nrm2, (flat_unflat Lv) in *.
    split; [exact M1|]. intros Q. rewrite <- (flat_unflat Lw). f_equal. now apply M2.
Qed.
Lemma l_foc m f : cfirst_order_convex m (cs_func f) (cs_grad f) -> (forall u, length u = m -> length (cs_grad f u) = m) -> first_order_convex (2 * m) (sfunc (lsm f)) (sgrad (lsm f)).
Proof.
  intros H Hl u v Lu Lv. cbn. specialize (H (unflat u) (unflat v) (unflat_len Lu) (unflat_len Lv)).
  rewrite <- flat_dot, flat_sub, !(@flat_unflat m) in H by auto. exact H.
Qed.
Lemma l_lip n m f A b L : (forall x, length x = n -> length (A x) = m) -> length b = m -> clipschitz_after n m (cs_func f) (cs_grad f) A b L ->
  lipschitz_after (2 * n) (2 * m) (sfunc (lsm f)) (sgrad (lsm f)) (lift A) (flat b) L.
Proof.
  intros Ha Lb H x y Lx Ly. cbn. unfold lift. rewrite <- !flat_add, <- !flat_sub, !unflat_flat, flat_dot, <- (@unflat_nsq n) by auto. apply H; now apply unflat_len.
Qed.
Lemma l_comp f A b hv x : composite (sfunc (lsm f)) (lift A) (flat b) (lift_f hv) (flat x) = ccomposite (cs_func f) A b hv x.
Proof. unfold composite, ccomposite, lift_f. cbn. now rewrite lift_flat, <- flat_add, !unflat_flat. Qed.
Lemma l_min n f A b (d : cvec -> Prop) hv u : (forall v, length v = n -> d v -> ccomposite (cs_func f) A b hv u <= ccomposite (cs_func f) A b hv v) ->
  forall v, length v = (2 * n)%nat -> ldom d v -> composite (sfunc (lsm f)) (lift A) (flat b) (lift_f hv) (flat u) <= composite (sfunc (lsm f)) (lift A) (flat b) (lift_f hv) v.
Proof. intros H v Lv Dv. rewrite l_comp, <- (flat_unflat Lv), l_comp. apply H; [now apply unflat_len|exact Dv]. Qed.
Lemma adj_len n m (A T : cvec -> cvec) : is_adjoint m n A T -> forall x : cvec, length x = n -> length (A x) = m.
Proof.
  intros H x Lx. pose proof (lift_adjoint H) as (K & _). assert (Q : length (lift A (flat x)) = (2 * m)%nat) by (apply K; rewrite flat_len; lia).
  rewrite lift_flat, flat_len in Q. lia.
Qed.

(** *** instances *)
Lemma call_some_map (g : Cs -> option Cs) (k : Cs -> Cs) x : (forall z, g z = Some (k z)) -> call_some (map g x) = Some (map k x).
Proof. intros H. induction x as [|a x IH]; [reflexivity|]. cbn. rewrite H. cbn in IH. rewrite IH. reflexivity. Qed.
Lemma cabs_pos z : 0 <= cabs z. Proof. apply sqrt_pos. Qed.
Lemma cabs_zero z : cabs z = 0 -> z = (0, 0).
Proof. intros H. apply sqrt_eq_0 in H; [|nra]. destruct z as [a c]; cbn in *. apply (f_equal2 pair); nra. Qed.
Lemma prox_entry tq z : 0 < tq -> cfactor (xrsub 1 (xmin (xdiv tq (cabs z)) 1)) z = Some (cshrink1 tq z).
Proof.
  intros Ht. unfold xdiv. destruct (Reqb_spec (cabs z) 0) as [E|E].
  - destruct (Reqb_spec tq 0); [lra|]. destruct (Rltb_spec 0 tq); [|lra]. cbn. f_equal. unfold cshrink1. cbv zeta. rewrite E. destruct (Reqb_spec 0 0); [|lra]. cbn [fst snd].
    rewrite Rmax_right by lra. rewrite (cabs_zero E). unfold Cmul, ofR. cbn. apply (f_equal2 pair); ring.
  - pose proof (cabs_pos z). cbn. f_equal. unfold cshrink1. cbv zeta. destruct (Reqb_spec (cabs z) 0); [lra|]. cbn [fst snd]. unfold Cmul, ofR. cbn.
    destruct (Rle_or_lt (cabs z) tq) as [Q|Q].
    + rewrite (Rmax_right (cabs z - tq)) by lra. assert (1 <= tq / cabs z) by (apply Rmult_le_reg_r with (cabs z); [lra|]; field_simplify; lra).
      rewrite Rmin_right by auto. apply (f_equal2 pair); ring.
    + rewrite (Rmax_left (cabs z - tq)) by lra. assert (tq / cabs z <= 1) by (apply Rmult_le_reg_r with (cabs z); [lra|]; field_simplify; lra).
      rewrite Rmin_left by auto. apply (f_equal2 pair); field; auto.
Qed.
Lemma prox_soft q x t : 0 < q -> 0 < t -> cp_op (cprox_l1 q) x t = Some (soft_threshold_c x (t * q)).
Proof. intros Hq Ht. cbn. unfold soft_threshold_c. apply call_some_map. intros z. apply prox_entry. nra. Qed.
Lemma cl1_scale q x : 0 <= q -> cl1 (vscale (ofR q : Cs) x) = q * cl1 x.
Proof.
  intros Hq. induction x as [|[a c] x IH]; [cbn; ring|].
  change (cl1 (vscale (ofR q : Cs) ((a, c) :: x))) with (sqrt (Cnsq (Cmul (ofR q : Cs) (a, c))) + cl1 (vscale (ofR q : Cs) x)).
  change (cl1 ((a, c) :: x)) with (sqrt (Cnsq (a, c)) + cl1 x). rewrite IH. unfold Cnsq, Cmul, ofR. cbn.
  replace ((q * a - 0 * c) * (q * a - 0 * c) + (q * c + 0 * a) * (q * c + 0 * a)) with (Rsqr q * (a * a + c * c)) by (unfold Rsqr; ring).
  rewrite sqrt_mult by (unfold Rsqr; nra). rewrite sqrt_Rsqr by auto. ring.
Qed.
Lemma capable_cl1 n q : 0 < q -> ccapable n (fun _ => True) (fun z => q * cl1 z) (cprox_l1 q).
Proof.
  intros Hq. split.
  - intros x Lx. split; [|intros N; exfalso; apply N; exact I]. intros _. change (Fin (cl1 (vscale (ofR q : Cs) x)) = Fin (q * cl1 x)). now rewrite cl1_scale by lra.
  - intros a t La Ht. set (p := soft_threshold_c a (t * q)). exists p.
    assert (Lp : length p = n) by (unfold p, soft_threshold_c; now rewrite map_length).
    split.
    { change (match cp_op (cprox_l1 q) a t with Some z => Some (z, Fin (cl1 (vscale (ofR q : Cs) z))) | None => None end = Some (p, Fin (q * cl1 p))).
      rewrite (@prox_soft q a t Hq Ht). fold p. now rewrite cl1_scale by lra. }
    split; [exact Lp|]. split; [exact I|]. intros z Lz _. assert (K : 0 <= t * q) by nra.
    pose proof (@csoft_min a (t * q) z K) as M. cbv zeta in M. specialize (M (eq_trans Lz (eq_sym La))). fold p in M. unfold cdist2 in M. rewrite <- !cnsq_cdot in M.
    change (csub a p) with (vsub (a : cvec) p) in M. change (csub a z) with (vsub (a : cvec) z) in M. change (csub z p) with (vsub (z : cvec) p) in M.
    change (cnrm1 p) with (cl1 p) in M. change (cnrm1 z) with (cl1 z) in M.
    rewrite (@cnsq_sym n a p La Lp), (@cnsq_sym n a z La Lz) in M. rewrite <- !Rmult_assoc.
    pose proof (nrm2_pos (flat (vsub z p))) as P. rewrite flat_nrm2 in P. split; [lra|]. intros Q. assert (Z : cnsq (vsub z p) = 0) by lra.
    apply flat_inj. rewrite <- flat_nrm2, flat_sub in Z.
    pose proof (eq_trans (flat_len z) (f_equal (Nat.mul 2) Lz)) as L1. pose proof (eq_trans (flat_len p) (f_equal (Nat.mul 2) Lp)) as L2.
    apply vec_eq; [congruence|]. intros i Hi. pose proof (@SpglProofs.nrm2_zero (rsub (flat z) (flat p)) (2 * n) ltac:(vl) ltac:(lra)) as E.
    assert (E2 : (rsub (flat z) (flat p))@i = 0) by (rewrite E; apply rzero_nth). rewrite rsub_nth in E2 by congruence. lra.
Qed.
