(** On real data given as complex data the complex first order method makes the
    steps of the real one. *)
From Coq Require Import List Arith Bool Lia Reals Lra Psatz.
From Verif Require Import Scalar Vec RVec RMat Loop LoopLemmas XReal SolverSpec SolverLemmas LopModel LopSpec OptSpec OptModel OptProofs FomModel CxSpec CxModel CxProofs CxSpglModel CxSpglProofs CxBpSpec CxBpProofs2 CxFomModel.
Import ListNotations.
Set Implicit Arguments.
Unset Strict Implicit.
Local Open Scope R_scope.
Lemma emb_add x : forall y, vadd (emb x) (emb y) = (emb (radd x y) : list (car Cs)).
Proof. induction x as [|a x IH]; intros [|b y]; try reflexivity. pose proof (IH y) as E. unfold vadd, radd, emb in *. cbn in *. rewrite E. f_equal. unfold Cadd. cbn. apply (f_equal2 pair); ring. Qed.
Lemma emb_nsq x : cnsq (emb x) = nrm2 x.
Proof. rewrite <- flat_nrm2. unfold nrm2. rewrite flat_dot. now rewrite emb_inner. Qed.
Lemma emb_zero n : vzero n = (emb (rzero n) : list (car Cs)).
Proof. induction n as [|n IH]; [reflexivity|]. cbn. unfold vzero in IH. cbn in IH. rewrite IH. reflexivity. Qed.
Definition em_fom (s : fom_state) : cfom_state :=
  CFomState (fm_L s) (fm_theta s)
    (emb (fm_x s)) (emb (fm_Ax s)) (emb (fm_gAx s)) (emb (fm_gx s)) (fm_fx s) (fm_Cx s)
    (emb (fm_y s)) (emb (fm_Ay s)) (emb (fm_gAy s)) (emb (fm_gy s)) (fm_fy s) (fm_Cy s)
    (emb (fm_z s)) (emb (fm_Az s)) (emb (fm_gAz s)) (emb (fm_gz s)) (fm_fz s) (fm_Cz s)
    (fm_norm_x s) (fm_norm_dx s) (fm_iterations s).
Section Sim.
  Variables (f : csmooth) (h : cproxcap) (A T : cvec -> cvec) (fr : smooth) (hr : proxcap) (Ar Tr : vec -> vec) (b : vec) (opt : fom_options).
  Hypothesis HF : forall x, cs_grad_val f (emb x) = (let '(g, v) := sgrad_val fr x in (emb g, v)).
  Hypothesis HP : forall x, cp_func h (emb x) = pfunc hr x.
  Hypothesis HV : forall x t, cp_vec_val h (emb x) t = (let '(p, v) := prox_vec_val hr x t in option_map (fun z => (emb z : cvec, v)) (finite p)).
  Hypothesis HA : forall x, A (emb x) = emb (Ar x).
  Hypothesis HT : forall x, T (emb x) = emb (Tr x).
  Lemma em_gv x : cs_grad_val (cfom_f f (emb b)) (emb x) = (let '(g, v) := sgrad_val (fom_f fr b) x in (emb g, v)).
  Proof. unfold cfom_f, fom_f, csmooth_translate, smooth_func_translate. cbn [cs_grad_val sgrad_val]. rewrite emb_add. apply HF. Qed.
  Lemma em_back x Ax gAx y Ay gAy L e beta : cbacktrack_L (emb x) (emb Ax) (emb gAx) (emb y) (emb Ay) (emb gAy) L e beta = backtrack_L x Ax gAx y Ay gAy L e beta.
  Proof. unfold backtrack_L, cbacktrack_L. cbv zeta. rewrite !emb_sub, emb_nsq, emb_inner. reflexivity. Qed.
  Lemma em_finit x0 : cfom_init f h A (emb b) opt (emb x0) = option_map em_fom (fom_init fr hr Ar b opt x0).
  Proof.
    unfold fom_init, cfom_init. cbv zeta. rewrite HP.
    assert (K : forall x c, (let A_x := A (emb x) in let '(g_Ax, f_x) := cs_grad_val (cfom_f f (emb b)) A_x in
        Some (CFomState (fo_L0 opt) None (emb x) A_x g_Ax (vzero (length (emb x))) f_x c (emb x) A_x g_Ax (vzero (length (emb x))) f_x PInf (emb x) A_x g_Ax (vzero (length (emb x))) f_x c (cnorm (emb x)) (cnorm (emb x)) 0)) =
      option_map em_fom (let A_x := Ar x in let '(g_Ax, f_x) := sgrad_val (fom_f fr b) A_x in
        Some (FomState (fo_L0 opt) None x A_x g_Ax (rzero (length x)) f_x c x A_x g_Ax (rzero (length x)) f_x PInf x A_x g_Ax (rzero (length x)) f_x c (nrm x) (nrm x) 0))).
    { intros x c. cbv zeta. rewrite HA, em_gv. destruct (sgrad_val (fom_f fr b) (Ar x)) as [g v]. unfold option_map, em_fom. cbn [fm_L fm_theta fm_x fm_Ax fm_gAx fm_gx fm_fx fm_Cx fm_y fm_Ay fm_gAy fm_gy fm_fy fm_Cy fm_z fm_Az fm_gAz fm_gz fm_fz fm_Cz fm_norm_x fm_norm_dx fm_iterations].
      rewrite emb_len, emb_zero, emb_nrm. reflexivity. }
    destruct (pfunc hr x0) eqn:E; try (apply K).
    - rewrite HV. destruct (prox_vec_val hr x0 1) as [p c]. destruct (finite p) as [z|]; [|reflexivity]. cbn [option_map]. apply K.
    - rewrite HV. destruct (prox_vec_val hr x0 1) as [p c]. destruct (finite p) as [z|]; [|reflexivity]. cbn [option_map]. apply K.
  Qed.
  Lemma em_fbody s : cfom_body f h A T (emb b) opt (em_fom s) = option_map em_fom (fom_body fr hr Ar Tr b opt s).
  Proof.
    unfold fom_body, cfom_body. cbv zeta. cbn [em_fom cfm_L cfm_theta cfm_x cfm_z cfm_iterations cfm_gx cfm_Cx cfm_Cy cfm_gAz cfm_gz cfm_fz].
    set (L := fm_L s * fo_alpha opt). set (th := advance_theta _ _ _). rewrite !emb_scale, emb_add.
    set (y := radd _ _). rewrite HA, em_gv. destruct (sgrad_val (fom_f fr b) (Ar y)) as [gA fy]. rewrite HT.
    destruct (Reqb (th * L) 0); [reflexivity|]. rewrite emb_scale, emb_sub, HV.
    destruct (prox_vec_val hr _ _) as [p Cz]. destruct (finite p) as [z|]; [|reflexivity]. cbn [option_map]. rewrite HA, emb_scale, emb_add.
    set (x := radd _ (rscale _ z)). rewrite HA, em_gv. destruct (sgrad_val (fom_f fr b) (Ar x)) as [gx fx].
    rewrite em_back, emb_sub, !emb_nrm. reflexivity.
  Qed.
  Lemma em_fcond s : cfom_cond opt (em_fom s) = fom_cond opt s. Proof. reflexivity. Qed.
  Lemma em_frun x0 fuel : cfom f h A T (emb b) opt (emb x0) fuel =
    match fom fr hr Ar Tr b opt x0 fuel with Done s => Done (em_fom s) | Fail => Fail | Fuel => Fuel end.
  Proof.
    unfold fom, cfom, fom_first, cfom_first. rewrite em_finit. destruct (fom_init _ _ _ _ _ _) as [s|]; [|reflexivity]. cbn [option_map].
    rewrite em_fbody. destruct (fom_body _ _ _ _ _ _ s) as [s1|]; [|reflexivity]. cbn [option_map].
    exact (@sim_while _ _ em_fom _ _ _ _ em_fcond em_fbody fuel s1).
  Qed.
End Sim.
Lemma em_quad x : cs_grad_val csmooth_quad (emb x) = (let '(g, v) := sgrad_val (smooth_quad_matrix None None None) x in (emb g, v)).
Proof. unfold csmooth_quad. cbn [cs_grad_val]. now rewrite emb_inner. Qed.
Lemma lex_real a : lex_pos (a, 0) = Rltb 0 a.
Proof. unfold lex_pos. cbn. destruct (Rltb_spec 0 a); [reflexivity|]. cbn. destruct (Reqb a 0); [|reflexivity]. cbn. destruct (Rltb_spec 0 0); [lra|reflexivity]. Qed.
Lemma cmax0_real a : cmax0 (a, 0) = (Rmax 0 a, 0).
Proof. unfold cmax0. rewrite lex_real. destruct (Rltb_spec 0 a); [rewrite Rmax_right by lra|rewrite Rmax_left by lra]; reflexivity. Qed.
Lemma cmin0_real a : cmin0 (a, 0) = (Rmin 0 a, 0).
Proof. unfold cmin0. rewrite lex_real. destruct (Rltb_spec 0 a); [rewrite Rmin_left by lra|rewrite Rmin_right by lra]; reflexivity. Qed.
Lemma em_ball q x : cproj_l1_ball q (emb x) = emb (proj_l1_ball q x).
Proof.
  unfold cproj_l1_ball, proj_l1_ball. rewrite emb_l1. destruct (Rltb q (nrm1 x)); [|reflexivity]. unfold cproject_inside_ball, project_inside_ball. cbv zeta. rewrite emb_abs.
  set (k := l1_threshold _ _). unfold emb, shrink. rewrite !map_map. apply map_ext. intros a.
  change (Cadd (cmax0 (a - k, 0 - 0)) (cmin0 (a + k, 0 + 0)) = (Rmax 0 (a - k) + Rmin 0 (a + k), 0)).
  rewrite Rminus_0_r, Rplus_0_r, cmax0_real, cmin0_real. unfold Cadd. cbn. apply (f_equal2 pair); ring.
Qed.
Lemma em_ball_func q x : cp_func (cprox_l1_ball q) (emb x) = pfunc (prox_l1_ball q) x.
Proof. cbn. unfold ind_l1_ball. now rewrite emb_l1. Qed.
Lemma em_ball_vec q x t : cp_vec_val (cprox_l1_ball q) (emb x) t = (let '(p, v) := prox_vec_val (prox_l1_ball q) x t in option_map (fun z => (emb z : cvec, v)) (finite p)).
Proof.
  cbn [cp_vec_val cprox_l1_ball cbuild_from_ind_proj prox_vec_val prox_l1_ball build_from_ind_proj]. rewrite em_ball.
  replace (finite (map Fin (proj_l1_ball q x))) with (Some (proj_l1_ball q x)); [reflexivity|]. generalize (proj_l1_ball q x) as v. induction v as [|a v IH]; [reflexivity|]. cbn. now rewrite <- IH.
Qed.
Lemma em_l1_func q x : cp_func (cprox_l1 q) (emb x) = pfunc (prox_l1 q) x.
Proof. cbn [cp_func cprox_l1 cbuild pfunc prox_l1 build]. now rewrite emb_scale, emb_l1. Qed.
Lemma em_l1_entries q t x : call_some (map (fun z => cfactor (xrsub 1 (xmin (xdiv (t * q) (cabs z)) 1)) z) (emb x)) =
  option_map (fun z => emb z : cvec) (finite (map (fun a => xmul a (xrsub 1 (xmin (xdiv (t * q) (Rabs a)) 1))) x)).
Proof.
  induction x as [|a x IH]; [reflexivity|]. cbn [map emb as_complex]. fold (emb x). rewrite cabs_real. set (s := xrsub 1 _).
  destruct s as [s| | |]; cbn [cfactor xmul call_some finite].
  - rewrite IH. destruct (finite _) as [v|]; [|reflexivity]. cbn [option_map map emb as_complex]. f_equal. unfold as_complex. cbn [map]. f_equal. unfold Cmul, ofR. cbn. apply (f_equal2 pair); ring.
  - destruct (Reqb a 0); [reflexivity|]. destruct (Rltb 0 a); reflexivity.
  - destruct (Reqb a 0); [reflexivity|]. destruct (Rltb 0 a); reflexivity.
  - reflexivity.
Qed.
Lemma em_l1_vec q x t : cp_vec_val (cprox_l1 q) (emb x) t = (let '(p, v) := prox_vec_val (prox_l1 q) x t in option_map (fun z => (emb z : cvec, v)) (finite p)).
Proof.
  unfold cprox_l1, cbuild, prox_l1, build. cbn [cp_vec_val prox_vec_val]. cbv zeta. rewrite em_l1_entries.
  destruct (finite _) as [z|]; [|reflexivity]. cbn [option_map]. now rewrite emb_scale, emb_l1.
Qed.
