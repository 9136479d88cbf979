(** Power iterations and the norm estimate on complex data. *)
From Coq Require Import List Arith Bool Lia Reals Lra.
From Verif Require Import Scalar Vec RVec RMat Loop LoopLemmas SolverSpec SolverLemmas LopModel LopModel3 LopSpec LopOpSpec LopLemmas LopProofs2 SlsModel SlsSpec SlsProofs SlsLemmas PowerSpec PowerSpec2 PowerProofs4 PowerProps2
  CxSpec CxModel CxProofs CxSpglModel CxPursuitModel CxPursuitProofs CxLsModel CxLsSpec CxLsProofs CxLsProofs2.
Import ListNotations.
Set Implicit Arguments.
Local Open Scope R_scope.

Lemma lift_linear n H : @is_adjoint Cs n n H H -> linear_op (2 * n) (2 * n) (lift H) /\ symmetric_op (2 * n) (lift H).
Proof.
  intros HH. destruct (lift_adjoint HH) as (L & _ & Adj). split; [exact L|]. intros x y Lx Ly. apply Adj; auto.
Qed.
Lemma herm_real n H x : @is_adjoint Cs n n H H -> length x = n -> im x (H x) = 0.
Proof.
  intros HH Lx. assert (E : im x (H x) = - im x (H x)); [|lra].
  assert (E2 : im (H x) x = - im x (H x)) by apply im_sym. assert (E1 : im (H x) x = im x (H x)) by (unfold im; f_equal; now apply HH). lra.
Qed.
Lemma cnormalize_flat v : normalize (flat v) = option_map flat (cnormalize v).
Proof. unfold normalize, cnormalize. rewrite flat_nrm. destruct (Reqb (cnorm v) 0); auto. cbn [option_map]. now rewrite flat_scale. Qed.
Lemma cnormalize_len v w : cnormalize v = Some w -> length w = length v.
Proof. unfold cnormalize. destruct (Reqb _ 0); [discriminate|]. intros [= <-]. apply vscale_length. Qed.
Definition fl_power (s : cpower_state) : power_state := PowerState (flat (cw_v s)) (fst (cw_old s)) (fst (cw_new s)) (cw_it s).
Definition fl_psol (s : cpower_solution) : power_solution := PowerSolution (flat (cpw_v s)) (fst (cpw_s s)) (cpw_it s).
Section Power.
  Variables (n : nat) (H : cvec -> cvec) (b : cvec).
  Hypothesis HH : @is_adjoint Cs n n H H.
  Hypothesis Hb : length b = n.
  Definition power_inv (s : cpower_state) : Prop := length (cw_v s) = n /\ snd (cw_old s) = 0 /\ snd (cw_new s) = 0.
  Lemma power_inv_init : power_inv (cpower_init b).
  Proof. unfold power_inv, cpower_init. cbn [cw_v cw_old cw_new snd]. auto. Qed.
  Lemma power_inv_body s s' : power_inv s -> cpower_body H s = Some s' -> power_inv s'.
  Proof.
    intros (I1 & I2 & I3). unfold cpower_body. destruct (cnormalize (cw_v s)) as [v|] eqn:E; [|discriminate]. intros [= <-].
    apply cnormalize_len in E. assert (Lv : length v = n) by exact (eq_trans E I1).
    split; [|split]; cbn [cw_v cw_old cw_new]; [now apply HH|auto|]. exact (@herm_real n H v HH Lv).
  Qed.
  Lemma fl_power_body s : power_inv s -> power_body (lift H) (fl_power s) = option_map fl_power (cpower_body H s).
  Proof.
    intros _. unfold power_body, cpower_body. cbn [fl_power pw_v pw_old pw_new pw_it]. rewrite cnormalize_flat. destruct (cnormalize (cw_v s)) as [v|]; cbn [option_map]; auto.
    unfold fl_power. cbn [cw_v cw_old cw_new cw_it]. rewrite lift_flat, flat_dot. reflexivity.
  Qed.
  Lemma fl_power_cond mx tol s : power_inv s -> power_cond mx tol (fl_power s) = cpower_cond mx tol s.
  Proof.
    intros (_ & I2 & I3). unfold power_cond, cpower_cond. cbn [fl_power pw_old pw_new pw_it]. destruct (cw_old s) as [o o'], (cw_new s) as [e e']. cbn [fst snd] in *. subst o' e'. f_equal.
    unfold Csub, Cadd, Copp. cbn [fst snd].
    assert (Z : forall c, Reqb (Cnsq (c, 0)) 0 = Reqb c 0).
    { intros c. unfold Cnsq. cbn [fst snd]. destruct (Reqb_spec c 0) as [->|N]; match goal with |- Reqb ?x 0 = _ => destruct (Reqb_spec x 0) as [E|N'] end; auto; exfalso; nra. }
    replace (0 + - 0) with 0 by ring. replace (0 - 0) with 0 by ring. change (e + - o) with (e - o). rewrite !Z. destruct (Reqb_spec o 0) as [->|N]; [reflexivity|]. f_equal.
    unfold Cdiv, Cmul, Cinv, Cabs, Cnsq. cbn [fst snd]. set (q := (e - o) * (o / (o * o + 0 * 0)) - 0 * (- 0 / (o * o + 0 * 0))).
    replace ((e - o) * (- 0 / (o * o + 0 * 0)) + 0 * (o / (o * o + 0 * 0))) with 0 by (field; nra). replace (q * q + 0 * 0) with (Rsqr q) by (unfold Rsqr; ring). rewrite sqrt_Rsqr_abs. f_equal. unfold q. field. first [exact N|nra].
  Qed.
  Lemma fl_power_run mx tol fuel : power_iterations (lift H) (flat b) mx tol fuel =
    match cpower_iterations H b mx tol fuel with Done s => Done (fl_psol s) | Fail => Fail | Fuel => Fuel end.
  Proof.
    unfold power_iterations, cpower_iterations. change (power_init (flat b)) with (fl_power (cpower_init b)).
    rewrite (@sim2_while _ _ fl_power power_inv _ _ _ _ (fun s => @fl_power_cond mx tol s) fl_power_body power_inv_body fuel _ power_inv_init).
    destruct (while_ _ _ fuel (cpower_init b)) as [s| |]; auto. cbn [fl_power pw_v pw_new pw_it]. rewrite cnormalize_flat. destruct (cnormalize (cw_v s)); reflexivity.
  Qed.
  Lemma cpower_real mx tol fuel sol : cpower_iterations H b mx tol fuel = Done sol -> snd (cpw_s sol) = 0 /\ length (cpw_v sol) = n.
  Proof.
    unfold cpower_iterations. destruct (while_ _ _ fuel (cpower_init b)) as [s| |] eqn:E; try discriminate.
    apply (@while_inv _ _ _ power_inv) in E; [|intros s1 s2 I _ B; exact (power_inv_body I B)|exact power_inv_init]. destruct E as [(I1 & I2 & I3) _].
    destruct (cnormalize (cw_v s)) as [v|] eqn:N; [|discriminate]. intros [= <-]. cbn [cpw_s cpw_v]. split; auto. apply cnormalize_len in N. exact (eq_trans N I1).
  Qed.
  Lemma fl_power_done mx tol fuel sol : cpower_iterations H b mx tol fuel = Done sol -> power_iterations (lift H) (flat b) mx tol fuel = Done (fl_psol sol).
  Proof. intros E. now rewrite fl_power_run, E. Qed.
End Power.
Lemma lift_seen n H b lam : @is_adjoint Cs n n H H -> length b = n -> seen (2 * n) (lift H) (flat b) lam -> cseen n H b lam.
Proof.
  intros HH Hb [(u & Lu & Eu & Nu) S2]. pose proof (unflat_len Lu) as Lw. rewrite <- (flat_unflat Lu) in Eu, Nu. set (w := unflat u) in *.
  rewrite lift_flat, <- flat_scale in Eu. apply flat_inj in Eu. split.
  - exists w. split; [auto|]. split; [auto|]. intros Z. apply Nu. rewrite flat_dot. now rewrite Z.
  - intros lam' v Hl Lv Ev. assert (Z : forall x, length x = n -> H x = vscale (ofR lam' : Cs) x -> rdot (flat b) (flat x) = 0).
    { intros x Lx Ex. apply (S2 lam' (flat x) Hl); [rewrite flat_len; now rewrite Lx|]. now rewrite lift_flat, Ex, flat_scale. }
    pose proof (Z v Lv Ev) as Z1. assert (Li : length (ci v) = n) by (unfold ci; now rewrite (@vscale_length Cs)).
    assert (Ei : H (ci v) = vscale (ofR lam' : Cs) (ci v)).
    { unfold ci. destruct (adjoint_linear HH) as [_ Fs]. rewrite Fs by auto. rewrite Ev. clear. induction v as [|z v IH]; [reflexivity|].
      change (Cmul (0, 1) (Cmul (lam', 0) z) :: vscale ((0, 1) : Cs) (vscale (ofR lam' : Cs) v) = Cmul (lam', 0) (Cmul (0, 1) z) :: vscale (ofR lam' : Cs) (vscale ((0, 1) : Cs) v)).
      rewrite IH. f_equal. change Cx in z. destruct z. unfold Cmul. cbn. apply (f_equal2 pair); ring. }
    pose proof (Z (ci v) Li Ei) as Z2. rewrite ci_dot in Z2. rewrite flat_dot in Z1. unfold im in Z2. destruct (inner b v : Cx) as [p q]. cbn [fst snd] in *. apply (f_equal2 pair); lra.
Qed.
Lemma lift_tan2 v x : tan2 (flat v) (flat x) = ctan2 v x.
Proof. unfold tan2, ctan2. now rewrite flat_nrm2, flat_dot. Qed.
Lemma lift_psd n H : hermitian_psd n H -> psd_op (2 * n) (lift H).
Proof. intros [_ P] v Lv. rewrite <- (flat_unflat Lv), lift_flat, flat_dot. apply P. now apply unflat_len. Qed.
Lemma flat_zero' n : flat (@vzero Cs n) = rzero (2 * n).
Proof.
  replace (2 * n)%nat with (n + n)%nat by lia. induction n as [|k IH]; [reflexivity|]. replace (S k + S k)%nat with (S (S (k + k))) by lia.
  change (0 :: 0 :: flat (@vzero Cs k) = 0 :: 0 :: rzero (k + k)). now rewrite IH.
Qed.
Lemma cpower_any n H b : hermitian_psd n H -> length b = n -> H b <> @vzero Cs n ->
  exists lam mu v, 0 <= mu < lam /\ cseen n H b lam /\ length v = n /\ cnsq v = 1 /\ H v = vscale (ofR lam : Cs) v /\ 0 < fst (inner b v : Cx) /\
  (forall max_iters tol fuel sol, cpower_iterations H b max_iters tol fuel = Done sol -> (0 < cpw_it sol)%nat ->
    Rabs (fst (cpw_s sol) - lam) <= (lam + mu) * ((mu / lam) ^ (2 * (cpw_it sol - 1)) * ctan2 v b) /\
    exists sg, (sg = 1 \/ sg = -1) /\ cnsq (vsub (cpw_v sol) (vscale (ofR sg : Cs) v)) <= 2 * ((mu / lam) ^ (2 * cpw_it sol) * ctan2 v b)) /\
  (forall max_iters tol fuel, (max_iters <= fuel)%nat -> exists sol, cpower_iterations H b max_iters tol fuel = Done sol) /\
  (forall tol, 0 < tol -> exists k0, forall max_iters fuel, (k0 <= fuel)%nat ->
    exists sol, cpower_iterations H b max_iters tol fuel = Done sol /\ (cpw_it sol <= k0)%nat).
Proof.
  intros HP Hb Nz. pose proof (proj1 HP) as HH. destruct (lift_linear HH) as [L1 L2].
  assert (Lf : length (flat b) = (2 * n)%nat) by (rewrite flat_len; now rewrite Hb).
  assert (Nf : lift H (flat b) <> rzero (2 * n)) by (rewrite lift_flat, <- flat_zero'; intros E; apply Nz; now apply flat_inj).
  destruct (power_any L1 L2 (lift_psd HP) Lf Nf) as (lam & mu & v & Hm & S & Lv & Nv & Ev & Pv & C1 & C2 & C3).
  pose proof (unflat_len Lv) as Lw. rewrite <- (flat_unflat Lv) in Nv, Ev, Pv, C1. set (w := unflat v) in *. exists lam, mu, w. 
  rewrite lift_flat, <- flat_scale in Ev. apply flat_inj in Ev. rewrite flat_nrm2 in Nv. rewrite flat_dot in Pv.
  split; [exact Hm|]. split; [now apply lift_seen|]. split; [exact Lw|]. split; [exact Nv|]. split; [exact Ev|]. split; [exact Pv|]. split; [|split].
  - intros mx tol fuel sol E K. apply (@fl_power_done n H b HH Hb) in E. destruct (C1 mx tol fuel (fl_psol sol) E K) as (Q1 & sg & Hs & Q2). cbn [fl_psol ps_s ps_it ps_v] in Q1, Q2.
    rewrite lift_tan2 in Q1, Q2. rewrite <- flat_scale, <- flat_sub, flat_nrm2 in Q2. split; [exact Q1|]. exists sg. auto.
  - intros mx tol fuel Hf. destruct (C2 mx tol fuel Hf) as [sol E]. rewrite (@fl_power_run n H b HH Hb) in E. destruct (cpower_iterations H b mx tol fuel); try discriminate. eauto.
  - intros tol Ht. destruct (C3 tol Ht) as [k0 Q]. exists k0. intros mx fuel Hf. destruct (Q mx fuel Hf) as (sol & E & K). rewrite (@fl_power_run n H b HH Hb) in E.
    destruct (cpower_iterations H b mx tol fuel) as [sc| |]; try discriminate. injection E as <-. exists sc. auto.
Qed.
Lemma cseen_top n H b lam L u : hermitian_psd n H -> length b = n -> cseen n H b lam ->
  (forall x, length x = n -> fst (inner x (H x) : Cx) <= L * cnsq x) -> length u = n -> fst (inner u (H u) : Cx) = L * cnsq u -> inner b u <> ((0, 0) : Cx) -> lam = L.
Proof.
  intros HP Hb [(w & Lw & Ew & Nw) S2] HL Lu Eu Nu. pose proof (proj1 HP) as HH.
  (* a vector attaining the bound is an eigenvector *)
  destruct (lift_linear HH) as [L1 L2]. assert (Fl : forall x : cvec, length x = n -> length (flat x) = (2 * n)%nat) by (intros x E; rewrite flat_len; now rewrite E).
  assert (BL : forall x, length x = (2 * n)%nat -> rdot x (lift H x) <= L * nrm2 x).
  { intros x Lx. rewrite <- (flat_unflat Lx), lift_flat, flat_dot, flat_nrm2. apply HL. now apply unflat_len. }
  (* seen for the realified operator, after turning the phase *)
  set (nz := fun x : cvec => rdot (flat b) (flat x) <> 0).
  assert (Tw : exists x, length x = n /\ H x = vscale (ofR lam : Cs) x /\ nz x).
  { destruct (Req_EM_T (rdot (flat b) (flat w)) 0) as [E|E]; [|exists w; auto]. exists (ci w). split; [unfold ci; now rewrite (@vscale_length Cs)|]. split.
    - unfold ci. destruct (adjoint_linear HH) as [_ Fs]. rewrite Fs by auto. rewrite Ew. clear. induction w as [|z v IH]; [reflexivity|].
      change (Cmul (0, 1) (Cmul (lam, 0) z) :: vscale ((0, 1) : Cs) (vscale (ofR lam : Cs) v) = Cmul (lam, 0) (Cmul (0, 1) z) :: vscale (ofR lam : Cs) (vscale ((0, 1) : Cs) v)).
      rewrite IH. f_equal. change Cx in z. destruct z. unfold Cmul. cbn. apply (f_equal2 pair); ring.
    - unfold nz. rewrite ci_dot. intros Z. apply Nw. rewrite flat_dot in E. unfold im in Z. destruct (inner b w : Cx) as [p q]. cbn [fst snd] in *. apply (f_equal2 pair); lra. }
  assert (Tu : exists x, length x = n /\ fst (inner x (H x) : Cx) = L * cnsq x /\ nz x).
  { destruct (Req_EM_T (rdot (flat b) (flat u)) 0) as [E|E]; [|exists u; auto]. exists (ci u). split; [unfold ci; now rewrite (@vscale_length Cs)|]. split.
    - rewrite <- flat_nrm2. unfold nrm2. rewrite ci_dot2. assert (Ei : H (ci u) = ci (H u)) by (unfold ci; destruct (adjoint_linear HH) as [_ Fs]; now rewrite Fs). rewrite Ei, <- flat_dot, ci_dot2, flat_dot.
      change (rdot (flat u) (flat u)) with (nrm2 (flat u)). now rewrite flat_nrm2.
    - unfold nz. rewrite ci_dot. intros Z. apply Nu. rewrite flat_dot in E. unfold im in Z. destruct (inner b u : Cx) as [p q]. cbn [fst snd] in *. apply (f_equal2 pair); lra. }
  destruct Tw as (x & Lx & Ex & Nx). destruct Tu as (y & Ly & Ey & Ny).
  apply (@seen_top (2 * n) (lift H) (flat b) lam L (flat y) L1 L2 (lift_psd HP) (Fl _ Hb)); auto.
  - split.
    + exists (flat x). split; [now apply Fl|]. split; [now rewrite lift_flat, Ex, flat_scale|exact Nx].
    + intros lam' v Hl Lv Ev. rewrite <- (flat_unflat Lv) in Ev |- *. rewrite lift_flat, <- flat_scale in Ev. apply flat_inj in Ev. rewrite flat_dot, (S2 lam' _ Hl (unflat_len Lv) Ev). reflexivity.
  - now rewrite lift_flat, flat_dot, flat_nrm2.
Qed.
