(** LSQR on complex data: simulation by LSQR on the realified operator. *)
From Coq Require Import List Arith Bool Lia Reals Lra.
From Verif Require Import Scalar Vec RVec RMat Loop LoopLemmas LinDep LopModel3 SolverSpec SolverLemmas LopSpec LopOpSpec LopLemmas CGModel SlsModel LsqrModel LsqrSpec LsqrProofs LsqrLemmas
  CxSpec CxModel CxProofs CxSpglModel CxPursuitModel CxPursuitProofs CxLsModel CxLsSpec.
Import ListNotations.
Set Implicit Arguments.
Local Open Scope R_scope.

Section Sim2.
  Variables (S T : Type) (h : S -> T) (I : S -> Prop) (c : S -> bool) (g : S -> option S) (c' : T -> bool) (g' : T -> option T).
  Hypothesis Hc : forall s, I s -> c' (h s) = c s.
  Hypothesis Hg : forall s, I s -> g' (h s) = option_map h (g s).
  Hypothesis HI : forall s s', I s -> g s = Some s' -> I s'.
  Lemma sim2_reaches s0 k s : I s0 -> reaches c g s0 k s -> I s /\ reaches c' g' (h s0) k (h s).
  Proof.
    intros I0. induction 1 as [|k s s' H [Is IH] E B]; [split; [auto|constructor]|]. split; [eauto|]. econstructor; [exact IH|now rewrite Hc|]. now rewrite Hg, B.
  Qed.
  Lemma sim2_while fuel : forall s, I s -> while_ c' g' fuel (h s) = match while_ c g fuel s with Done s => Done (h s) | Fail => Fail | Fuel => Fuel end.
  Proof.
    induction fuel as [|f IH]; intros s Is; simpl; rewrite (Hc Is); destruct (c s); auto. rewrite (Hg Is). destruct (g s) as [s'|] eqn:E; simpl; eauto.
  Qed.
  Lemma sim2_lift k : forall s0 t, I s0 -> reaches c' g' (h s0) k t -> exists s, reaches c g s0 k s /\ t = h s.
  Proof.
    induction k as [|k IH]; intros s0 t I0 H.
    - inversion H; subst. exists s0. split; [constructor|auto].
    - destruct (reaches_S_inv H) as (t1 & H1 & C & B). destruct (IH _ _ I0 H1) as (s1 & R1 & ->). destruct (sim2_reaches I0 R1) as [I1 _].
      rewrite Hc in C by auto. rewrite Hg in B by auto. destruct (g s1) as [s'|] eqn:E; [|discriminate]. injection B as <-. exists s'. split; auto. econstructor; eauto.
  Qed.
End Sim2.
(** a loop whose condition is weakened stops in the same state when the weaker condition is false there *)
Lemma while_weaken (S : Type) (c1 c2 : S -> bool) (g : S -> option S) : (forall s, c1 s = true -> c2 s = true) ->
  forall fuel s s', while_ c1 g fuel s = Done s' -> c2 s' = false -> while_ c2 g fuel s = Done s'.
Proof.
  intros H. induction fuel as [|f IH]; intros s s'; simpl; destruct (c1 s) eqn:E1; try discriminate.
  - intros [= <-] E2. now rewrite E2.
  - rewrite (H _ E1). destruct (g s); [|discriminate]. apply IH.
  - intros [= <-] E2. now rewrite E2.
Qed.

Lemma cl2norm_eq x : cl2norm x = nrm (flat x).
Proof.
  unfold cl2norm. rewrite inner_self, flat_nrm. unfold cnorm, Cabs. f_equal. unfold Cnsq. cbn [fst snd].
  replace (cnsq x * cnsq x + 0 * 0) with (cnsq x * cnsq x) by ring. apply sqrt_square. rewrite <- flat_nrm2. apply rdot_pos.
Qed.
Lemma cunit_flat u c : flat (cunit_if_pos u c) = unit_if_pos (flat u) c.
Proof. unfold cunit_if_pos, unit_if_pos. destruct (Rltb 0 c); auto. apply flat_scale. Qed.
Lemma Csqrt_real a : 0 <= a -> Csqrt (a, 0) = (sqrt a, 0).
Proof.
  intros Ha. unfold Csqrt, Cabs, Cnsq. cbn [fst snd]. replace (a * a + 0 * 0) with (a * a) by ring. rewrite sqrt_square by auto.
  destruct (Rltb_spec 0 0); [lra|]. replace ((a + a) / 2) with a by field. replace ((a - a) / 2) with 0 by field. now rewrite sqrt_0.
Qed.
Definition fl_lsqr (s : clsqr_state) : lsqr_state :=
  LSQRState (flat (cq_x s)) (flat (cq_w s)) (flat (cq_u s)) (flat (cq_v s)) (cq_alpha s) (cq_beta s) (cq_rho_bar s) (cq_phi_bar s) (cq_z s) (cq_cs2 s) (cq_sn2 s)
    (fst (cq_D_norm_sqr s)) (cq_cum_z_sqr s) (cq_cum_psi_sqr s) (cq_A_norm s) (fst (cq_A_cond s)) (cq_x_norm s) (cq_r_norm s) (cq_atr_norm s) (cq_it s) (cq_n_times s) (cq_n_trans s).
Definition lsqr_inv (s : clsqr_state) : Prop := snd (cq_D_norm_sqr s) = 0 /\ 0 <= fst (cq_D_norm_sqr s) /\ snd (cq_A_cond s) = 0.
Lemma fl_lsqr_init A b x0 : lsqr_init (lift_op A) (flat b) (flat x0) = fl_lsqr (clsqr_init A b x0) /\ lsqr_inv (clsqr_init A b x0).
Proof.
  split; [|unfold lsqr_inv, clsqr_init; cbn [cq_D_norm_sqr cq_A_cond fst snd]; lra]. unfold lsqr_init, clsqr_init, fl_lsqr.
  cbn [cq_x cq_w cq_u cq_v cq_alpha cq_beta cq_rho_bar cq_phi_bar cq_z cq_cs2 cq_sn2 cq_D_norm_sqr cq_cum_z_sqr cq_cum_psi_sqr cq_A_norm cq_A_cond cq_x_norm cq_r_norm cq_atr_norm cq_it cq_n_times cq_n_trans fst lift_op so_times so_trans].
  rewrite !cl2norm_eq, !cunit_flat, lift_flat, <- flat_sub, <- cunit_flat, lift_flat. reflexivity.
Qed.
Ltac flq := cbn [fl_lsqr lq_x lq_w lq_u lq_v lq_alpha lq_beta lq_rho_bar lq_phi_bar lq_z lq_cs2 lq_sn2 lq_D_norm_sqr lq_cum_z_sqr lq_cum_psi_sqr lq_A_norm lq_A_cond lq_x_norm lq_r_norm lq_atr_norm lq_it lq_n_times lq_n_trans
  cq_x cq_w cq_u cq_v cq_alpha cq_beta cq_rho_bar cq_phi_bar cq_z cq_cs2 cq_sn2 cq_D_norm_sqr cq_cum_z_sqr cq_cum_psi_sqr cq_A_norm cq_A_cond cq_x_norm cq_r_norm cq_atr_norm cq_it cq_n_times cq_n_trans fst snd lift_op so_times so_trans option_map].
Lemma inv_real (c t : R) : (Reqb (Cnsq (c, 0)) 0 || Cgtb (Cdiv (1, 0) (c, 0)) (t, 0))%bool = (Reqb c 0 || Rltb t (1 / c))%bool.
Proof.
  destruct (Reqb_spec c 0) as [->|N].
  - destruct (Reqb_spec (Cnsq (0, 0)) 0) as [|N]; auto. exfalso. apply N. unfold Cnsq. cbn. ring.
  - destruct (Reqb_spec (Cnsq (c, 0)) 0) as [E|N2]; [exfalso; unfold Cnsq in E; cbn in E; nra|]. cbn [orb].
    assert (E : Cdiv (1, 0) (c, 0) = (1 / c, 0)) by (unfold Cdiv, Cmul, Cinv, Cnsq; cbn [fst snd]; apply (f_equal2 pair); field; auto; nra).
    rewrite E. unfold Cgtb. cbn [fst snd]. destruct (Rltb_spec 0 0); [lra|]. now rewrite andb_false_r, orb_false_r.
Qed.
Lemma fl_lsqr_cond A b x0 atol btol conlim mx s : lsqr_inv s ->
  lsqr_cond (lift_op A) (flat b) (flat x0) atol btol conlim mx (fl_lsqr s) = clsqr_cond A b x0 atol btol conlim mx s.
Proof.
  intros (_ & _ & I3). unfold lsqr_cond, clsqr_cond. rewrite (proj1 (fl_lsqr_init A b x0)). flq.
  destruct (cq_A_cond s) as [c d]. cbn [snd] in I3. subst d. cbn [fst]. rewrite !inv_real. reflexivity.
Qed.
Lemma lsqr_inv_body A damp s s' : lsqr_inv s -> clsqr_body A damp s = Some s' -> lsqr_inv s'.
Proof.
  intros (I1 & I2 & I3). unfold clsqr_body. cbv zeta.
  repeat match goal with |- match ?t with _ => _ end = Some _ -> _ => destruct t; try discriminate end.
  intros [= <-]. unfold lsqr_inv. flq. rewrite inner_self. destruct (cq_D_norm_sqr s) as [d e]. cbn [fst snd] in I1, I2. subst e. unfold Cadd. cbn [fst snd].
  match goal with |- context [cnsq ?x] => pose proof (rdot_pos (flat x)) as P; change (0 <= nrm2 (flat x)) in P; rewrite flat_nrm2 in P; set (q := cnsq x) in * end.
  rewrite Rplus_0_r. split; [auto|]. split; [lra|]. rewrite Csqrt_real by lra. unfold Cmul. cbn [fst snd]. ring.
Qed.
Lemma fl_lsqr_body A damp s : lsqr_inv s -> lsqr_body (lift_op A) damp (fl_lsqr s) = option_map fl_lsqr (clsqr_body A damp s).
Proof.
  intros (I1 & I2 & I3). unfold lsqr_body, clsqr_body. flq. cbv zeta.
  rewrite !cl2norm_eq, lift_flat, <- flat_scale, <- flat_sub, <- cunit_flat, lift_flat, <- flat_scale, <- flat_sub, <- cunit_flat.
  repeat match goal with |- match ?t with _ => _ end = _ => destruct t; cbn [option_map]; try reflexivity end.
  unfold fl_lsqr. flq. rewrite inner_self. destruct (cq_D_norm_sqr s) as [d e]. cbn [fst snd] in I1, I2 |- *. subst e.
  rewrite <- !flat_scale, <- !flat_add, flat_nrm2. unfold Cadd. cbn [fst snd].
  match goal with |- context [cnsq ?x] => pose proof (rdot_pos (flat x)) as P; change (0 <= nrm2 (flat x)) in P; rewrite flat_nrm2 in P; set (q := cnsq x) in * end.
  rewrite Rplus_0_r, Csqrt_real by lra. unfold Cmul. cbn [fst snd]. do 2 f_equal. ring.
Qed.
Lemma fl_lsqr_after A b x0 damp atol btol conlim mx k s : clsqr_after A b x0 damp atol btol conlim mx k s ->
  lsqr_inv s /\ lsqr_after (lift_op A) (flat b) (flat x0) damp atol btol conlim mx k (fl_lsqr s).
Proof.
  intros H. unfold lsqr_after. destruct (fl_lsqr_init A b x0) as [-> I0].
  exact (@sim2_reaches _ _ fl_lsqr lsqr_inv _ _ _ _ (fl_lsqr_cond A b x0 atol btol conlim mx) (fl_lsqr_body A damp) (fun s s' => @lsqr_inv_body A damp s s') _ _ _ I0 H).
Qed.
Lemma fl_lsqr_while A b x0 damp atol btol conlim mx fuel : lsqr (lift_op A) (flat b) (flat x0) damp atol btol conlim mx fuel =
  match clsqr A b x0 damp atol btol conlim mx fuel with Done s => Done (fl_lsqr s) | Fail => Fail | Fuel => Fuel end.
Proof.
  unfold lsqr, clsqr. destruct (fl_lsqr_init A b x0) as [-> I0].
  exact (@sim2_while _ _ fl_lsqr lsqr_inv _ _ _ _ (fl_lsqr_cond A b x0 atol btol conlim mx) (fl_lsqr_body A damp) (fun s s' => @lsqr_inv_body A damp s s') fuel _ I0).
Qed.
Lemma fl_lsqr_run A b x0 damp atol btol conlim mx fuel s : clsqr A b x0 damp atol btol conlim mx fuel = Done s ->
  lsqr (lift_op A) (flat b) (flat x0) damp atol btol conlim mx fuel = Done (fl_lsqr s).
Proof. intros H. now rewrite fl_lsqr_while, H. Qed.
Lemma lift_objective A b x0 damp x : damped_objective (lift_op A) (flat b) (flat x0) damp (flat x) = cdamped_objective A b x0 damp x.
Proof. unfold damped_objective, cdamped_objective. cbn [lift_op so_times]. now rewrite lift_flat, <- !flat_sub, !flat_nrm2. Qed.
Lemma lift_descent A b x0 damp x : damped_descent (lift_op A) (flat b) (flat x0) damp (flat x) = flat (cdamped_descent A b x0 damp x).
Proof. unfold damped_descent, cdamped_descent. cbn [lift_op so_times so_trans]. now rewrite lift_flat, <- flat_sub, lift_flat, <- flat_sub, <- flat_scale, <- flat_sub. Qed.
