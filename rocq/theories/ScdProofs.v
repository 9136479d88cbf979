(** The smoothed conic dual solvers run away from the solution. *)
From Coq Require Import List Arith Bool Lia Reals Lra Psatz.
From Verif Require Import Vec RVec RMat Loop XReal OptModel OptSpec OptProofs2 OptProofs3 FomModel ScdModel.
Import ListNotations.
Local Open Scope R_scope.

Section One.
  Variables (h : proxcap) (p : R -> R -> R) (hv : R -> R) (opt : fom_options).
  Hypothesis h_val : forall v, exists a, pfunc h [v] = Fin a.
  Hypothesis h_prox : forall v t, 0 < t -> exists a, prox_vec_val h [v] t = ([Fin (p v t)], a).
  Hypothesis h_neg : forall v t, 0 < t -> v <= 0 -> p v t <= 0.
  Hypothesis Ha : 0 < fo_alpha opt.
  Hypothesis HL : 0 < fo_L0 opt.
  Let id1 := fun x : vec => x.
  Let f := smooth_dual nrm1 shrink 1 [0].
  Let body := fom_body f h id1 id1 [-2] opt.
  Lemma grad_at w : w <= 0 -> fst (sgrad_val (fom_f f [-2]) [w]) = [1 - w].
  Proof. intros H. cbn. f_equal. rewrite Rmax_left by lra. rewrite Rmin_right by lra. ring. Qed.
  Definition away (s : fom_state) : Prop :=
    exists x y z g, fm_x s = [x] /\ fm_y s = [y] /\ fm_z s = [z] /\ fm_gAx s = [g] /\ x <= 0 /\ y <= 0 /\ z <= 0 /\ 1 <= g /\ 0 < fm_L s /\
      match fm_theta s with None => True | Some t => 0 < t end.
  Lemma theta_pos o L L' : 0 < L -> 0 < L' -> match o with None => True | Some t => 0 < t end -> 0 < advance_theta o L L' <= 1.
  Proof.
    intros P1 P2 H. assert (A : forall q, 0 <= q -> 0 < 2 / (1 + sqrt (1 + q)) <= 1).
    { intros q Hq. assert (1 <= sqrt (1 + q)) by (rewrite <- sqrt_1 at 1; apply sqrt_le_1; lra).
      split; [apply Rdiv_lt_0_compat; lra|]. apply Rmult_le_reg_r with (1 + sqrt (1 + q)); [lra|]. unfold Rdiv. rewrite Rmult_assoc, Rinv_l by lra. lra. }
    destruct o as [t|]; cbn [advance_theta]; [|apply A; lra]. apply A. assert (0 < L / L') by (apply Rdiv_lt_0_compat; auto).
    apply Rlt_le. apply Rdiv_lt_0_compat; [lra|]. apply pow_lt; auto.
  Qed.
  Lemma away_step s : away s -> exists s', body s = Some s' /\ away s' /\ fm_iterations s' = S (fm_iterations s).
  Proof.
    intros (x & y & z & g & Ex & Ey & Ez & Eg & Hx & Hy & Hz & Hg & PL & Pt). unfold body, fom_body. cbv zeta.
    set (L := fm_L s * fo_alpha opt). assert (P : 0 < L) by (unfold L; nra).
    pose proof (theta_pos (fm_theta s) L (fm_L s) P PL Pt) as T. set (th := advance_theta (fm_theta s) L (fm_L s)) in *.
    rewrite Ex, Ez. cbn [rscale map radd zipw]. unfold id1.
    set (y' := (1 - th) * x + th * z). assert (Hy' : y' <= 0) by (unfold y'; nra).
    pose proof (grad_at y' Hy') as Gy. destruct (sgrad_val (fom_f f [-2]) [y']) as [gy fy]. cbn in Gy. subst gy.
    destruct (Reqb_spec (th * L) 0) as [E|_]; [nra|]. assert (Pst : 0 < 1 / (th * L)) by (apply Rdiv_lt_0_compat; nra). set (st := 1 / (th * L)) in *.
    cbn [rscale map rsub zipw]. destruct (h_prox (z - st * (1 - y')) st Pst) as [a Ep]. rewrite Ep. cbn [finite option_map].
    set (z' := p (z - st * (1 - y')) st). assert (Hz' : z' <= 0) by (apply h_neg; [auto|nra]).
    cbn [rscale map radd zipw]. set (x' := (1 - th) * x + th * z'). assert (Hx' : x' <= 0) by (unfold x'; nra).
    pose proof (grad_at x' Hx') as Gx. destruct (sgrad_val (fom_f f [-2]) [x']) as [gx fx]. cbn in Gx. subst gx.
    eexists. split; [reflexivity|]. split; [|reflexivity]. exists x', y', z', (1 - x'). cbn [fm_x fm_y fm_z fm_gAx fm_L fm_theta].
    repeat (split; [reflexivity|]). split; [auto|]. split; [auto|]. split; [auto|]. split; [lra|]. split; [|lra].
    unfold backtrack_L. cbn [rsub zipw]. unfold nrm2. cbn [rdot]. destruct (Reqb_spec ((x' - y') * (x' - y') + 0) 0) as [|N]; [auto|]. cbv zeta.
    match goal with |- context[Rleb ?q L] => assert (q <= 0) end.
    { assert (0 < (x' - y') * (x' - y') + 0) by (pose proof (Rle_0_sqr (x' - y')) as Q; unfold Rsqr in Q; lra).
      apply Rmult_le_reg_r with ((x' - y') * (x' - y') + 0); [auto|]. unfold Rdiv. rewrite Rmult_assoc, Rinv_l by auto. nra. }
    match goal with |- context[Rleb ?q L] => destruct (Rleb_spec q L); [auto|lra] end.
  Qed.
  Lemma away_first : exists s, fom_first f h id1 id1 [-2] opt [0] = Some s /\ away s /\ fm_iterations s = 1%nat.
  Proof.
    unfold fom_first, fom_init. destruct (h_val 0) as [a ->]. cbv zeta. unfold id1 at 1.
    pose proof (grad_at 0 ltac:(lra)) as G. destruct (sgrad_val (fom_f f [-2]) [0]) as [g0 f0] eqn:E. cbn [fst] in G. subst g0.
    match goal with |- context[fom_body _ _ _ _ _ _ ?s] => destruct (away_step s) as [s' [E' [A I']]] end.
    - exists 0, 0, 0, (1 - 0). cbn. repeat (split; [reflexivity|]). repeat (split; [lra|]). auto.
    - exists s'. split; [exact E'|]. split; [exact A|]. rewrite I'. reflexivity.
  Qed.
  Lemma away_loop fuel : forall s, away s -> (1 <= fm_iterations s)%nat -> (fo_max_iters opt - fm_iterations s <= fuel)%nat ->
    exists s', while_ (fom_cond opt) body fuel s = Done s' /\ away s'.
  Proof.
    induction fuel as [|k IH]; intros s A I1 Hf; cbn [while_]; destruct (fom_cond opt s) eqn:C.
    - unfold fom_cond in C. apply andb_prop in C as [C _]. apply Nat.ltb_lt in C. lia.
    - eauto.
    - destruct (away_step s A) as [s' [E [A' I']]]. rewrite E. apply IH; auto; [lia|]. unfold fom_cond in C. apply andb_prop in C as [C _]. apply Nat.ltb_lt in C. lia.
    - eauto.
  Qed.
  Lemma away_all fuel : (fo_max_iters opt <= fuel)%nat -> exists s, fom f h id1 id1 [-2] opt [0] fuel = Done s /\ away s.
  Proof.
    intros Hf. destruct away_first as [s [E [A I']]]. unfold fom. rewrite E. apply away_loop; auto; lia.
  Qed.
End One.

Lemma bp_away opt fuel : 0 < fo_alpha opt -> 0 < fo_L0 opt -> (fo_max_iters opt <= fuel)%nat ->
  exists s, bp_scd (fun x => x) (fun x => x) [2] 1 [0] [0] opt fuel = Done s /\ away s.
Proof.
  intros H1 H2 H3. unfold bp_scd, scd. change (ropp [2]) with [- (2)]. replace (- (2)) with (-2) by ring.
  apply (away_all prox_zero (fun v _ => v)); auto; intros; eexists; reflexivity.
Qed.
Lemma dantzig_away delta opt fuel : 0 < delta -> 0 < fo_alpha opt -> 0 < fo_L0 opt -> (fo_max_iters opt <= fuel)%nat ->
  exists s, dantzig_scd (fun x => x) (fun x => x) [2] delta 1 [0] [0] opt fuel = Done s /\ away s.
Proof.
  intros Hd H1 H2 H3. unfold dantzig_scd, scd. change (ropp [2]) with [- (2)]. replace (- (2)) with (-2) by ring.
  apply (away_all (prox_l1 delta) (fun v t => Rmax 0 (v - t * delta) + Rmin 0 (v + t * delta))); auto.
  - intros v. eexists. reflexivity.
  - intros v t Ht. cbn [prox_vec_val prox_l1 build]. cbv zeta.
    pose proof (@prox_l1_eq delta [v] t ltac:(nra)) as E. cbn [prox_op prox_l1 build] in E. cbv zeta in E. rewrite E. cbn. eexists. reflexivity.
  - intros v t Ht Hv. rewrite Rmax_left by nra. unfold Rmin. destruct (Rle_dec _ _); lra.
Qed.
