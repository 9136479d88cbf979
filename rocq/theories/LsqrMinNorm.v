(** LSQR started at zero stays in the row space, so its solution has least norm;
    an exact least squares solver built from it. *)
From Coq Require Import List Arith Bool Lia Reals Lra.
From Verif Require Import Scalar Vec RVec Loop OptProofs SolverSpec LoopLemmas CGModel SlsModel SlsProofs LsqrModel LsqrSpec LsqrProofs LsqrLemmas PursuitModel PursuitSpec PursuitProofs.
Import ListNotations.
Set Implicit Arguments.
Local Open Scope R_scope.

Lemma unit_dot u c d : rdot u d = 0 -> rdot (unit_if_pos u c) d = 0.
Proof. intros H. unfold unit_if_pos. destruct (Rltb 0 c); auto. rewrite rdot_scale_l, H. ring. Qed.
Lemma unit_len u c : length (unit_if_pos u c) = length u.
Proof. unfold unit_if_pos. destruct (Rltb 0 c); auto. apply rscale_len. Qed.
Section Row.
  Variables (n m : nat) (A : simple_op) (b : vec) (damp atol btol conlim : R) (mx : nat).
  Hypothesis HA : adjoint_ops n m (so_times A) (so_trans A).
  Hypothesis Hb : length b = m.
  Notation init := (lsqr_init A b (rzero n)).
  Notation Rch := (reaches (lsqr_cond A b (rzero n) atol btol conlim mx) (lsqr_body A damp) init).
  Variable d : vec.
  Hypothesis Ld : length d = n.
  Hypothesis Hd : so_times A d = rzero m.
  Lemma trans_dot u : length u = m -> rdot (so_trans A u) d = 0.
  Proof. intros Lu. rewrite rdot_sym. destruct HA as (_ & _ & Adj). rewrite <- Adj, Hd by auto. apply rdot_zero_l. Qed.
  Lemma row_inv k s : Rch k s -> rdot (lq_v s) d = 0 /\ rdot (lq_w s) d = 0 /\ rdot (lq_x s) d = 0.
  Proof.
    induction 1 as [|k s s' H (I1 & I2 & I3) C B].
    - assert (E : rdot (unit_if_pos (so_trans A (unit_if_pos (rsub b (so_times A (rzero n))) (nrm (rsub b (so_times A (rzero n))))))
        (nrm (so_trans A (unit_if_pos (rsub b (so_times A (rzero n))) (nrm (rsub b (so_times A (rzero n)))))))) d = 0).
      { apply unit_dot, trans_dot. rewrite unit_len, rsub_len. destruct HA as ((L1 & _) & _). rewrite L1 by apply rzero_len. lia. }
      unfold lsqr_init. cbn [lq_v lq_w lq_x]. repeat split; auto. apply rdot_zero_l.
    - destruct (@lsqr_rest n m A b (rzero n) damp atol btol conlim mx HA Hb (rzero_len n) k s H) as (Lu & Lv & Lx & Lw).
      destruct (@lsqr_rest n m A b (rzero n) damp atol btol conlim mx HA Hb (rzero_len n) (S k) s' (reach_S _ _ _ _ _ _ H C B)) as (Lu' & Lv' & Lx' & Lw').
      destruct (lsqr_body_inv _ _ _ B) as (rb1 & rho & cs1 & sn1 & cs & sn & irho & F).
      assert (Ev : lq_v s' = unit_if_pos (rsub (so_trans A (lq_u s')) (rscale (lq_beta s') (lq_v s))) (lq_alpha s')) by apply F.
      assert (Ex : lq_x s' = radd (lq_x s) (rscale (cs * (cs1 * lq_phi_bar s) * irho) (lq_w s))) by apply F.
      assert (Ew : lq_w s' = radd (lq_v s') (rscale (- (sn * lq_alpha s') * irho) (lq_w s))) by apply F.
      assert (Lt : length (so_trans A (lq_u s')) = n) by (apply HA; auto).
      assert (V0 : rdot (lq_v s') d = 0).
      { rewrite Ev. apply unit_dot. rewrite rdot_sub_l by (rewrite rscale_len; congruence). rewrite trans_dot, rdot_scale_l, I1 by auto. ring. }
      split; auto. split.
      + rewrite Ew, rdot_add_l by (rewrite rscale_len; congruence). rewrite rdot_scale_l, V0, I2. ring.
      + rewrite Ex, rdot_add_l by (rewrite rscale_len; congruence). rewrite rdot_scale_l, I2, I3. ring.
  Qed.
End Row.
Section MinNorm.
  Variables (n m : nat) (A : simple_op) (b : vec) (mx fuel : nat) (s : lsqr_state).
  Hypothesis HA : adjoint_ops n m (so_times A) (so_trans A).
  Hypothesis Hb : length b = m.
  Hypothesis Hm : (Nat.min m n + 1 < mx)%nat.
  Hypothesis Hs : lsqr A b (rzero n) 0 0 0 0 mx fuel = Done s.
  Lemma ls_opt z : length z = n -> nrm2 (rsub b (so_times A (lq_x s))) <= nrm2 (rsub b (so_times A z)).
  Proof.
    intros Lz. pose proof (@lsqr_solves n m A b (rzero n) 0 0 0 0 mx HA Hb (rzero_len n) fuel s z eq_refl eq_refl eq_refl Hm Lz Hs) as Q.
    unfold damped_objective in Q. lra.
  Qed.
  Lemma ls_xlen : length (lq_x s) = n.
  Proof. apply while_done in Hs as (k & _ & H & _). apply (@lsqr_rest n m A b (rzero n) 0 0 0 0 mx HA Hb (rzero_len n) k s H). Qed.
  Lemma ls_same z : length z = n -> nrm2 (rsub b (so_times A z)) = nrm2 (rsub b (so_times A (lq_x s))) ->
    so_times A (rsub z (lq_x s)) = rzero m.
  Proof.
    intros Lz E. pose proof ls_xlen as Lx. set (x := lq_x s) in *.
    assert (LT : forall z, length z = n -> length (so_times A z) = m) by (apply HA).
    destruct HA as ((_ & Ladd & Lsc) & _ & _).
    set (w := radd (rscale (/ 2) x) (rscale (/ 2) z)). assert (Lw : length w = n) by (unfold w; rewrite radd_len, !rscale_len; lia).
    pose proof (ls_opt w Lw) as Q. fold x in Q.
    assert (E1 : so_times A w = radd (rscale (/ 2) (so_times A x)) (rscale (/ 2) (so_times A z))).
    { unfold w. rewrite Ladd by (rewrite rscale_len; auto). now rewrite !Lsc. }
    assert (E2 : so_times A (rsub z x) = rsub (so_times A z) (so_times A x)).
    { replace (rsub z x) with (radd z (rscale (-1) x)) by veq. rewrite Ladd, Lsc by (rewrite ?rscale_len; auto).
      pose proof (LT z Lz). pose proof (LT x Lx). veq. }
    rewrite E1 in Q. rewrite E2. pose proof (LT z Lz) as L1. pose proof (LT x Lx) as L2.
    set (p := rsub b (so_times A x)) in *. set (q := rsub b (so_times A z)) in *.
    assert (Lp : length p = m) by (unfold p; rewrite rsub_len; lia). assert (Lq : length q = m) by (unfold q; rewrite rsub_len; lia).
    assert (E3 : rsub b (radd (rscale (/ 2) (so_times A x)) (rscale (/ 2) (so_times A z))) = radd (rscale (/ 2) p) (rscale (/ 2) q)).
    { unfold p, q. apply vec_eq; [rewrite rsub_len, !radd_len, !rscale_len, !rsub_len; lia|]. intros i Hi.
      rewrite rsub_nth, !radd_nth, !rscale_nth, !rsub_nth by (rewrite ?radd_len, ?rscale_len, ?rsub_len; lia). field. }
    rewrite E3 in Q. unfold nrm2 in *. rewrite rdot_add_l, !rdot_add_r, !rdot_scale_l, !rdot_scale_r in Q by (rewrite !rscale_len; lia).
    rewrite (rdot_sym q p) in Q.
    assert (Z : rdot (rsub p q) (rsub p q) = 0).
    { rewrite rdot_sub_l, !rdot_sub_r by lia. rewrite (rdot_sym q p). pose proof (rdot_pos (rsub p q)) as P.
      rewrite rdot_sub_l, !rdot_sub_r in P by lia. rewrite (rdot_sym q p) in P. lra. }
    assert (Epq : rsub (so_times A z) (so_times A x) = rsub p q) by (unfold p, q; veq).
    rewrite Epq. apply rdot_eq0 in Z. rewrite Z, rsub_len. f_equal. lia.
  Qed.
  Lemma ls_min_norm z : length z = n -> nrm2 (rsub b (so_times A z)) = nrm2 (rsub b (so_times A (lq_x s))) -> nrm2 (lq_x s) <= nrm2 z.
  Proof.
    intros Lz E. pose proof (ls_same z Lz E) as Hd. pose proof ls_xlen as Lx. set (d := rsub z (lq_x s)) in *.
    assert (Ld : length d = n) by (unfold d; rewrite rsub_len; lia).
    apply while_done in Hs as (k & _ & H & _). destruct (@row_inv n m A b 0 0 0 0 mx HA Hb d Ld Hd k s H) as (_ & _ & O).
    assert (Ez : z = radd (lq_x s) d) by (unfold d; veq). rewrite Ez. unfold nrm2.
    rewrite rdot_add_l, !rdot_add_r by lia. rewrite (rdot_sym d (lq_x s)), O. pose proof (rdot_pos d). lra.
  Qed.
End MinNorm.

(** the exact solver *)
Definition columns_op (m : nat) (cols : list vec) : simple_op :=
  SimpleOp (fun x => lincomb m x cols) (fun r => map (fun c => rdot c r) cols).
Definition exact_lstsq (cols : list vec) (y : vec) : vec :=
  let n := length cols in let m := length y in
  match lsqr (columns_op m cols) y (rzero n) 0 0 0 0 (Nat.min m n + 2) (Nat.min m n + 2) with
  | Done s => lq_x s | _ => rzero n end.
Lemma map_len_ {X Y} (f : X -> Y) l : length (map f l) = length l. Proof. apply map_length. Qed.
Lemma columns_adj m cols : (forall c, In c cols -> length c = m) ->
  adjoint_ops (length cols) m (so_times (columns_op m cols)) (so_trans (columns_op m cols)).
Proof.
  intros H. cbn [columns_op so_times so_trans]. split; [|split].
  - split; [intros; now apply lc_len|]. split; [intros; apply lc_add; auto; congruence|intros; now apply lc_scale].
  - split; [intros; apply map_length|]. split.
    + intros x y Lx Ly. apply vec_eq; [rewrite radd_len, !map_length; lia|]. rewrite map_length. intros i Hi.
      rewrite radd_nth by (now rewrite !map_length).
      assert (G : forall z, nth i (map (fun c => rdot c z) cols) 0 = rdot (nth i cols []) z).
      { intros z. rewrite (nth_indep _ 0 (rdot [] z)) by (now rewrite map_length). apply (map_nth (fun c => rdot c z)). }
      rewrite !G.
      apply rdot_add_r. congruence.
    + intros c x Lx. unfold rscale at 2. rewrite map_map. apply map_ext. intros a. apply rdot_scale_r.
  - intros x y Lx Ly. now rewrite lc_dot.
Qed.
Lemma exact_lstsq_ok : min_norm_solver exact_lstsq.
Proof.
  assert (G : forall m cols y, length y = m -> (forall c, In c cols -> length c = m) ->
    exists s, lsqr (columns_op m cols) y (rzero (length cols)) 0 0 0 0 (Nat.min m (length cols) + 2) (Nat.min m (length cols) + 2) = Done s /\
      exact_lstsq cols y = lq_x s).
  { intros m cols y Ly Hc. destruct (@lsqr_total (length cols) m (columns_op m cols) y (rzero (length cols)) 0 0 0 0 (Nat.min m (length cols) + 2)
      (columns_adj cols Hc) Ly (rzero_len _) (Nat.min m (length cols) + 2)) as [s Hs]; [lia|].
    exists s. split; auto. unfold exact_lstsq. cbv zeta. revert Hs. rewrite <- Ly. unfold vec. intros Hs. change (list R) with vec in *. match type of Hs with ?a = _ => match goal with |- match ?b with _ => _ end = _ => change b with a end end. rewrite Hs. reflexivity. }
  split.
  - intros m cols y Ly Hc. destruct (G m cols y Ly Hc) as (s & Hs & E). rewrite E. split.
    + eapply ls_xlen; eauto. now apply columns_adj.
    + intros z Lz. refine (@ls_opt (length cols) m (columns_op m cols) y _ _ s (columns_adj cols Hc) Ly _ Hs z Lz). lia.
  - intros m cols y z Ly Hc Lz. destruct (G m cols y Ly Hc) as (s & Hs & E). rewrite E. intros Eq.
    refine (@ls_min_norm (length cols) m (columns_op m cols) y _ _ s (columns_adj cols Hc) Ly _ Hs z Lz Eq). lia.
Qed.
