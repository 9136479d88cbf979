(** LSQR on complex data: the bidiagonalisation vectors are orthonormal in C^n. *)
From Coq Require Import List Arith Bool Lia Reals Lra.
From Verif Require Import Scalar Vec RVec RMat Loop LoopLemmas LinDep LopModel3 SolverSpec SolverLemmas LopSpec LopOpSpec LopLemmas LopProofs2 CGModel SlsModel LsqrModel LsqrSpec LsqrProofs LsqrLemmas
  CxSpec CxModel CxProofs CxSpglModel CxPursuitModel CxPursuitProofs CxLsModel CxLsSpec CxLsProofs.
Import ListNotations.
Set Implicit Arguments.
Local Open Scope R_scope.

(** real linear combinations of g, H g, H (H g), ... *)
Inductive kry (H : cvec -> cvec) (g : cvec) : cvec -> Prop :=
| kry_g : kry H g g
| kry_H v : kry H g v -> kry H g (H v)
| kry_sub v w : kry H g v -> kry H g w -> kry H g (vsub v w)
| kry_scale c v : kry H g v -> kry H g (vscale (ofR c : Cs) v).
Definition im (x y : cvec) : R := snd (inner x y : Cx).
Lemma im_sym x y : im y x = - im x y.
Proof. unfold im. rewrite (@inner_sym Cs x y). reflexivity. Qed.
Lemma im_self x : im x x = 0. Proof. unfold im. now rewrite inner_self. Qed.
Lemma im_sub n x y z : length x = n -> length y = n -> im (vsub x y) z = im x z - im y z.
Proof. intros Lx Ly. unfold im. rewrite (@inner_sub_l Cs x y z) by now rewrite Lx, Ly. reflexivity. Qed.
Lemma im_scale c x z : im (vscale (ofR c : Cs) x) z = c * im x z.
Proof. unfold im. rewrite (@inner_scale_l Cs (ofR c) x z). destruct (inner x z : Cx) as [p q]. cbn. ring. Qed.
Section Kry.
  Variables (n : nat) (H : cvec -> cvec) (g : cvec).
  Hypothesis HH : is_adjoint n n H H.
  Hypothesis Lg : length g = n.
  Lemma kry_len v : kry H g v -> length v = n.
  Proof.
    induction 1 as [|v K IH|v w K1 I1 K2 I2|c v K IH]; auto.
    - now apply HH.
    - now apply (@vsub_length Cs).
    - now rewrite (@vscale_length Cs).
  Qed.
  Lemma im_H x y : length x = n -> length y = n -> im (H x) y = im x (H y).
  Proof. intros Lx Ly. unfold im. f_equal. now apply HH. Qed.
  Fixpoint pw (j : nat) : cvec := match j with O => g | S j => H (pw j) end.
  Lemma pw_len j : length (pw j) = n. Proof. induction j; cbn; auto. now apply HH. Qed.
  Lemma pw_shift i : forall j, im (pw i) (pw j) = im g (pw (i + j)).
  Proof.
    induction i as [|i IH]; intros j; [reflexivity|]. cbn [pw]. rewrite im_H by apply pw_len. change (H (pw j)) with (pw (S j)). rewrite IH. f_equal. f_equal. lia.
  Qed.
  Lemma pw_real j : im g (pw j) = 0.
  Proof.
    destruct (Nat.Even_or_Odd j) as [[i ->]|[i ->]].
    - replace (2 * i)%nat with (i + i)%nat by lia. rewrite <- pw_shift. apply im_self.
    - replace (2 * i + 1)%nat with (i + S i)%nat by lia. rewrite <- pw_shift. cbn [pw].
      assert (E : im (pw i) (H (pw i)) = - im (pw i) (H (pw i))) by (rewrite <- im_sym; apply eq_sym, im_H; apply pw_len). lra.
  Qed.
  Lemma kry_pw w : kry H g w -> forall j, im w (pw j) = 0.
  Proof.
    induction 1 as [|v K IH|v w K1 I1 K2 I2|c v K IH]; intros j.
    - apply pw_real.
    - rewrite im_H by (try apply pw_len; now apply kry_len). apply (IH (S j)).
    - rewrite (@im_sub n) by now apply kry_len. rewrite I1, I2. ring.
    - rewrite im_scale, IH. ring.
  Qed.
  Lemma kry_real v : kry H g v -> forall w, kry H g w -> im v w = 0.
  Proof.
    induction 1 as [|v K IH|v v' K1 I1 K2 I2|c v K IH]; intros w Kw.
    - pose proof (kry_pw Kw 0) as Z. cbn [pw] in Z. rewrite im_sym, Z. ring.
    - rewrite im_H by now apply kry_len. apply IH. now constructor.
    - rewrite (@im_sub n) by now apply kry_len. rewrite I1, I2 by auto. ring.
    - rewrite im_scale, IH by auto. ring.
  Qed.
End Kry.
Lemma adjoint_sym n m f g : @is_adjoint Cs m n f g -> @is_adjoint Cs n m g f.
Proof.
  intros (D1 & D2 & A). split; auto. split; auto. intros x y Lx Ly. rewrite (@inner_sym Cs y (g x)), <- A by auto. symmetry. apply inner_sym.
Qed.
Lemma gram_self n m f g : @is_adjoint Cs m n f g -> @is_adjoint Cs n n (fun x => g (f x)) (fun x => g (f x)).
Proof.
  intros HA. pose proof (adjoint_sym HA) as HB. destruct HA as (D1 & D2 & A), HB as (_ & _ & B).
  split; [intros x Lx; auto|]. split; [intros x Lx; auto|]. intros x y Lx Ly. rewrite B by auto. apply A; auto.
Qed.
(** orthonormal vectors of C^n are at most n in number *)
Definition ci (x : cvec) : cvec := vscale ((0, 1) : Cs) x.
Lemma ci_dot x y : rdot (flat x) (flat (ci y)) = - im x y.
Proof. rewrite flat_dot. unfold ci, im. rewrite (@inner_scale_r Cs ((0, 1) : Cs) x y). destruct (inner x y : Cx) as [p q]. cbn. ring. Qed.
Lemma ci_dot2 x y : rdot (flat (ci x)) (flat (ci y)) = rdot (flat x) (flat y).
Proof. rewrite ci_dot. unfold ci, im. rewrite (@inner_scale_l Cs ((0, 1) : Cs) x y), flat_dot. destruct (inner x y : Cx) as [p q]. cbn. ring. Qed.
Lemma ortho_count n k (v : nat -> cvec) : (forall i, (i < k)%nat -> length (v i) = n) ->
  (forall i j, (i < k)%nat -> (j < k)%nat -> i <> j -> inner (v i) (v j) = ((0, 0) : Cx)) -> (forall i, (i < k)%nat -> cnsq (v i) <> 0) -> (k <= n)%nat.
Proof.
  intros L O N. set (p := fun i => if (i <? k)%nat then flat (v i) else flat (ci (v (i - k)%nat))).
  assert (Q : (2 * k <= 2 * n)%nat); [|lia].
  assert (Z : forall i j, (i < k)%nat -> (j < k)%nat -> im (v i) (v j) = 0).
  { intros i j Hi Hj. destruct (Nat.eq_dec i j) as [->|E]; [apply im_self|]. unfold im. now rewrite O. }
  assert (Z2 : forall i j, (i < k)%nat -> (j < k)%nat -> i <> j -> rdot (flat (v i)) (flat (v j)) = 0).
  { intros i j Hi Hj E. rewrite flat_dot. now rewrite O. }
  apply (@conj_count (2 * n) (2 * k) (fun x => x) p).
  - split; [auto|split; auto].
  - intros i Hi. unfold p. destruct (Nat.ltb_spec i k); rewrite flat_len; [now rewrite L|]. unfold ci. rewrite (@vscale_length Cs), L; lia.
  - intros i j Hi Hj E. unfold p. destruct (Nat.ltb_spec i k), (Nat.ltb_spec j k).
    + auto.
    + rewrite ci_dot, Z by lia. ring.
    + rewrite rdot_sym, ci_dot, Z by lia. ring.
    + rewrite ci_dot2. apply Z2; lia.
  - intros i Hi. unfold p. destruct (Nat.ltb_spec i k); [|rewrite ci_dot2].
    + change (nrm2 (flat (v i)) <> 0). rewrite flat_nrm2. auto.
    + change (nrm2 (flat (v (i - k)%nat)) <> 0). rewrite flat_nrm2. apply N. lia.
Qed.

Section Run.
  Variables (n m : nat) (A : csimple_op) (b x0 : cvec) (damp atol btol conlim : R) (mx : nat).
  Hypothesis HA : is_adjoint m n (co_times A) (co_trans A).
  Hypothesis Hb : length b = m.
  Hypothesis Hx : length x0 = n.
  Let r0 := vsub b (co_times A x0).
  Let KV := kry (fun x => co_trans A (co_times A x)) (co_trans A r0).
  Let KU := kry (fun x => co_times A (co_trans A x)) r0.
  Lemma r0_len : length r0 = m.
  Proof. unfold r0. apply (@vsub_length Cs); auto. now apply HA. Qed.
  Lemma KV_len v : KV v -> length v = n.
  Proof. apply kry_len; [now apply gram_self with m|]. apply HA. apply r0_len. Qed.
  Lemma KU_len v : KU v -> length v = m.
  Proof. apply kry_len; [apply gram_self with n; now apply adjoint_sym|]. apply r0_len. Qed.
  Lemma kry_unit H g v c : kry H g v -> kry H g (cunit_if_pos v c).
  Proof. intros K. unfold cunit_if_pos. destruct (Rltb 0 c); auto. now constructor. Qed.
  Lemma op_unit f g k l c v : @is_adjoint Cs k l f g -> length v = l -> f (cunit_if_pos v c) = cunit_if_pos (f v) c.
  Proof. intros Hf Lv. destruct (adjoint_linear Hf) as [_ S]. unfold cunit_if_pos. destruct (Rltb 0 c); auto. Qed.
  Lemma op_sub f g k l c v w : @is_adjoint Cs k l f g -> length v = l -> length w = l -> f (vsub v (vscale (ofR c : Cs) w)) = vsub (f v) (vscale (ofR c : Cs) (f w)).
  Proof.
    intros Hf Lv Lw. destruct (adjoint_linear Hf) as [Fa Fs].
    assert (E : forall x y : cvec, length x = length y -> vsub x (vscale (ofR c : Cs) y) = vadd x (vscale (ofR (- c) : Cs) y)).
    { intros x y E. apply flat_inj. rewrite flat_sub, flat_add, !flat_scale. assert (length (flat x) = length (flat y)) by now rewrite !flat_len, E. veq. }
    assert (L' : length (vscale (ofR (- c) : Cs) w) = l) by now rewrite (@vscale_length Cs).
    rewrite E by exact (eq_trans Lv (eq_sym Lw)). rewrite Fa by auto. rewrite Fs by auto. symmetry. apply E.
    destruct Hf as (D & _). exact (eq_trans (D _ Lv) (eq_sym (D _ Lw))).
  Qed.
  Lemma unit_len v c : length (cunit_if_pos v c) = length v.
  Proof. unfold cunit_if_pos. destruct (Rltb 0 c); auto. apply vscale_length. Qed.
  Definition run_inv (s : clsqr_state) : Prop := KV (cq_v s) /\ KV (co_trans A (cq_u s)) /\ KU (cq_u s) /\ KU (co_times A (cq_v s)).
  Lemma run_inv_init : run_inv (clsqr_init A b x0).
  Proof.
    pose proof r0_len as Lr. pose proof (adjoint_sym HA) as HB. unfold run_inv, clsqr_init. cbn [cq_u cq_v]. fold r0.
    assert (K1 : KV (co_trans A (cunit_if_pos r0 (cl2norm r0)))) by (rewrite (@op_unit _ _ _ _ _ _ HB Lr); apply kry_unit; constructor).
    assert (K3 : KU (cunit_if_pos r0 (cl2norm r0))) by (apply kry_unit; constructor).
    split; [now apply kry_unit|]. split; [exact K1|]. split; [exact K3|].
    rewrite (@op_unit _ _ _ _ _ _ HA) by now apply KV_len. apply kry_unit. exact (kry_H K3).
  Qed.
  Lemma run_inv_step s s' : run_inv s -> clsqr_body A damp s = Some s' -> run_inv s'.
  Proof.
    intros (K1 & K2 & K3 & K4). pose proof (adjoint_sym HA) as HB. unfold clsqr_body. cbv zeta.
    set (u0 := vsub (co_times A (cq_v s)) (vscale (ofR (cq_alpha s) : Cs) (cq_u s))). set (u := cunit_if_pos u0 (cl2norm u0)).
    set (v0 := vsub (co_trans A u) (vscale (ofR (cl2norm u0) : Cs) (cq_v s))). set (v := cunit_if_pos v0 (cl2norm v0)).
    assert (Ku0 : KU u0) by (apply kry_sub; [exact K4|now apply kry_scale]).
    assert (Ku : KU u) by now apply kry_unit.
    assert (Lu : length u = m) by now apply KU_len.
    assert (Tu0 : KV (co_trans A u0)).
    { unfold u0. rewrite (@op_sub _ _ _ _ _ _ _ HB) by (now apply KU_len). apply kry_sub; [exact (kry_H K1)|now apply kry_scale]. }
    assert (Tu : KV (co_trans A u)) by (unfold u; rewrite (@op_unit _ _ _ _ _ _ HB) by (now apply KU_len); now apply kry_unit).
    assert (Kv0 : KV v0) by (apply kry_sub; [exact Tu|now apply kry_scale]).
    assert (Kv : KV v) by now apply kry_unit.
    assert (Tv0 : KU (co_times A v0)).
    { unfold v0. rewrite (@op_sub _ _ _ _ _ _ _ HA) by (now apply KV_len). apply kry_sub; [exact (kry_H Ku)|now apply kry_scale]. }
    assert (Tv : KU (co_times A v)) by (unfold v; rewrite (@op_unit _ _ _ _ _ _ HA) by (now apply KV_len); now apply kry_unit).
    repeat match goal with |- match ?t with _ => _ end = Some _ -> _ => destruct t; try discriminate end.
    intros [= <-]. unfold run_inv. cbn [cq_u cq_v]. auto.
  Qed.
  Notation Rch := (clsqr_after A b x0 damp atol btol conlim mx).
  Lemma run_kry k s : Rch k s -> run_inv s.
  Proof. induction 1 as [|k s s' H IH C B]; [apply run_inv_init|]. eapply run_inv_step; eauto. Qed.
  Lemma lifted : adjoint_ops (2 * n) (2 * m) (so_times (lift_op A)) (so_trans (lift_op A)).
  Proof. now apply lift_adjoint. Qed.
  Lemma flat_b : length (flat b) = (2 * m)%nat. Proof. rewrite flat_len. now rewrite Hb. Qed.
  Lemma flat_x0 : length (flat x0) = (2 * n)%nat. Proof. rewrite flat_len. now rewrite Hx. Qed.
  Lemma crun_orthonormal i j si sj : (i < j)%nat -> Rch i si -> Rch j sj ->
    cnsq (cq_u si) = 1 /\ cnsq (cq_v si) = 1 /\ inner (cq_u si) (cq_u sj) = ((0, 0) : Cx) /\ inner (cq_v si) (cq_v sj) = ((0, 0) : Cx).
  Proof.
    intros Hij Ri Rj. destruct (fl_lsqr_after Ri) as [_ Fi]. destruct (fl_lsqr_after Rj) as [_ Fj].
    destruct (lsqr_gk lifted flat_b flat_x0 Hij Fi Fj) as (E1 & E2 & E3 & E4).
    cbn [fl_lsqr lq_u lq_v] in *. rewrite flat_nrm2 in E1, E2. rewrite flat_dot in E3, E4.
    destruct (run_kry Ri) as (A1 & _ & A3 & _). destruct (run_kry Rj) as (B1 & _ & B3 & _).
    split; [auto|]. split; [auto|]. split.
    - pose proof (kry_real (gram_self (adjoint_sym HA)) r0_len A3 B3) as Z. unfold im in Z. destruct (inner (cq_u si) (cq_u sj) : Cx) as [p q]. cbn [fst snd] in *. now subst.
    - assert (Lg : length (co_trans A r0) = n) by (apply HA; apply r0_len).
      pose proof (kry_real (gram_self HA) Lg A1 B1) as Z. unfold im in Z. destruct (inner (cq_v si) (cq_v sj) : Cx) as [p q]. cbn [fst snd] in *. now subst.
  Qed.
  Lemma crun_count k s : Rch k s -> (k <= Nat.min m n)%nat.
  Proof.
    intros H. set (t := traj (clsqr_cond A b x0 atol btol conlim mx) (clsqr_body A damp) (clsqr_init A b x0)).
    assert (T : forall i, (i <= k)%nat -> Rch i (t i)) by (intros i Hi; now apply (traj_reaches H)).
    assert (X : forall i j, (i < k)%nat -> (j < k)%nat -> i <> j -> inner (cq_u (t i)) (cq_u (t j)) = ((0, 0) : Cx) /\ inner (cq_v (t i)) (cq_v (t j)) = ((0, 0) : Cx)).
    { intros i j Hi Hj E. destruct (Nat.lt_ge_cases i j) as [L|L].
      - destruct (crun_orthonormal L (T i ltac:(lia)) (T j ltac:(lia))) as (_ & _ & ? & ?). auto.
      - destruct (@crun_orthonormal j i (t j) (t i) ltac:(lia) (T j ltac:(lia)) (T i ltac:(lia))) as (_ & _ & E1 & E2).
        rewrite (@inner_sym Cs (cq_u (t j)) (cq_u (t i))), (@inner_sym Cs (cq_v (t j)) (cq_v (t i))), E1, E2. cbn. unfold Cconj. cbn. rewrite Ropp_0. auto. }
    assert (Y : forall i, (i < k)%nat -> cnsq (cq_u (t i)) <> 0 /\ cnsq (cq_v (t i)) <> 0).
    { intros i Hi. destruct (crun_orthonormal Hi (T i ltac:(lia)) (T k ltac:(lia))) as (-> & -> & _). split; lra. }
    apply Nat.min_glb.
    - apply (@ortho_count m k (fun i => cq_u (t i))).
      + intros i Hi. apply KU_len. destruct (run_kry (T i ltac:(lia))) as (_ & _ & K & _). exact K.
      + intros i j Hi Hj E. now apply X.
      + intros i Hi. now apply Y.
    - apply (@ortho_count n k (fun i => cq_v (t i))).
      + intros i Hi. apply KV_len. destruct (run_kry (T i ltac:(lia))) as (K & _). exact K.
      + intros i j Hi Hj E. now apply X.
      + intros i Hi. now apply Y.
  Qed.
End Run.
