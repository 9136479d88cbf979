(** Traces against the correlation matrices, for the bound optimisation
    update. *)
From Coq Require Import List Arith Bool Reals Lia Lra Psatz.
From Verif Require Import Scalar Vec RVec Loop XReal BsblModel BsblSpec BsblProofs
  BsblProofs2 BsblProofs3 BsblProofs4.
Import ListNotations.
Local Open Scope R_scope.

Lemma quad_add k A x y :
  (forall i j, (i < k)%nat -> (j < k)%nat -> A i j = A j i) ->
  quad k A (fun i => x i + y i) = quad k A x + 2 * fdot k x (fmv k A y) + quad k A y.
Proof.
  intros HS. rewrite !quad_dot.
  rewrite (fdot_ext k (fun i => x i + y i) (fun i => x i + y i)
    (fmv k A (fun i => x i + y i)) (fun i => fmv k A x i + fmv k A y i)).
  - rewrite fdot_add_l. rewrite (fdot_sym k x), (fdot_sym k y), !fdot_add_l.
    rewrite (fdot_sym k (fmv k A x) y), (psd_dot_sym k A y x HS).
    rewrite (fdot_sym k (fmv k A x) x), (fdot_sym k (fmv k A y) x),
      (fdot_sym k (fmv k A y) y). ring.
  - auto.
  - intros. apply fmv_add.
Qed.

Lemma quad_inj k A A' :
  (forall i j, (i < k)%nat -> (j < k)%nat -> A i j = A j i) ->
  (forall i j, (i < k)%nat -> (j < k)%nat -> A' i j = A' j i) ->
  (forall x, quad k A x = quad k A' x) ->
  forall i j, (i < k)%nat -> (j < k)%nat -> A i j = A' i j.
Proof.
  intros H1 H2 HQ i j Hi Hj.
  set (e := fun (a : nat) l => if Nat.eqb l a then 1 else 0).
  pose proof (quad_add k A (e i) (e j) H1) as E1.
  pose proof (quad_add k A' (e i) (e j) H2) as E2.
  rewrite !HQ in E1.
  assert (E : forall M, fdot k (e i) (fmv k M (e j)) = M i j).
  { intros M. unfold fdot, fmv, e.
    rewrite (rsum_single (n := k) (k := i)); auto.
    - rewrite Nat.eqb_refl. rewrite (rsum_single (n := k) (k := j)); auto.
      + rewrite Nat.eqb_refl. ring.
      + intros l _ Hl. destruct (Nat.eqb_spec l j); [congruence|ring].
    - intros l _ Hl. destruct (Nat.eqb_spec l i); [congruence|ring]. }
  rewrite !E in *. lra.
Qed.

(** A triangular factor of the Toeplitz matrices. *)
Definition lowt (r : R) : fmat := fun t i =>
  if Nat.leb i t then r ^ (t - i) else 0.
Definition lowweight (b : nat) (r : R) (t : nat) : R :=
  if Nat.eqb (S t) b then 1 else 1 - r ^ 2.

Lemma lowt_acc b r x t : (t < b)%nat ->
  rsum b (fun i => lowt r t i * x i) = acc r x (S t).
Proof.
  intros Ht. replace b with (S t + (b - S t))%nat by lia.
  rewrite rsum_split.
  rewrite (rsum_0' (n := (b - S t)%nat)).
  - cbn [rsum acc]. rewrite Rplus_0_r.
    rewrite <- (acc_sum r x t). f_equal.
    + apply rsum_ext. intros i Hi. unfold lowt.
      destruct (Nat.leb_spec i t); [reflexivity|lia].
    + unfold lowt. rewrite Nat.leb_refl, Nat.sub_diag. simpl. ring.
  - intros i Hi. unfold lowt. destruct (Nat.leb_spec (S t + i) t); [lia|ring].
Qed.

Lemma toep_factor b r i j : (i < b)%nat -> (j < b)%nat ->
  toeplitz r i j =
  rsum b (fun t => lowweight b r t * (lowt r t i * lowt r t j)).
Proof.
  revert i j. apply quad_inj.
  - intros. apply toep_sym.
  - intros. apply rsum_ext. intros. ring.
  - intros x.
    transitivity (rsum b (fun t => lowweight b r t * acc r x (S t) ^ 2)).
    + destruct b as [|k]; [reflexivity|]. rewrite toep_quad. cbn [rsum].
      rewrite Rplus_comm. f_equal.
      * rewrite <- rsum_mul_l. apply rsum_ext. intros t Ht. f_equal.
        unfold lowweight. destruct (Nat.eqb_spec (S t) (S k)); [lia|auto].
      * unfold lowweight. rewrite Nat.eqb_refl. ring.
    + unfold quad.
      rewrite (rsum_ext (n := b) (fun i => rsum b _) (fun i => rsum b (fun t =>
        rsum b (fun j => x i * (lowweight b r t * (lowt r t i * lowt r t j))
          * x j)))).
      2:{ intros i Hi. rewrite rsum_exchange. apply rsum_ext. intros j Hj.
          rewrite <- rsum_mul_l, <- rsum_mul_r. reflexivity. }
      rewrite rsum_exchange. apply rsum_ext. intros t Ht.
      rewrite <- (lowt_acc b r x t Ht).
      rewrite (rsum_ext (n := b) (fun i => rsum b _) (fun i =>
        (lowweight b r t * rsum b (fun i => lowt r t i * x i)) *
        (lowt r t i * x i))).
      * rewrite rsum_mul_l. ring.
      * intros i Hi. rewrite <- rsum_mul_l, <- rsum_mul_r. apply rsum_ext.
        intros. ring.
Qed.

Lemma trace_toep_pos b r Q : Rabs r < 1 -> psd b Q ->
  0 <= ftrace b (fmul b Q (toeplitz r)).
Proof.
  intros Hr [HQ1 HQ2].
  replace (ftrace b (fmul b Q (toeplitz r))) with
    (rsum b (fun t => lowweight b r t * quad b Q (lowt r t))).
  - apply rsum_pos. intros t Ht. apply Rmult_le_pos; auto.
    unfold lowweight. destruct (Nat.eqb (S t) b); [lra|].
    rewrite <- pow2_abs. pose proof (Rabs_pos r). nra.
  - unfold ftrace, fmul, quad.
    rewrite (rsum_ext (n := b) (fun t => lowweight b r t * _) (fun t =>
      rsum b (fun i => rsum b (fun j => lowweight b r t *
        (lowt r t i * Q i j * lowt r t j))))).
    2:{ intros t Ht. rewrite <- rsum_mul_l. apply rsum_ext. intros i Hi.
        rewrite <- rsum_mul_l. reflexivity. }
    rewrite rsum_exchange. apply rsum_ext. intros i Hi.
    rewrite rsum_exchange. apply rsum_ext. intros j Hj.
    rewrite (toep_factor b r j i) by auto. rewrite <- rsum_mul_l.
    apply rsum_ext. intros. ring.
Qed.

Section Bo.
  Variables (m nb b : nat) (Phi : fmat).
  Variable solve : fmat -> fmat -> fmat.
  Hypothesis HS : solver_ok m solve.
  Variables (S0 : nat -> fmat) (act : nat -> bool) (lam : R).
  Hypothesis HP : forall i, (i < nb)%nat -> act i = true -> psd b (S0 i).
  Hypothesis HL : 0 < lam.

  Notation n := (nb * b)%nat.
  Notation D := (prior b act S0).
  Notation A := (add_to_diagonal (cum_phi_b_phi_pruned nb b Phi S0 act) lam).
  Notation H := (compute_h Phi solve (cum_phi_b_phi_pruned nb b Phi S0 act) lam).

  Lemma hphi_split i c d : (i < nb)%nat -> (c < b)%nat -> (d < b)%nat ->
    let X := fun c l => solve A Phi l (i * b + c)%nat in
    h_phi m b Phi H i c d =
    fdot n (fmv m (ftr Phi) (X c)) (fmv n D (fmv m (ftr Phi) (X d)))
      + lam * fdot m (X c) (X d).
  Proof.
    intros Hi Hc Hd X.
    assert (HX : forall r, (r < m)%nat ->
      fmv m (sysmat n Phi D lam) (X d) r = Phi r (i * b + d)%nat).
    { intros r Hr. unfold fmv, X.
      apply (solve_sys m nb b Phi solve HS S0 act lam HP HL); auto. }
    unfold h_phi, compute_h. unfold fmul at 1. unfold ftr at 1.
    change (rsum m (fun l => solve A Phi l (i * b + c)%nat *
      Phi l (i * b + d)%nat)) with
      (fdot m (X c) (fun l => Phi l (i * b + d)%nat)).
    rewrite (fdot_ext m (X c) (X c) (fun l => Phi l (i * b + d)%nat)
      (fun r => fmv n Phi (fmv n D (fmv m (ftr Phi) (X d))) r + lam * X d r)).
    - rewrite fdot_sym, fdot_add_l, fdot_scale_l. f_equal.
      + rewrite fdot_adj. apply fdot_sym.
      + f_equal. apply fdot_sym.
    - auto.
    - intros r Hr. rewrite <- sys_mv by auto. symmetry. auto.
  Qed.

  Lemma bo_trace_pos i r : (i < nb)%nat -> Rabs r < 1 ->
    (exists p c, (p < m)%nat /\ (c < b)%nat /\ Phi p (i * b + c)%nat <> 0) ->
    0 < ftrace b (fmul b (h_phi m b Phi H i) (toeplitz r)).
  Proof.
    intros Hi Hr [p [c0 [Hp [Hc0 HN]]]].
    set (X := fun c l => solve A Phi l (i * b + c)%nat).
    set (Q := fun c d => fdot n (fmv m (ftr Phi) (X c))
       (fmv n D (fmv m (ftr Phi) (X d)))).
    assert (HD : psd n D) by (apply (prior_psd nb b S0 act); auto).
    assert (HQ : psd b Q).
    { split.
      - intros c d Hc Hd. unfold Q. apply (psd_dot_sym n D). apply HD.
      - intros v.
        set (w := fun k => rsum b (fun c => v c * fmv m (ftr Phi) (X c) k)).
        replace (quad b Q v) with (quad n D w); [apply HD|].
        rewrite quad_dot. unfold quad.
        unfold fdot at 1. unfold w at 1.
        rewrite (rsum_ext (n := n) _ (fun k => rsum b (fun c =>
          v c * (fmv m (ftr Phi) (X c) k * fmv n D w k)))).
        2:{ intros k Hk. rewrite <- rsum_mul_r. apply rsum_ext. intros. ring. }
        rewrite rsum_exchange. apply rsum_ext. intros c Hc.
        rewrite rsum_mul_l.
        rewrite (rsum_ext (n := b) _ (fun d => v c * (Q c d * v d)))
          by (intros; ring).
        rewrite rsum_mul_l. f_equal. unfold Q, fdot.
        rewrite (rsum_ext (n := b) _ (fun d => rsum n (fun k =>
          fmv m (ftr Phi) (X c) k *
          (fmv n D (fmv m (ftr Phi) (X d)) k * v d)))).
        2:{ intros d Hd. rewrite <- rsum_mul_r. apply rsum_ext. intros. ring. }
        rewrite rsum_exchange. apply rsum_ext. intros k Hk.
        rewrite rsum_mul_l. f_equal. unfold w. unfold fmv at 1 4.
        rewrite (rsum_ext (n := n) _ (fun l => rsum b (fun d =>
          D k l * fmv m (ftr Phi) (X d) l * v d))).
        2:{ intros l Hl. rewrite <- rsum_mul_l. apply rsum_ext. intros. ring. }
        rewrite rsum_exchange. apply rsum_ext. intros d Hd.
        rewrite rsum_mul_r. reflexivity. }
    pose proof (trace_toep_pos b r Q Hr HQ) as H1.
    assert (E : ftrace b (fmul b (h_phi m b Phi H i) (toeplitz r)) =
      ftrace b (fmul b Q (toeplitz r)) +
      lam * rsum m (fun l => quad b (toeplitz r) (fun c => X c l))).
    { unfold ftrace, fmul, quad.
      rewrite (rsum_exchange m b).
      rewrite <- rsum_mul_l, <- rsum_add. apply rsum_ext. intros c Hc.
      rewrite (rsum_exchange m b).
      rewrite <- rsum_mul_l, <- rsum_add. apply rsum_ext. intros d Hd.
      rewrite hphi_split by auto. fold (X c) (X d).
      change (fdot n (fmv m (ftr Phi) (X c)) (fmv n D (fmv m (ftr Phi) (X d))))
        with (Q c d).
      rewrite (toep_sym r d c).
      rewrite (rsum_ext (n := m) _ (fun l => toeplitz r c d * (X c l * X d l)))
        by (intros; ring).
      rewrite rsum_mul_l. unfold fdot. ring. }
    rewrite E.
    assert (H2 : 0 < rsum m (fun l => quad b (toeplitz r) (fun c => X c l))).
    { pose proof (toep_spd r b Hr) as HT.
      assert (H3 : forall l, (l < m)%nat ->
        0 <= quad b (toeplitz r) (fun c => X c l)).
      { intros l _. apply (spd_psd b _ HT). }
      destruct (Rle_lt_or_eq_dec 0 _ (@rsum_pos m _ H3)) as [|Z]; auto.
      exfalso. apply HN.
      assert (HZ : forall l c, (l < m)%nat -> (c < b)%nat -> X c l = 0).
      { intros l c Hl Hc. destruct (Req_dec (X c l) 0) as [|HN']; auto.
        pose proof (proj2 HT (fun c => X c l)
          (ex_intro _ c (conj Hc HN'))) as HQp.
        pose proof (@rsum_eq0 m _ H3 (eq_sym Z) l Hl) as HQz.
        cbn beta in HQz. lra. }
      rewrite <- (solve_sys m nb b Phi solve HS S0 act lam HP HL Phi p
        (i * b + c0)%nat Hp).
      apply rsum_0'. intros l Hl. fold (X c0 l). rewrite HZ by auto. ring. }
    pose proof (Rmult_lt_0_compat _ _ HL H2). lra.
  Qed.
End Bo.
