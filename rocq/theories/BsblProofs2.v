(** The correlation matrices of block sparse Bayesian learning. *)
From Coq Require Import List Arith Bool Reals Lia Lra Psatz.
From Verif Require Import Scalar Vec RVec Loop XReal BsblModel BsblSpec BsblProofs.
Import ListNotations.
Local Open Scope R_scope.

Lemma toep_sym r i j : toeplitz r i j = toeplitz r j i.
Proof. unfold toeplitz. f_equal. lia. Qed.

Lemma toep_ge r i j : (j <= i)%nat -> toeplitz r i j = r ^ (i - j).
Proof. intros H. unfold toeplitz. f_equal. lia. Qed.

Lemma toep_diag r i : toeplitz r i i = 1.
Proof. rewrite toep_ge by lia. rewrite Nat.sub_diag. reflexivity. Qed.

(** The state of the recursion a(k+1) = r a(k) + x(k). *)
Fixpoint acc (r : R) (x : fvec) (k : nat) : R :=
  match k with O => 0 | S k => r * acc r x k + x k end.

Lemma acc_sum r x k : rsum k (fun i => r ^ (k - i) * x i) = r * acc r x k.
Proof.
  induction k as [|k IH]; [cbn; ring|]. cbn [rsum acc].
  rewrite (rsum_ext (n := k) _ (fun i => r * (r ^ (k - i) * x i))).
  - rewrite rsum_mul_l, IH. replace (S k - k)%nat with 1%nat by lia. ring.
  - intros i Hi. replace (S k - i)%nat with (S (k - i)) by lia. cbn. ring.
Qed.

Lemma quad_S k A x :
  quad (S k) A x = quad k A x + rsum k (fun i => x i * A i k * x k)
    + rsum k (fun j => x k * A k j * x j) + x k * A k k * x k.
Proof.
  unfold quad. cbn [rsum]. rewrite rsum_add. ring.
Qed.

Lemma toep_step r x k :
  quad (S k) (toeplitz r) x =
  quad k (toeplitz r) x + acc r x (S k) ^ 2 - r ^ 2 * acc r x k ^ 2.
Proof.
  rewrite quad_S, toep_diag.
  assert (E : rsum k (fun j => x k * toeplitz r k j * x j) = x k * (r * acc r x k)).
  { rewrite <- acc_sum, <- rsum_mul_l. apply rsum_ext. intros j Hj.
    rewrite toep_ge by lia. ring. }
  assert (E' : rsum k (fun i => x i * toeplitz r i k * x k) = x k * (r * acc r x k)).
  { rewrite <- E. apply rsum_ext. intros j Hj. rewrite toep_sym. ring. }
  rewrite E, E'. cbn [acc]. ring.
Qed.

Lemma toep_quad r x k :
  quad (S k) (toeplitz r) x =
  acc r x (S k) ^ 2 + (1 - r ^ 2) * rsum k (fun i => acc r x (S i) ^ 2).
Proof.
  induction k as [|k IH].
  - rewrite toep_step. unfold quad. cbn. ring.
  - rewrite toep_step, IH. cbn [rsum]. ring.
Qed.

Lemma toep_spd r k : Rabs r < 1 -> spd k (toeplitz r).
Proof.
  intros Hr. split; [intros; apply toep_sym|].
  intros x [i [Hi Hx]]. destruct k as [|k]; [lia|].
  assert (H1 : 0 < 1 - r ^ 2).
  { rewrite <- pow2_abs. pose proof (Rabs_pos r). nra. }
  rewrite toep_quad.
  assert (H2 : 0 <= rsum k (fun i => acc r x (S i) ^ 2)).
  { apply rsum_pos. intros. apply pow2_ge_0. }
  assert (H3 : 0 <= acc r x (S k) ^ 2) by apply pow2_ge_0.
  assert (H4 : 0 <= (1 - r ^ 2) * rsum k (fun i => acc r x (S i) ^ 2))
    by (apply Rmult_le_pos; lra).
  destruct (Rle_lt_or_eq_dec 0 _ H3) as [|Z1]; [lra|].
  destruct (Rle_lt_or_eq_dec 0 _ H2) as [Z2|Z2];
    [pose proof (Rmult_lt_0_compat _ _ H1 Z2); lra|].
  exfalso. apply Hx.
  assert (HA : forall j, (j <= S k)%nat -> acc r x j = 0).
  { intros [|j] Hj; [reflexivity|].
    destruct (Nat.eq_dec j k) as [->|].
    - destruct (Req_dec (acc r x (S k)) 0) as [|N]; auto.
      pose proof (Rsqr_pos_lt _ N). unfold Rsqr in *. lra.
    - pose proof (@rsum_eq0 k (fun i => acc r x (S i) ^ 2)
        ltac:(intros; apply pow2_ge_0) ltac:(auto) j ltac:(lia)) as E.
      cbn beta in E. destruct (Req_dec (acc r x (S j)) 0) as [|N]; auto.
      pose proof (Rsqr_pos_lt _ N). unfold Rsqr in *. lra. }
  pose proof (HA i ltac:(lia)) as E1. pose proof (HA (S i) ltac:(lia)) as E2.
  cbn [acc] in E2. rewrite E1 in E2. lra.
Qed.

(** ** The inverse *)
(** Rows of the whitening matrix. *)
Definition whiten (r : R) : fmat := fun i j =>
  match i with
  | O => if Nat.eqb j 0 then 1 else 0
  | S k => (if Nat.eqb j (S k) then 1 else if Nat.eqb j k then - r else 0)
           / sqrt (1 - r ^ 2)
  end.

Definition wtw (b : nat) (r : R) : fmat := fun p q =>
  rsum b (fun i => whiten r i p * whiten r i q).

Lemma sum_two b i (f g : fvec) (u v : R) : (S i < b)%nat ->
  (forall j, (j < b)%nat ->
     g j = if Nat.eqb j (S i) then u else if Nat.eqb j i then v else 0) ->
  rsum b (fun j => f j * g j) = f (S i) * u + f i * v.
Proof.
  intros Hi Hg.
  rewrite (rsum_ext (n := b) _ (fun j =>
    (if Nat.eqb j (S i) then f (S i) * u else 0) +
    (if Nat.eqb j i then f i * v else 0))).
  - rewrite rsum_add. rewrite (rsum_single (n := b) (k := S i)); [|lia|].
    + rewrite (rsum_single (n := b) (k := i)); [|lia|].
      * rewrite !Nat.eqb_refl. reflexivity.
      * intros j _ Hj. destruct (Nat.eqb_spec j i); [congruence|auto].
    + intros j _ Hj. destruct (Nat.eqb_spec j (S i)); [congruence|auto].
  - intros j Hj. rewrite Hg by auto.
    destruct (Nat.eqb_spec j (S i)) as [->|].
    + destruct (Nat.eqb_spec (S i) i); [lia|]. ring.
    + destruct (Nat.eqb_spec j i) as [->|]; ring.
Qed.

(** The Toeplitz matrix times a row of the whitening matrix. *)
Definition tw (r : R) (i l : nat) : R :=
  if Nat.leb i l then r ^ (l - i) *
    match i with O => 1 | S _ => sqrt (1 - r ^ 2) end
  else 0.

Lemma toep_whiten b r i l : Rabs r < 1 -> (i < b)%nat -> (l < b)%nat ->
  rsum b (fun j => toeplitz r l j * whiten r i j) = tw r i l.
Proof.
  intros Hr Hi Hl. unfold tw. destruct i as [|i].
  - rewrite (rsum_single (n := b) (k := 0%nat)); auto.
    + cbn. rewrite toep_ge by lia. replace (l - 0)%nat with l by lia. ring.
    + intros j _ Hj. cbn. destruct (Nat.eqb_spec j 0); [congruence|ring].
  - assert (H1 : 0 < 1 - r ^ 2).
    { rewrite <- pow2_abs. pose proof (Rabs_pos r). nra. }
    pose proof (sqrt_lt_R0 _ H1) as HS.
    assert (HSS : sqrt (1 - r ^ 2) * sqrt (1 - r ^ 2) = 1 - r ^ 2)
      by (apply sqrt_sqrt; lra).
    rewrite (sum_two b i (toeplitz r l) (whiten r (S i))
      (1 / sqrt (1 - r ^ 2)) (- r / sqrt (1 - r ^ 2))); auto.
    + destruct (Nat.leb_spec (S i) l) as [HL|HL].
      * rewrite !toep_ge by lia.
        replace (l - i)%nat with (S (l - S i)) by lia.
        set (s := sqrt (1 - r ^ 2)) in *. set (P := r ^ (l - S i)).
        change (r ^ S (l - S i)) with (r * P).
        apply (Rmult_eq_reg_r s); [|lra].
        replace (P * s * s) with (P * (s * s)) by ring.
        rewrite HSS. field. lra.
      * rewrite (toep_sym r l (S i)), (toep_sym r l i), !toep_ge by lia.
        replace (S i - l)%nat with (S (i - l)) by lia.
        change (r ^ S (i - l)) with (r * r ^ (i - l)). field. lra.
    + intros j Hj. unfold whiten.
      destruct (Nat.eqb j (S i)); [reflexivity|].
      destruct (Nat.eqb j i); [reflexivity|]. unfold Rdiv. ring.
Qed.

Lemma wtw_inverse b r l q : Rabs r < 1 -> (l < b)%nat -> (q < b)%nat ->
  rsum b (fun j => toeplitz r l j * wtw b r j q) =
  if Nat.eqb l q then 1 else 0.
Proof.
  intros Hr Hl Hq.
  assert (H1 : 0 < 1 - r ^ 2).
  { rewrite <- pow2_abs. pose proof (Rabs_pos r). nra. }
  pose proof (sqrt_lt_R0 _ H1) as HS.
  assert (E : rsum b (fun j => toeplitz r l j * wtw b r j q) =
              rsum b (fun i => tw r i l * whiten r i q)).
  { unfold wtw.
    rewrite (rsum_ext (n := b) _ (fun j => rsum b (fun i =>
      toeplitz r l j * whiten r i j * whiten r i q)))
      by (intros; rewrite <- rsum_mul_l; apply rsum_ext; intros; ring).
    rewrite rsum_exchange. apply rsum_ext. intros i Hi.
    rewrite rsum_mul_r. f_equal. apply toep_whiten; auto. }
  rewrite E. clear E.
  assert (TW : forall i, (i < b)%nat -> tw r (S i) l * whiten r (S i) q =
    if Nat.leb (S i) l then r ^ (l - S i) *
      (if Nat.eqb q (S i) then 1 else if Nat.eqb q i then - r else 0) else 0).
  { intros i Hi. unfold tw. destruct (Nat.leb (S i) l); [|ring].
    unfold whiten. field. lra. }
  destruct q as [|q].
  - (* column 0: i = 0 and i = 1 *)
    destruct b as [|b]; [lia|]. rewrite rsum_S_l.
    assert (E0 : tw r 0%nat l * whiten r 0%nat 0%nat = r ^ l).
    { unfold tw, whiten. cbn [Nat.leb Nat.eqb].
      replace (l - 0)%nat with l by lia. ring. }
    rewrite E0. destruct b as [|b].
    + replace l with 0%nat by lia. cbn. ring.
    + rewrite (rsum_single (n := S b) (k := 0%nat)); [|lia|].
      * rewrite TW by lia. cbn [Nat.eqb].
        destruct (Nat.leb_spec 1 l) as [HL|HL].
        -- destruct (Nat.eqb_spec l 0); [lia|].
           replace l with (S (l - 1)) at 1 by lia. cbn [pow]. ring.
        -- replace l with 0%nat by lia. cbn. ring.
      * intros i Hi Hn. rewrite TW by lia.
        destruct (Nat.leb (S i) l); auto.
        cbn [Nat.eqb]. destruct i; [lia|]. ring.
  - (* other columns: i = q and i = q + 1 *)
    destruct b as [|b]; [lia|]. rewrite rsum_S_l.
    assert (E0 : tw r 0%nat l * whiten r 0%nat (S q) = 0).
    { unfold whiten. cbn [Nat.eqb]. ring. }
    rewrite E0, Rplus_0_l.
    assert (TW' : forall i, (i < b)%nat ->
      tw r (S i) l * whiten r (S i) (S q) =
      (if Nat.leb (S i) l then r ^ (l - S i) else 0) *
      (if Nat.eqb i (S q) then - r else if Nat.eqb i q then 1 else 0)).
    { intros i Hi. rewrite TW by lia. destruct (Nat.leb (S i) l); [|ring].
      destruct (Nat.eqb_spec i (S q)) as [->|].
      - destruct (Nat.eqb_spec (S q) (S (S q))); [lia|].
        rewrite Nat.eqb_refl. ring.
      - destruct (Nat.eqb_spec (S q) (S i)), (Nat.eqb_spec i q);
          try lia; try ring.
        destruct (Nat.eqb_spec (S q) i); [lia|ring]. }
    rewrite (rsum_ext (n := b) _ _ TW').
    destruct (lt_dec (S q) b) as [Hqb|Hqb].
    + rewrite (sum_two b q (fun i => if Nat.leb (S i) l then r ^ (l - S i) else 0)
        _ (- r) 1); auto.
      destruct (Nat.leb_spec (S (S q)) l) as [H2|H2].
      * destruct (Nat.leb_spec (S q) l); [|lia].
        destruct (Nat.eqb_spec l (S q)); [lia|].
        replace (l - S q)%nat with (S (l - S (S q))) by lia. cbn [pow]. ring.
      * destruct (Nat.leb_spec (S q) l) as [H3|H3].
        -- replace l with (S q) by lia. rewrite Nat.eqb_refl, Nat.sub_diag.
           cbn. ring.
        -- destruct (Nat.eqb_spec l (S q)); [lia|]. ring.
    + rewrite (rsum_single (n := b) (k := q)); [|lia|].
      * rewrite Nat.eqb_refl. destruct (Nat.eqb_spec q (S q)); [lia|].
        destruct (Nat.leb_spec (S q) l) as [H3|H3].
        -- replace l with (S q) by lia. rewrite Nat.eqb_refl, Nat.sub_diag.
           cbn. ring.
        -- destruct (Nat.eqb_spec l (S q)); [lia|]. ring.
      * intros i Hi Hn. destruct (Nat.eqb_spec i (S q)); [lia|].
        destruct (Nat.eqb_spec i q); [lia|]. ring.
Qed.

(** Two right inverses of a positive definite matrix agree. *)
Lemma right_inverse_unique b B X Y : spd b B ->
  (forall i j, (i < b)%nat -> (j < b)%nat ->
     rsum b (fun l => B i l * X l j) = rsum b (fun l => B i l * Y l j)) ->
  forall i j, (i < b)%nat -> (j < b)%nat -> X i j = Y i j.
Proof.
  intros [_ HP] H i j Hi Hj.
  destruct (Req_dec (X i j) (Y i j)) as [|N]; auto. exfalso.
  pose proof (HP (fun l => X l j - Y l j)) as HQ.
  assert (HE : 0 < quad b B (fun l => X l j - Y l j)).
  { apply HQ. exists i. split; auto. lra. }
  rewrite quad_dot in HE. unfold fdot in HE.
  rewrite (rsum_0' (n := b)) in HE; [lra|].
  intros k Hk.
  assert (E : fmv b B (fun l => X l j - Y l j) k = 0).
  { rewrite fmv_sub. specialize (H k j Hk Hj). unfold fmv. lra. }
  rewrite E. ring.
Qed.

Lemma inv_toep b inv r : inv_ok b inv -> Rabs r < 1 ->
  forall i j, (i < b)%nat -> (j < b)%nat -> inv (toeplitz r) i j = wtw b r i j.
Proof.
  intros HI Hr. apply (right_inverse_unique b (toeplitz r)).
  - apply toep_spd; auto.
  - intros i j Hi Hj. rewrite wtw_inverse by auto.
    apply (HI _ (toep_spd r b Hr)); auto.
Qed.

(** The trace of the inverse times a positive semidefinite matrix. *)
Lemma trace_wtw b r C :
  ftrace b (fmul b (wtw b r) C) = rsum b (fun i => quad b (ftr C) (whiten r i)).
Proof.
  unfold ftrace, fmul, wtw, quad, ftr.
  rewrite (rsum_ext (n := b) _ (fun p => rsum b (fun i => rsum b (fun l =>
    whiten r i p * C l p * whiten r i l)))).
  - rewrite rsum_exchange. apply rsum_ext. intros i Hi.
    apply rsum_ext. intros p Hp. apply rsum_ext. intros l Hl. ring.
  - intros p Hp. rewrite rsum_exchange. apply rsum_ext. intros l Hl.
    rewrite <- rsum_mul_r. apply rsum_ext. intros i Hi. ring.
Qed.

Lemma psd_tr b C : psd b C -> psd b (ftr C).
Proof.
  intros [H1 H2]. split; [intros; unfold ftr; apply H1; auto|].
  intros x. replace (quad b (ftr C) x) with (quad b C x); auto.
  unfold quad, ftr. apply rsum_ext. intros i Hi. apply rsum_ext.
  intros j Hj. rewrite (H1 i j) by auto. reflexivity.
Qed.

Lemma ftrace_ext b A A' : (forall i, (i < b)%nat -> A i i = A' i i) ->
  ftrace b A = ftrace b A'.
Proof. intros H. apply rsum_ext. auto. Qed.

Lemma trace_inv_pos b inv r C : inv_ok b inv -> Rabs r < 1 -> psd b C ->
  0 <= ftrace b (fmul b (inv (toeplitz r)) C).
Proof.
  intros HI Hr HC.
  replace (ftrace b (fmul b (inv (toeplitz r)) C))
    with (ftrace b (fmul b (wtw b r) C)).
  - rewrite trace_wtw. apply rsum_pos. intros i Hi. apply psd_tr; auto.
  - apply ftrace_ext. intros i Hi. apply rsum_ext. intros l Hl.
    rewrite (inv_toep b inv r HI Hr) by auto. reflexivity.
Qed.

(** ** The matrices the code computes *)
Lemma corr_coef_range b B0 r : corr_coef b B0 = Fin r -> Rabs r <= 99 / 100.
Proof.
  unfold corr_coef.
  assert (HC : forall v, xmin (xmax v (- (99 / 100))) (99 / 100) = Fin r ->
     Rabs r <= 99 / 100).
  { intros v H. destruct v as [v| | |]; cbn in H; try discriminate;
      injection H as <-; apply Rabs_le.
    - split; [apply Rmin_glb; [apply Rmax_r|lra]|apply Rmin_r].
    - lra.
    - split; [apply Rmin_glb; lra|apply Rmin_r]. }
  apply HC.
Qed.

Lemma B_facts b inv B0 B Bi : compute_B_B_inv b inv B0 = Some (B, Bi) ->
  exists r, Rabs r <= 99 / 100 /\ B = toeplitz r /\ Bi = inv B.
Proof.
  unfold compute_B_B_inv. destruct (Nat.eqb b 1).
  - intros H. injection H as <- <-. exists 0. rewrite Rabs_R0.
    split; [lra|auto].
  - destruct (corr_coef b B0) as [r| | |] eqn:E; try discriminate.
    intros H. injection H as <- <-. exists r.
    split; [eapply corr_coef_range; eauto|auto].
Qed.

(** The coefficient is undefined only if the diagonal sums to zero. *)
Lemma B_none b inv B0 : (0 < b)%nat -> compute_B_B_inv b inv B0 = None ->
  ftrace b B0 = 0.
Proof.
  intros Hb. unfold compute_B_B_inv, corr_coef, ftrace.
  destruct (Nat.eqb_spec b 1); [discriminate|].
  unfold xdiv.
  destruct (Reqb_spec (rsum b (fun i => B0 i i) / INR b) 0) as [E|].
  - intros _. assert (HN : INR b <> 0) by (apply not_0_INR; lia).
    apply (Rmult_eq_reg_r (/ INR b)); [|apply Rinv_neq_0_compat; auto].
    rewrite Rmult_0_l. exact E.
  - cbn. discriminate.
Qed.
