(** The quantities computed by one step of block sparse Bayesian learning. *)
From Coq Require Import List Arith Bool Reals Lia Lra Psatz.
From Verif Require Import Scalar Vec RVec Loop XReal BsblModel BsblSpec BsblProofs
  BsblProofs2.
Import ListNotations.
Local Open Scope R_scope.

Lemma spd_ext k A A' :
  (forall i j, (i < k)%nat -> (j < k)%nat -> A i j = A' i j) ->
  spd k A -> spd k A'.
Proof.
  intros H [H1 H2]. split.
  - intros i j Hi Hj. rewrite <- !H by auto. auto.
  - intros x Hx. specialize (H2 x Hx). unfold quad in *.
    rewrite (rsum_ext (n := k) _ (fun i => rsum k (fun j => x i * A i j * x j)));
      auto.
    intros i Hi. apply rsum_ext. intros j Hj. rewrite H; auto.
Qed.

Lemma psd_ext k A A' :
  (forall i j, (i < k)%nat -> (j < k)%nat -> A i j = A' i j) ->
  psd k A -> psd k A'.
Proof.
  intros H [H1 H2]. split.
  - intros i j Hi Hj. rewrite <- !H by auto. auto.
  - intros x. specialize (H2 x). unfold quad in *.
    rewrite (rsum_ext (n := k) _ (fun i => rsum k (fun j => x i * A i j * x j)));
      auto.
    intros i Hi. apply rsum_ext. intros j Hj. rewrite H; auto.
Qed.

Lemma psd_scale k c A : 0 <= c -> psd k A -> psd k (fun i j => c * A i j).
Proof.
  intros Hc [H1 H2]. split.
  - intros i j Hi Hj. rewrite (H1 i j) by auto. reflexivity.
  - intros x. replace (quad k (fun i j => c * A i j) x) with (c * quad k A x).
    + apply Rmult_le_pos; auto.
    + unfold quad. rewrite <- rsum_mul_l. apply rsum_ext. intros i Hi.
      rewrite <- rsum_mul_l. apply rsum_ext. intros j Hj. ring.
Qed.

Lemma psd_add_const k c A : 0 <= c -> psd k A -> psd k (fun i j => A i j + c).
Proof.
  intros Hc [H1 H2]. split.
  - intros i j Hi Hj. rewrite (H1 i j) by auto. reflexivity.
  - intros x.
    replace (quad k (fun i j => A i j + c) x)
      with (quad k A x + c * (rsum k x * rsum k x)).
    + pose proof (H2 x). assert (0 <= rsum k x * rsum k x) by nra.
      assert (0 <= c * (rsum k x * rsum k x)) by (apply Rmult_le_pos; auto). lra.
    + unfold quad.
      rewrite <- (rsum_mul_r k (rsum k x) x), <- rsum_mul_l, <- rsum_add.
      apply rsum_ext. intros i Hi.
      rewrite <- (rsum_mul_l k (x i) x), <- rsum_mul_l, <- rsum_add.
      apply rsum_ext. intros j Hj. ring.
Qed.

(** A principal block. *)
Lemma psd_block nb b C i : (i < nb)%nat -> psd (nb * b) C ->
  psd b (fun p q => C (i * b + p)%nat (i * b + q)%nat).
Proof.
  intros Hi [H1 H2]. split.
  - intros p q Hp Hq. apply H1; apply blk_lt; auto.
  - intros x.
    set (x' := fun k => if Nat.eqb (k / b) i then x (k mod b)%nat else 0).
    replace (quad b _ x) with (quad (nb * b) C x'); auto.
    unfold quad. rewrite rsum_blocks.
    rewrite (rsum_single (n := nb) (k := i)); auto.
    + apply rsum_ext. intros p Hp. rewrite rsum_blocks.
      rewrite (rsum_single (n := nb) (k := i)); auto.
      * apply rsum_ext. intros q Hq. unfold x'.
        rewrite !blk_div, !blk_mod, Nat.eqb_refl by auto. reflexivity.
      * intros j Hj Hn. apply rsum_0'. intros q Hq. unfold x' at 2.
        rewrite blk_div by auto. destruct (Nat.eqb_spec j i); [congruence|ring].
    + intros j Hj Hn. apply rsum_0'. intros p Hp. apply rsum_0'. intros q Hq.
      unfold x' at 1. rewrite blk_div by auto.
      destruct (Nat.eqb_spec j i); [congruence|ring].
Qed.

Lemma quad_unit n A k : (k < n)%nat ->
  quad n A (fun i => if Nat.eqb i k then 1 else 0) = A k k.
Proof.
  intros Hk. unfold quad.
  rewrite (rsum_single (n := n) (k := k)); auto.
  - rewrite (rsum_single (n := n) (k := k)); auto.
    + rewrite Nat.eqb_refl. ring.
    + intros j _ Hj. destruct (Nat.eqb_spec j k); [congruence|ring].
  - intros i _ Hi. apply rsum_0'. intros j _.
    destruct (Nat.eqb_spec i k); [congruence|ring].
Qed.

Lemma psd_diag n A k : psd n A -> (k < n)%nat -> 0 <= A k k.
Proof. intros [_ H] Hk. rewrite <- (quad_unit n A k) by auto. apply H. Qed.

Lemma bd_mul_r nb b P f i c : (i < nb)%nat -> (c < b)%nat ->
  rsum (nb * b) (fun l => f l * block_diag b P l (i * b + c)%nat) =
  rsum b (fun d => f (i * b + d)%nat * P i d c).
Proof.
  intros Hi Hc. rewrite rsum_blocks.
  rewrite (rsum_single (n := nb) (k := i)); auto.
  - apply rsum_ext. intros d Hd. rewrite bd_entry by auto.
    rewrite Nat.eqb_refl. reflexivity.
  - intros j Hj Hn. apply rsum_0'. intros d Hd. rewrite bd_entry by auto.
    destruct (Nat.eqb_spec j i); [congruence|ring].
Qed.

Section Cov.
  Variables (m n : nat) (Phi P : fmat) (lam : R) (X : fmat).
  Hypothesis HP : psd n P.
  Hypothesis HL : 0 < lam.
  Hypothesis HX : forall r c, (r < m)%nat -> (c < n)%nat ->
    rsum m (fun l => sysmat n Phi P lam r l * X l c) = fmul n Phi P r c.

  Definition covm : fmat := fun k c =>
    P k c - fmv n P (fmv m (ftr Phi) (fun l => X l c)) k.

  Lemma cov_form k c : (k < n)%nat ->
    covm k c = P k c - rsum m (fun r => fmul n Phi P r k * X r c).
  Proof.
    intros Hk. unfold covm. f_equal. unfold fmv, ftr, fmul.
    rewrite (rsum_ext (n := n) _ (fun j => rsum m (fun r =>
      P k j * Phi r j * X r c))) by
      (intros; rewrite <- rsum_mul_l; apply rsum_ext; intros; ring).
    rewrite rsum_exchange. apply rsum_ext. intros r Hr.
    rewrite <- rsum_mul_r. apply rsum_ext. intros j Hj.
    rewrite (proj1 HP k j) by auto. ring.
  Qed.

  Lemma cov_sym k c : (k < n)%nat -> (c < n)%nat -> covm k c = covm c k.
  Proof.
    intros Hk Hc. rewrite !cov_form by auto.
    rewrite (proj1 HP k c) by auto. f_equal.
    rewrite (rsum_ext (n := m) _ (fun r => rsum m (fun l =>
      sysmat n Phi P lam r l * X l k * X r c))).
    2:{ intros r Hr. rewrite <- (HX r k) by auto. rewrite <- rsum_mul_r.
        reflexivity. }
    rewrite rsum_exchange. apply rsum_ext. intros l Hl.
    rewrite <- (HX l c) by auto. rewrite <- rsum_mul_r. apply rsum_ext.
    intros r Hr. rewrite (sys_sym m n Phi P lam HP r l) by auto. ring.
  Qed.

  Lemma cov_quad_eq v : exists g,
    quad n covm v =
      quad n P (fun k => v k - fmv m (ftr Phi) g k) + lam * fsq m g /\
    quad n covm v = quad n P v - fdot m (fmv n Phi (fmv n P v)) g /\
    0 <= fdot m (fmv n Phi (fmv n P v)) g.
  Proof.
    set (g := fmv n X v). exists g.
    assert (HG : forall r, (r < m)%nat ->
      fmv m (sysmat n Phi P lam) g r = fmv n Phi (fmv n P v) r).
    { intros r Hr. rewrite <- fmv_fmul. unfold g.
      rewrite <- (fmv_fmul m n (sysmat n Phi P lam) X v r).
      apply rsum_ext. intros c Hc. f_equal. apply HX; auto. }
    rewrite <- (cov_quad m n Phi P lam HP v g HG).
    assert (E : quad n covm v =
       quad n P v - fdot m (fmv n Phi (fmv n P v)) g).
    { rewrite !quad_dot.
      assert (E1 : fdot m (fmv n Phi (fmv n P v)) g =
         fdot n v (fmv n P (fmv m (ftr Phi) g))).
      { rewrite fdot_adj, fdot_sym.
        apply (psd_dot_sym n P). apply HP. }
      rewrite E1. clear E1.
      assert (E2 : forall k, (k < n)%nat -> fmv n covm v k =
         fmv n P v k - fmv n P (fmv m (ftr Phi) g) k).
      { intros k Hk. unfold covm. unfold fmv at 1.
        rewrite (rsum_ext (n := n) _ (fun c => P k c * v c -
          fmv n P (fmv m (ftr Phi) (fun l => X l c)) k * v c))
          by (intros; ring).
        rewrite rsum_sub. f_equal.
        rewrite (rsum_ext (n := n) _ (fun c => rsum n (fun j =>
          P k j * (fmv m (ftr Phi) (fun l => X l c) j * v c)))).
        2:{ intros c Hc. unfold fmv at 1. rewrite <- rsum_mul_r.
            apply rsum_ext. intros. ring. }
        rewrite rsum_exchange. apply rsum_ext. intros j Hj.
        rewrite rsum_mul_l. f_equal. unfold g, fmv, ftr.
        rewrite (rsum_ext (n := n) _ (fun c => rsum m (fun l =>
          Phi l j * (X l c * v c)))).
        2:{ intros c Hc. rewrite <- rsum_mul_r. apply rsum_ext. intros. ring. }
        rewrite rsum_exchange. apply rsum_ext. intros l Hl.
        rewrite rsum_mul_l. reflexivity. }
      rewrite (fdot_ext n v v _ (fun k => fmv n P v k -
        fmv n P (fmv m (ftr Phi) g) k)) by auto.
      rewrite fdot_sym, fdot_sub_l, (fdot_sym n (fmv n P v)),
        (fdot_sym n (fmv n P (fmv m (ftr Phi) g))). reflexivity. }
    split; [rewrite E, quad_dot; reflexivity|]. split; auto.
    rewrite (fdot_ext m (fmv n Phi (fmv n P v))
      (fmv m (sysmat n Phi P lam) g) g g) by (auto; intros; symmetry; auto).
    rewrite fdot_sym, <- quad_dot, sys_quad.
    pose proof (proj2 HP (fmv m (ftr Phi) g)). pose proof (fsq_pos m g). nra.
  Qed.

  Lemma cov_psd : psd n covm.
  Proof.
    split; [intros; apply cov_sym; auto|].
    intros v. destruct (cov_quad_eq v) as [g [-> _]].
    pose proof (proj2 HP (fun k => v k - fmv m (ftr Phi) g k)).
    pose proof (fsq_pos m g). nra.
  Qed.

  (** The posterior variance does not exceed the prior variance, and vanishes
      only where that vanishes. *)
  Lemma cov_le v : quad n covm v <= quad n P v.
  Proof.
    destruct (cov_quad_eq v) as [g [E1 [E2 E3]]]. lra.
  Qed.

  Lemma cov_zero v : quad n covm v = 0 -> quad n P v = 0.
  Proof.
    intros HZ. destruct (cov_quad_eq v) as [g [E1 [E2 _]]].
    pose proof (proj2 HP (fun k => v k - fmv m (ftr Phi) g k)) as H1.
    pose proof (fsq_pos m g) as H2.
    assert (HG : fsq m g = 0) by nra.
    rewrite HZ in E2. rewrite (fdot_sym m) in E2.
    assert (E : fdot m g (fmv n Phi (fmv n P v)) = 0).
    { apply rsum_0'. intros i Hi. rewrite (fsq_zero m g HG i Hi). ring. }
    lra.
  Qed.
End Cov.
