(** Linear algebra for block sparse Bayesian learning. *)
From Coq Require Import List Arith Bool Reals Lia Lra Psatz.
From Verif Require Import Scalar Vec RVec Loop XReal BsblModel BsblSpec.
Import ListNotations.
Local Open Scope R_scope.

Definition fdot (k : nat) (x y : fvec) : R := rsum k (fun i => x i * y i).

Lemma fdot_sym k x y : fdot k x y = fdot k y x.
Proof. apply rsum_ext. intros. ring. Qed.

Lemma fdot_ext k x x' y y' :
  (forall i, (i < k)%nat -> x i = x' i) -> (forall i, (i < k)%nat -> y i = y' i) ->
  fdot k x y = fdot k x' y'.
Proof. intros H1 H2. apply rsum_ext. intros i Hi. rewrite H1, H2; auto. Qed.

Lemma fmv_ext n A A' x x' i :
  (forall j, (j < n)%nat -> A i j = A' i j) ->
  (forall j, (j < n)%nat -> x j = x' j) -> fmv n A x i = fmv n A' x' i.
Proof. intros H1 H2. apply rsum_ext. intros j Hj. rewrite H1, H2; auto. Qed.

Lemma fdot_adj m n A x y :
  fdot m (fmv n A x) y = fdot n x (fmv m (ftr A) y).
Proof.
  unfold fdot, fmv, ftr.
  rewrite (rsum_ext (n := m) _ (fun i => rsum n (fun l => A i l * x l * y i)))
    by (intros; rewrite <- rsum_mul_r; reflexivity).
  rewrite rsum_exchange. apply rsum_ext. intros j Hj.
  rewrite <- rsum_mul_l. apply rsum_ext. intros. ring.
Qed.

Lemma fdot_sub_l k x x' y :
  fdot k (fun i => x i - x' i) y = fdot k x y - fdot k x' y.
Proof.
  unfold fdot. rewrite <- rsum_sub. apply rsum_ext. intros. ring.
Qed.

Lemma fdot_add_l k x x' y :
  fdot k (fun i => x i + x' i) y = fdot k x y + fdot k x' y.
Proof.
  unfold fdot. rewrite <- rsum_add. apply rsum_ext. intros. ring.
Qed.

Lemma fdot_scale_l k c x y : fdot k (fun i => c * x i) y = c * fdot k x y.
Proof.
  unfold fdot. rewrite <- rsum_mul_l. apply rsum_ext. intros. ring.
Qed.

Lemma fmv_sub n A x x' i :
  fmv n A (fun j => x j - x' j) i = fmv n A x i - fmv n A x' i.
Proof.
  unfold fmv. rewrite <- rsum_sub. apply rsum_ext. intros. ring.
Qed.

Lemma fmv_add n A x x' i :
  fmv n A (fun j => x j + x' j) i = fmv n A x i + fmv n A x' i.
Proof.
  unfold fmv. rewrite <- rsum_add. apply rsum_ext. intros. ring.
Qed.

Lemma fmv_scale n A c x i :
  fmv n A (fun j => c * x j) i = c * fmv n A x i.
Proof.
  unfold fmv. rewrite <- rsum_mul_l. apply rsum_ext. intros. ring.
Qed.

Lemma fmv_fmul k n A B x i : fmv n (fmul k A B) x i = fmv k A (fmv n B x) i.
Proof.
  unfold fmv, fmul.
  rewrite (rsum_ext (n := n) _ (fun l => rsum k (fun j => A i j * B j l * x l)))
    by (intros; rewrite <- rsum_mul_r; reflexivity).
  rewrite rsum_exchange. apply rsum_ext. intros j Hj.
  rewrite <- rsum_mul_l. apply rsum_ext. intros. ring.
Qed.

Lemma quad_dot k A x : quad k A x = fdot k x (fmv k A x).
Proof.
  unfold quad, fdot, fmv. apply rsum_ext. intros i Hi.
  rewrite <- rsum_mul_l. apply rsum_ext. intros. ring.
Qed.

Lemma fsq_dot k x : fsq k x = fdot k x x.
Proof. reflexivity. Qed.

Lemma fsq_pos k x : 0 <= fsq k x.
Proof. apply rsum_pos. intros i _. nra. Qed.

Lemma fsq_pos_ne k x i : (i < k)%nat -> x i <> 0 -> 0 < fsq k x.
Proof.
  intros Hi Hx.
  assert (x i * x i <= fsq k x).
  { apply (rsum_ge_term (n := k) (fun i => x i * x i)); auto. intros; nra. }
  nra.
Qed.

Lemma fsq_zero k x : fsq k x = 0 -> forall i, (i < k)%nat -> x i = 0.
Proof.
  intros H i Hi. pose proof (rsum_eq0 (n := k) (fun i => x i * x i)) as HE.
  specialize (HE ltac:(intros; nra) H i Hi). cbn in HE. nra.
Qed.

(** ** Sums over blocks *)
Lemma rsum_blocks nb b f :
  rsum (nb * b) f = rsum nb (fun i => rsum b (fun c => f (i * b + c)%nat)).
Proof.
  induction nb as [|nb IH]; [reflexivity|].
  replace (S nb * b)%nat with (nb * b + b)%nat by lia.
  rewrite rsum_split, IH. reflexivity.
Qed.

Lemma blk_div b i c : (c < b)%nat -> ((i * b + c) / b = i)%nat.
Proof. intros H. symmetry. apply Nat.div_unique with (r := c); lia. Qed.

Lemma blk_mod b i c : (c < b)%nat -> ((i * b + c) mod b = c)%nat.
Proof. intros H. symmetry. apply Nat.mod_unique with (q := i); lia. Qed.

Lemma blk_split b k : (0 < b)%nat -> k = (k / b * b + k mod b)%nat.
Proof. intros H. pose proof (Nat.div_mod k b ltac:(lia)). lia. Qed.

Lemma blk_range nb b k : (k < nb * b)%nat ->
  (k / b < nb)%nat /\ (k mod b < b)%nat /\ (0 < b)%nat.
Proof.
  intros H. assert (0 < b)%nat by nia.
  split; [apply Nat.div_lt_upper_bound; lia|].
  split; auto. apply Nat.mod_upper_bound. lia.
Qed.

Lemma blk_lt nb b i c : (i < nb)%nat -> (c < b)%nat -> (i * b + c < nb * b)%nat.
Proof. intros. nia. Qed.

Lemma bd_entry b P i c j d : (c < b)%nat -> (d < b)%nat ->
  block_diag b P (i * b + c)%nat (j * b + d)%nat =
  if Nat.eqb i j then P i c d else 0.
Proof.
  intros Hc Hd. unfold block_diag.
  rewrite !blk_div, !blk_mod by auto. reflexivity.
Qed.

Lemma bd_mv nb b P x i c : (i < nb)%nat -> (c < b)%nat ->
  fmv (nb * b) (block_diag b P) x (i * b + c)%nat =
  fmv b (P i) (fun d => x (i * b + d)%nat) c.
Proof.
  intros Hi Hc. unfold fmv. rewrite rsum_blocks.
  rewrite (rsum_single (n := nb) (k := i)); auto.
  - apply rsum_ext. intros d Hd. rewrite bd_entry by auto.
    rewrite Nat.eqb_refl. reflexivity.
  - intros j Hj Hn. apply rsum_0'. intros d Hd. rewrite bd_entry by auto.
    destruct (Nat.eqb_spec i j); [congruence|ring].
Qed.

Lemma bd_sym nb b P :
  (forall i, (i < nb)%nat -> forall c d, (c < b)%nat -> (d < b)%nat ->
     P i c d = P i d c) ->
  forall p q, (p < nb * b)%nat -> (q < nb * b)%nat ->
  block_diag b P p q = block_diag b P q p.
Proof.
  intros H p q Hp Hq. destruct (blk_range _ _ _ Hp) as [H1 [H2 H3]].
  destruct (blk_range _ _ _ Hq) as [H4 [H5 _]]. unfold block_diag.
  destruct (Nat.eqb_spec (p / b) (q / b)) as [E|E];
  destruct (Nat.eqb_spec (q / b) (p / b)) as [E'|E']; try congruence.
  rewrite E. apply H; auto.
Qed.

Lemma bd_quad nb b P x :
  quad (nb * b) (block_diag b P) x =
  rsum nb (fun i => quad b (P i) (fun c => x (i * b + c)%nat)).
Proof.
  rewrite quad_dot. unfold fdot. rewrite rsum_blocks.
  apply rsum_ext. intros i Hi. rewrite quad_dot. unfold fdot.
  apply rsum_ext. intros c Hc. rewrite bd_mv by auto. reflexivity.
Qed.

Lemma bd_psd nb b P : (forall i, (i < nb)%nat -> psd b (P i)) ->
  psd (nb * b) (block_diag b P).
Proof.
  intros H. split.
  - apply bd_sym. intros i Hi. apply (H i Hi).
  - intros x. rewrite bd_quad. apply rsum_pos. intros i Hi. apply (H i Hi).
Qed.

Lemma psd_zero k : psd k (fun _ _ => 0).
Proof.
  split; auto. intros x. unfold quad. apply rsum_pos. intros i _.
  apply rsum_pos. intros j _. lra.
Qed.

Lemma psd_dot_sym k A x y :
  (forall i j, (i < k)%nat -> (j < k)%nat -> A i j = A j i) ->
  fdot k x (fmv k A y) = fdot k y (fmv k A x).
Proof.
  intros HS. rewrite fdot_sym, fdot_adj.
  apply fdot_ext; auto. intros i Hi. apply fmv_ext; auto.
  intros j Hj. unfold ftr. apply HS; auto.
Qed.

Lemma spd_psd k A : spd k A -> psd k A.
Proof.
  intros [H1 H2]. split; auto. intros x.
  destruct (Rle_dec (fsq k x) 0) as [H|H].
  - assert (HZ : forall i, (i < k)%nat -> x i = 0).
    { apply fsq_zero. pose proof (fsq_pos k x). lra. }
    unfold quad. rewrite (rsum_0' (n := k)); [lra|].
    intros i Hi. apply rsum_0'. intros j Hj. rewrite HZ; auto. ring.
  - left. apply H2. assert (HE : exists i, (i < k)%nat /\ x i <> 0).
    { clear - H. induction k as [|k IH].
      - exfalso. apply H. unfold fsq. cbn. lra.
      - destruct (Req_dec (x k) 0) as [E|E].
        + destruct IH as [i [Hi Hx]].
          * unfold fsq in *. cbn [rsum] in H. rewrite E in H. lra.
          * exists i. split; auto.
        + exists k. split; auto. }
    exact HE.
Qed.

Section Gauss.
  (** A Gaussian linear model with prior covariance P. *)
  Variables (m n : nat) (Phi P : fmat) (lam : R).
  Hypothesis HP : psd n P.
  Hypothesis HL : 0 < lam.

  Definition sysmat : fmat := fun p q =>
    fmul n (fmul n Phi P) (ftr Phi) p q + (if Nat.eqb p q then lam else 0).

  Lemma sys_mv x r : (r < m)%nat ->
    fmv m sysmat x r = fmv n Phi (fmv n P (fmv m (ftr Phi) x)) r + lam * x r.
  Proof.
    intros Hr. unfold fmv at 1, sysmat.
    rewrite (rsum_ext (n := m) _ (fun l =>
      fmul n (fmul n Phi P) (ftr Phi) r l * x l +
      (if Nat.eqb r l then lam else 0) * x l)) by (intros; ring).
    rewrite rsum_add. f_equal.
    - change (fmv m (fmul n (fmul n Phi P) (ftr Phi)) x r =
              fmv n Phi (fmv n P (fmv m (ftr Phi) x)) r).
      rewrite fmv_fmul, fmv_fmul. reflexivity.
    - rewrite (rsum_single (n := m) (k := r)); auto.
      + rewrite Nat.eqb_refl. reflexivity.
      + intros l Hl Hn. destruct (Nat.eqb_spec r l); [congruence|ring].
  Qed.

  Lemma sys_quad x :
    quad m sysmat x = quad n P (fmv m (ftr Phi) x) + lam * fsq m x.
  Proof.
    rewrite quad_dot.
    rewrite (fdot_ext m x x _ (fun r =>
      fmv n Phi (fmv n P (fmv m (ftr Phi) x)) r + lam * x r)) by
      (auto; intros; apply sys_mv; auto).
    rewrite fdot_sym, fdot_add_l, fdot_scale_l. f_equal.
    rewrite fdot_adj, fdot_sym, quad_dot. reflexivity.
  Qed.

  Lemma sys_sym p q : (p < m)%nat -> (q < m)%nat -> sysmat p q = sysmat q p.
  Proof.
    intros Hp Hq. unfold sysmat. f_equal.
    - unfold fmul, ftr. destruct HP as [HS _].
      rewrite (rsum_ext (n := n) _ (fun l => rsum n (fun k =>
        Phi p k * P k l * Phi q l))) by (intros; rewrite <- rsum_mul_r; auto).
      rewrite rsum_exchange. apply rsum_ext. intros k Hk.
      rewrite <- rsum_mul_r. apply rsum_ext. intros l Hl.
      rewrite (HS k l) by auto. ring.
    - rewrite Nat.eqb_sym. reflexivity.
  Qed.

  Lemma sys_spd : spd m sysmat.
  Proof.
    split; [intros; apply sys_sym; auto|].
    intros x [i [Hi Hx]]. rewrite sys_quad.
    pose proof (proj2 HP (fmv m (ftr Phi) x)).
    pose proof (fsq_pos_ne m x i Hi Hx). nra.
  Qed.

  Lemma sys_inj x : (forall r, (r < m)%nat -> fmv m sysmat x r = 0) ->
    forall r, (r < m)%nat -> x r = 0.
  Proof.
    intros H r Hr. destruct (Req_dec (x r) 0) as [|Hx]; auto. exfalso.
    pose proof (proj2 sys_spd x (ex_intro _ r (conj Hr Hx))) as HQ.
    rewrite quad_dot in HQ. unfold fdot in HQ.
    rewrite (rsum_0' (n := m)) in HQ; [lra|].
    intros i Hi. rewrite H by auto. ring.
  Qed.

  (** The mean in terms of the solution of the system. *)
  Lemma mean_of_z y z :
    (forall r, (r < m)%nat -> fmv m sysmat z r = y r) ->
    posterior_mean m n Phi P lam y (fmv n P (fmv m (ftr Phi) z)) /\
    (forall r, (r < m)%nat ->
       y r - fmv n Phi (fmv n P (fmv m (ftr Phi) z)) r = lam * z r).
  Proof.
    intros HZ.
    assert (HR : forall r, (r < m)%nat ->
      fmv n Phi (fmv n P (fmv m (ftr Phi) z)) r = y r - lam * z r).
    { intros r Hr. rewrite <- HZ by auto. rewrite sys_mv by auto. ring. }
    split.
    - intros k Hk.
      set (x := fmv n P (fmv m (ftr Phi) z)) in *.
      change (lam * x k + fmv n P (fmv m (ftr Phi) (fmv n Phi x)) k
              = fmv n P (fmv m (ftr Phi) y) k).
      rewrite (fmv_ext n P P _ (fun j => fmv m (ftr Phi) y j -
         lam * fmv m (ftr Phi) z j)).
      + rewrite fmv_sub, fmv_scale. fold x. fold (x k). unfold x. ring.
      + auto.
      + intros j Hj. rewrite <- fmv_scale, <- fmv_sub. apply fmv_ext; auto.
    - intros r Hr. rewrite HR by auto. ring.
  Qed.

  Lemma mean_unique y x x' :
    posterior_mean m n Phi P lam y x -> posterior_mean m n Phi P lam y x' ->
    forall k, (k < n)%nat -> x k = x' k.
  Proof.
    intros H1 H2.
    set (d := fun k => x k - x' k).
    assert (HD : forall k, (k < n)%nat ->
      lam * d k + fmv n P (fmv m (ftr Phi) (fmv n Phi d)) k = 0).
    { intros k Hk. specialize (H1 k Hk). specialize (H2 k Hk).
      assert (E : fmv n P (fmv m (ftr Phi) (fmv n Phi d)) k =
        fmv n P (fmv m (ftr Phi) (fmv n Phi x)) k -
        fmv n P (fmv m (ftr Phi) (fmv n Phi x')) k).
      { rewrite <- fmv_sub. apply fmv_ext; auto. intros j _.
        rewrite <- fmv_sub. apply fmv_ext; auto. intros r _.
        unfold d. apply fmv_sub. }
      rewrite E. unfold d. unfold fmv, ftr in *. lra. }
    assert (HW : forall r, (r < m)%nat -> fmv n Phi d r = 0).
    { apply sys_inj. intros r Hr. rewrite sys_mv by auto.
      rewrite (fmv_ext n Phi Phi _ (fun k => - (lam) * d k)).
      - rewrite fmv_scale. ring.
      - auto.
      - intros k Hk. specialize (HD k Hk). lra. }
    intros k Hk. specialize (HD k Hk).
    rewrite (fmv_ext n P P _ (fun _ => 0)) in HD; auto.
    - assert (E : fmv n P (fun _ => 0) k = 0).
      { apply rsum_0'. intros. ring. }
      rewrite E in HD. unfold d in HD. nra.
    - intros j Hj. apply rsum_0'. intros r Hr. rewrite HW by auto. ring.
  Qed.

  (** The mean minimises the penalised least squares functional over the
      range of the prior. *)
  Lemma mean_min y z u :
    (forall r, (r < m)%nat -> fmv m sysmat z r = y r) ->
    fsq m (fun r => y r - fmv n Phi (fmv n P (fmv m (ftr Phi) z)) r)
      + lam * quad n P (fmv m (ftr Phi) z)
    <= fsq m (fun r => y r - fmv n Phi (fmv n P u) r) + lam * quad n P u.
  Proof.
    intros HZ. set (v := fmv m (ftr Phi) z).
    destruct (mean_of_z y z HZ) as [_ HR]. fold v in HR.
    set (d := fun k => u k - v k).
    set (e := fun r => y r - fmv n Phi (fmv n P v) r).
    assert (E1 : fsq m (fun r => y r - fmv n Phi (fmv n P u) r) =
      fsq m e - 2 * fdot m e (fmv n Phi (fmv n P d))
      + fsq m (fmv n Phi (fmv n P d))).
    { unfold fsq, fdot. rewrite <- rsum_mul_l, <- rsum_sub, <- rsum_add.
      apply rsum_ext. intros r Hr.
      assert (E : fmv n Phi (fmv n P u) r =
        fmv n Phi (fmv n P v) r + fmv n Phi (fmv n P d) r).
      { rewrite <- fmv_add. apply fmv_ext; auto. intros k _.
        rewrite <- fmv_add. apply fmv_ext; auto. intros j _. unfold d. ring. }
      rewrite E. unfold e. ring. }
    assert (E2 : quad n P u = quad n P v + 2 * fdot n v (fmv n P d) + quad n P d).
    { rewrite !quad_dot.
      assert (E : fdot n u (fmv n P u) = fdot n (fun k => v k + d k)
         (fun k => fmv n P v k + fmv n P d k)).
      { apply fdot_ext.
        - intros. unfold d. ring.
        - intros. rewrite <- fmv_add. apply fmv_ext; auto.
          intros. unfold d. ring. }
      rewrite E, fdot_add_l.
      rewrite (fdot_sym n v), (fdot_sym n d), !fdot_add_l.
      rewrite (fdot_sym n (fmv n P v) d), (psd_dot_sym n P d v) by apply HP.
      rewrite (fdot_sym n (fmv n P v) v), (fdot_sym n (fmv n P d) v),
        (fdot_sym n (fmv n P d) d). ring. }
    assert (E3 : fdot m e (fmv n Phi (fmv n P d)) = lam * fdot n v (fmv n P d)).
    { rewrite (fdot_ext m e (fun r => lam * z r)
        (fmv n Phi (fmv n P d)) (fmv n Phi (fmv n P d))); auto.
      rewrite fdot_scale_l. f_equal. rewrite fdot_sym, fdot_adj.
      fold v. apply fdot_sym. }
    rewrite E1, E2, E3. fold e.
    pose proof (fsq_pos m (fmv n Phi (fmv n P d))).
    pose proof (proj2 HP d). nra.
  Qed.

  (** The covariance in terms of the solutions of the systems. *)
  Lemma cov_of_X X :
    (forall r c, (r < m)%nat -> (c < n)%nat ->
       rsum m (fun l => sysmat r l * X l c) = fmul n Phi P r c) ->
    posterior_cov m n Phi P lam (fun k c =>
      P k c - fmv n P (fmv m (ftr Phi) (fun l => X l c)) k).
  Proof.
    intros HX k c Hk Hc.
    set (xc := fun l => X l c).
    set (w := fmv m (ftr Phi) xc).
    change (lam * (P k c - fmv n P w k) +
      fmv n P (fmv m (ftr Phi) (fmv n Phi (fun l => P l c - fmv n P w l))) k
      = lam * P k c).
    rewrite (fmv_ext n P P
      (fmv m (ftr Phi) (fmv n Phi (fun l => P l c - fmv n P w l)))
      (fun j => lam * w j)); auto.
    - rewrite fmv_scale. ring.
    - intros j Hj. unfold w. rewrite <- fmv_scale. apply fmv_ext; auto.
      intros r Hr. rewrite fmv_sub.
      assert (HS : fmv m sysmat xc r = fmv n Phi (fun l => P l c) r)
        by (apply HX; auto).
      rewrite sys_mv in HS by auto. rewrite <- HS. unfold w. ring.
  Qed.

  (** Its quadratic form. *)
  Lemma cov_quad v g :
    (forall r, (r < m)%nat -> fmv m sysmat g r = fmv n Phi (fmv n P v) r) ->
    fdot n v (fmv n P v) - fdot m (fmv n Phi (fmv n P v)) g =
    quad n P (fun k => v k - fmv m (ftr Phi) g k) + lam * fsq m g.
  Proof.
    intros HG. set (w := fmv m (ftr Phi) g).
    assert (E1 : fdot m (fmv n Phi (fmv n P v)) g =
                 quad n P w + lam * fsq m g).
    { unfold w. rewrite <- sys_quad, quad_dot, (fdot_sym m g).
      apply fdot_ext; auto. intros r Hr. symmetry. auto. }
    assert (E2 : fdot m (fmv n Phi (fmv n P v)) g = fdot n w (fmv n P v)).
    { rewrite fdot_adj. fold w. apply fdot_sym. }
    assert (E3 : quad n P (fun k => v k - w k) =
      fdot n v (fmv n P v) - 2 * fdot n w (fmv n P v) + quad n P w).
    { rewrite !quad_dot.
      rewrite (fdot_ext n (fun k => v k - w k) (fun k => v k - w k)
        _ (fun k => fmv n P v k - fmv n P w k));
        [|auto|intros; apply fmv_sub].
      rewrite fdot_sub_l.
      rewrite (fdot_sym n v), (fdot_sym n w), !fdot_sub_l.
      rewrite (fdot_sym n (fmv n P w) v), (psd_dot_sym n P v w) by apply HP.
      rewrite (fdot_sym n (fmv n P v) v), (fdot_sym n (fmv n P v) w),
        (fdot_sym n (fmv n P w) w). ring. }
    rewrite E3, <- E2. lra.
  Qed.

  Lemma cov_unique C C' :
    posterior_cov m n Phi P lam C -> posterior_cov m n Phi P lam C' ->
    forall k c, (k < n)%nat -> (c < n)%nat -> C k c = C' k c.
  Proof.
    intros H1 H2 k c Hk Hc.
    (* both columns are means for the same right hand side, up to a shift *)
    set (d := fun k => C k c - C' k c).
    assert (HD : forall k, (k < n)%nat ->
      lam * d k + fmv n P (fmv m (ftr Phi) (fmv n Phi d)) k = 0).
    { intros j Hj. specialize (H1 j c Hj Hc). specialize (H2 j c Hj Hc).
      assert (E : fmv n P (fmv m (ftr Phi) (fmv n Phi d)) j =
        fmv n P (fmv m (ftr Phi) (fmv n Phi (fun l => C l c))) j -
        fmv n P (fmv m (ftr Phi) (fmv n Phi (fun l => C' l c))) j).
      { rewrite <- fmv_sub. apply fmv_ext; auto. intros i _.
        rewrite <- fmv_sub. apply fmv_ext; auto. intros r _.
        unfold d. apply fmv_sub. }
      rewrite E. unfold d. unfold fmv, ftr in *. lra. }
    assert (M1 : posterior_mean m n Phi P lam (fun _ => 0) d).
    { intros j Hj. specialize (HD j Hj). unfold fmv, ftr in HD.
      rewrite HD. symmetry. apply rsum_0'. intros i _.
      rewrite rsum_0'; [ring|]. intros; ring. }
    assert (M2 : posterior_mean m n Phi P lam (fun _ => 0) (fun _ => 0)).
    { intros j Hj.
      rewrite (rsum_0' (n := n)).
      - rewrite (rsum_0' (n := n)); [ring|].
        intros i _. rewrite (rsum_0' (n := m)); [ring|]. intros; ring.
      - intros i _. rewrite (rsum_0' (n := m)); [ring|]. intros r _.
        rewrite (rsum_0' (n := n)); [ring|]. intros; ring. }
    pose proof (mean_unique _ _ _ M1 M2 k Hk) as E. unfold d in E. lra.
  Qed.
End Gauss.
