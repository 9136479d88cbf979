From Coq Require Import List Arith Bool ZArith Reals Lra Lia Psatz.
From Verif Require Import Vec RVec Loop OptModel BsblModel DictModel ProblemModel SubspSpec SensingSpec SensingProofs FrameSpec FrameModel.
Import ListNotations.
Local Open Scope R_scope.

(** *** energies in orthonormal coordinates *)
Lemma comb_energy N d V a : orthonormal N d V -> rsum N (fun j => (rsum d (fun k => a k * V j k)) ^ 2) = rsum d (fun k => a k ^ 2).
Proof.
  intros HV.
  rewrite (@rsum_ext N _ (fun j => rsum d (fun k => rsum d (fun l => a k * a l * (V j k * V j l))))).
  2:{ intros j _. cbn [pow]. rewrite Rmult_1_r. rewrite <- rsum_mul_r. apply rsum_ext. intros k _. rewrite <- rsum_mul_l. apply rsum_ext. intros. ring. }
  rewrite rsum_exchange. apply rsum_ext. intros k Hk. rewrite rsum_exchange.
  rewrite (@rsum_ext d _ (fun l => (if Nat.eqb l k then 1 else 0) * (a k * a l))).
  - rewrite delta_sum by auto. ring.
  - intros l Hl. rewrite rsum_mul_l. pose proof (HV k l Hk Hl) as E. unfold ip, column in E. rewrite E. rewrite Nat.eqb_sym. destruct (Nat.eqb l k); ring.
Qed.
Lemma bessel N d U x : orthonormal N d U -> rsum d (fun k => ip N x (column U k) ^ 2) <= ip N x x.
Proof.
  intros HU. set (c := fun k => ip N x (column U k)).
  pose proof (ip_pos N (fun i => x i - rsum d (fun k => c k * U i k))) as P.
  enough (E : ip N (fun i => x i - rsum d (fun k => c k * U i k)) (fun i => x i - rsum d (fun k => c k * U i k)) = ip N x x - rsum d (fun k => c k ^ 2)) by (unfold c in *; lra).
  unfold ip at 1. rewrite (@rsum_ext N _ (fun i => x i * x i - 2 * (x i * rsum d (fun k => c k * U i k)) + (rsum d (fun k => c k * U i k)) ^ 2)) by (intros; ring).
  rewrite rsum_add, rsum_sub, rsum_mul_l, comb_energy by auto. fold (ip N x x).
  enough (E : rsum N (fun i => x i * rsum d (fun k => c k * U i k)) = rsum d (fun k => c k ^ 2)) by lra.
  rewrite (@rsum_ext N _ (fun i => rsum d (fun k => c k * (x i * U i k)))) by (intros i _; rewrite <- rsum_mul_l; apply rsum_ext; intros; ring).
  rewrite rsum_exchange. apply rsum_ext. intros k Hk. rewrite rsum_mul_l. unfold c, ip, column. ring.
Qed.
Lemma parseval N U x : orthonormal N N U -> rsum N (fun k => ip N x (column U k) ^ 2) = ip N x x.
Proof.
  intros HU. pose proof (square_rows N U HU) as HR.
  transitivity (rsum N (fun k => (rsum N (fun i => x i * U i k)) ^ 2)); [reflexivity|].
  etransitivity; [apply (comb_energy N N (fun k i => U i k) x)|apply rsum_ext; intros; ring].
  intros i k Hi Hk. unfold column. exact (HR i k Hi Hk).
Qed.
Lemma energy_svd m n p A U V s x :
  orthonormal n p V ->
  (forall i j, (i < m)%nat -> (j < n)%nat -> A i j = rsum p (fun k => U i k * s k * V j k)) ->
  analysis_energy m n A x = rsum p (fun k => (s k) ^ 2 * ip m x (column U k) ^ 2).
Proof.
  intros HV HA. unfold analysis_energy.
  rewrite (@rsum_ext n _ (fun j => (rsum p (fun k => (s k * ip m x (column U k)) * V j k)) ^ 2)).
  - rewrite comb_energy by auto. apply rsum_ext. intros; ring.
  - intros j Hj. f_equal. unfold ip at 1, column at 1.
    rewrite (@rsum_ext m _ (fun i => rsum p (fun k => (s k * V j k) * (x i * U i k)))).
    + rewrite rsum_exchange. apply rsum_ext. intros k Hk. rewrite rsum_mul_l. unfold ip, column. ring.
    + intros i Hi. rewrite HA by auto. rewrite <- rsum_mul_l. apply rsum_ext. intros; ring.
Qed.
Lemma last_nth (s : list R) : s <> [] -> last s 0 = nth (length s - 1) s 0.
Proof.
  induction s as [|a [|b s] IH]; intros H; [contradiction|reflexivity|].
  change (last (a :: b :: s) 0) with (last (b :: s) 0). rewrite IH by discriminate. cbn [length Nat.sub nth]. now rewrite ?Nat.sub_0_r.
Qed.
Lemma coord_unit m p U k l : orthonormal m p U -> (k < p)%nat -> (l < p)%nat -> ip m (column U k) (column U l) ^ 2 = if Nat.eqb l k then 1 else 0.
Proof. intros HU Hk Hl. rewrite HU by auto. rewrite Nat.eqb_sym. destruct (Nat.eqb l k); ring. Qed.
Lemma energy_unit m n p A U V s k : orthonormal m p U -> orthonormal n p V ->
  (forall i j, (i < m)%nat -> (j < n)%nat -> A i j = rsum p (fun k => U i k * s k * V j k)) -> (k < p)%nat ->
  analysis_energy m n A (column U k) = (s k) ^ 2.
Proof.
  intros HU HV HA Hk. rewrite (energy_svd m n p A U V s) by auto.
  rewrite (@rsum_ext p _ (fun l => (if Nat.eqb l k then 1 else 0) * (s l) ^ 2)); [now rewrite delta_sum|].
  intros l Hl. rewrite (coord_unit m p) by auto. ring.
Qed.

Lemma upper_bound m n A s up lo : singular_values m n A s -> frame_bounds s = Some (up, lo) ->
  (forall x, analysis_energy m n A x <= up ^ 2 * ip m x x) /\
  exists x, ip m x x = 1 /\ analysis_energy m n A x = up ^ 2.
Proof.
  intros [HL [HP [HD [U [V [HU [HV HA]]]]]]] Hf.
  destruct s as [|a s']; [discriminate|]. injection Hf as <- _. set (s := a :: s') in *.
  assert (Ep : (0 < length s)%nat) by (cbn; lia).
  split.
  - intros x. rewrite (energy_svd m n (length s) A U V (fun k => nth k s 0)) by auto.
    apply Rle_trans with (rsum (length s) (fun k => a ^ 2 * ip m x (column U k) ^ 2)).
    + apply rsum_le. intros k Hk. apply Rmult_le_compat_r; [apply pow2_ge_0|].
      assert (0 <= nth k s 0) by (apply HP, nth_In; auto). pose proof (HD 0%nat k ltac:(lia) Hk) as Q. change (nth 0 s 0) with a in Q. apply pow_incr. lra.
    + rewrite rsum_mul_l. apply Rmult_le_compat_l; [apply pow2_ge_0|]. apply bessel; auto.
  - exists (column U 0). split; [rewrite HU by auto; reflexivity|].
    rewrite (energy_unit m n (length s) A U V (fun k => nth k s 0)) by auto. reflexivity.
Qed.
Lemma lower_bound m n A s up lo : (m <= n)%nat -> singular_values m n A s -> frame_bounds s = Some (up, lo) ->
  (forall x, lo ^ 2 * ip m x x <= analysis_energy m n A x) /\
  exists x, ip m x x = 1 /\ analysis_energy m n A x = lo ^ 2.
Proof.
  intros Hmn [HL [HP [HD [U [V [HU [HV HA]]]]]]] Hf.
  rewrite Nat.min_l in HL by auto.
  assert (Hne : s <> []) by (intros ->; discriminate).
  assert (El : lo = nth (length s - 1) s 0).
  { rewrite <- last_nth by auto. destruct s as [|a s']; [discriminate|]. now injection Hf. }
  assert (Ep : (0 < length s)%nat) by (destruct s; [contradiction|cbn; lia]).
  split.
  - intros x. rewrite (energy_svd m n (length s) A U V (fun k => nth k s 0)) by auto.
    apply Rle_trans with (rsum (length s) (fun k => lo ^ 2 * ip m x (column U k) ^ 2)).
    + rewrite rsum_mul_l. apply Rmult_le_compat_l; [apply pow2_ge_0|]. rewrite HL in *. rewrite parseval by auto. lra.
    + apply rsum_le. intros k Hk. apply Rmult_le_compat_r; [apply pow2_ge_0|].
      assert (0 <= lo) by (rewrite El; apply HP, nth_In; lia). pose proof (HD k (length s - 1)%nat ltac:(lia) ltac:(lia)) as Q. rewrite <- El in Q. apply pow_incr. lra.
  - exists (column U (length s - 1)). split; [rewrite HU by lia; now rewrite Nat.eqb_refl|].
    rewrite (energy_unit m n (length s) A U V (fun k => nth k s 0)) by (auto; lia). now rewrite El.
Qed.
Lemma bounds_parts s up lo : frame_bounds s = Some (up, lo) <-> upper_frame_bound s = Some up /\ lower_frame_bound s = Some lo.
Proof. destruct s; cbn [frame_bounds upper_frame_bound lower_frame_bound]; split; try easy; [intros [= <- <-]; auto|intros [[= <-] [= <-]]; reflexivity]. Qed.

(** *** Grassmannian frames *)
Lemma svd_rows n G U s VT : svd_of n G U s VT -> forall i k, (i < n)%nat -> (k < n)%nat ->
  U i k * s k = rsum n (fun j => G i j * VT k j).
Proof.
  intros [_ [HV [_ [_ HG]]]] i k Hi Hk.
  rewrite (@rsum_ext n (fun j => G i j * VT k j) (fun j => rsum n (fun l => U i l * s l * (VT l j * VT k j)))).
  2:{ intros j Hj. rewrite HG by auto. rewrite <- rsum_mul_r. apply rsum_ext. intros; ring. }
  rewrite rsum_exchange. rewrite (@rsum_ext n _ (fun l => (if Nat.eqb l k then 1 else 0) * (U i l * s l))).
  - now rewrite delta_sum.
  - intros l Hl. rewrite rsum_mul_l. pose proof (HV l k Hl Hk) as E. unfold ip, column in E. rewrite E. ring.
Qed.
Lemma svd_cols n G U s VT : svd_of n G U s VT -> forall j k, (j < n)%nat -> (k < n)%nat ->
  VT k j * s k = rsum n (fun i => G i j * U i k).
Proof.
  intros [HU [_ [_ [_ HG]]]] j k Hj Hk.
  rewrite (@rsum_ext n (fun i => G i j * U i k) (fun i => rsum n (fun l => VT l j * s l * (U i l * U i k)))).
  2:{ intros i Hi. rewrite HG by auto. rewrite <- rsum_mul_r. apply rsum_ext. intros; ring. }
  rewrite rsum_exchange. rewrite (@rsum_ext n _ (fun l => (if Nat.eqb l k then 1 else 0) * (VT l j * s l))).
  - now rewrite delta_sum.
  - intros l Hl. rewrite rsum_mul_l. pose proof (HU l k Hl Hk) as E. unfold ip, column in E. rewrite E. ring.
Qed.

Lemma grass_body_spec svd m n frac mu off g g' : (m <= n)%nat -> grass_body svd m n frac mu off g = Some g' ->
  (forall j, (j < n)%nat -> g' j j = 1) /\ rank_at_most m n g'.
Proof.
  intros Hmn. unfold grass_body. destruct (svd _) as [[U s] VT]. cbv zeta.
  destruct (forallb _ _) eqn:F; [|discriminate]. intros [= <-].
  rewrite forallb_forall in F. split.
  - intros j Hj. specialize (F j ltac:(apply in_seq; lia)). cbv beta in F. destruct (Rltb_spec 0 (rsum n (fun k => U j k * (if (k <? m)%nat then s k else 0) * VT k j))) as [P|]; [|discriminate].
    set (d := rsum n _) in *. assert (Q : 0 < sqrt d) by (apply sqrt_lt_R0; auto). pose proof (sqrt_sqrt d ltac:(lra)) as E.
    rewrite <- E at 2. field. lra.
  - set (d := fun j => 1 / sqrt (rsum n (fun k => U j k * (if (k <? m)%nat then s k else 0) * VT k j))).
    exists (fun i k => U i k * s k), (fun k j => VT k j * d j * d j). intros i j Hi Hj.
    fold (d j). rewrite (rsum_prefix n m); [|auto|intros k Hk; destruct (Nat.ltb_spec k m); [lia|ring]].
    rewrite <- rsum_mul_l, <- rsum_mul_r. apply rsum_ext. intros k Hk. destruct (Nat.ltb_spec k m); [ring|lia].
Qed.
Lemma grass_loop_spec svd m n frac mu off : (m <= n)%nat -> forall it g g', grass_loop svd m n frac mu off (S it) g = Some g' ->
  (forall j, (j < n)%nat -> g' j j = 1) /\ rank_at_most m n g'.
Proof.
  intros Hmn it. induction it as [|it IH]; intros g g' H.
  - cbn in H. destruct (grass_body _ _ _ _ _ _ g) as [h|] eqn:E; [|discriminate]. injection H as <-. eapply grass_body_spec; eauto.
  - remember (S it) as q. cbn in H. destruct (grass_body _ _ _ _ _ _ g) as [h|] eqn:E; [|discriminate]. eapply IH; eauto.
Qed.

(** no m + 1 orthonormal vectors in R^m *)
Lemma orthonormal_le N d U : orthonormal N d U -> (d <= N)%nat.
Proof.
  intros HU.
  assert (B : forall i, (i < N)%nat -> rsum d (fun k => U i k * U i k) <= 1).
  { intros i Hi. pose proof (proj_unit N d U i HU Hi) as E. pose proof (ip_pos N (fun r => (if Nat.eqb r i then 1 else 0) - rsum d (fun k => U i k * U r k))). lra. }
  assert (T : rsum N (fun i => rsum d (fun k => U i k * U i k)) = INR d).
  { rewrite rsum_exchange. rewrite (@rsum_ext d _ (fun _ => 1)); [rewrite rsum_const; ring|].
    intros k Hk. pose proof (HU k k Hk Hk) as E. unfold ip, column in E. rewrite E. now rewrite Nat.eqb_refl. }
  assert (L : INR d <= INR N).
  { rewrite <- T. apply Rle_trans with (rsum N (fun _ => 1)); [apply rsum_le; auto|]. rewrite rsum_const. lra. }
  now apply INR_le.
Qed.
Lemma quad_form m n (A : fmat) x y : rsum n (fun i => x i * rsum n (fun j => fmul m (ftr A) A i j * y j)) =
  ip m (fun r => rsum n (fun i => A r i * x i)) (fun r => rsum n (fun j => A r j * y j)).
Proof.
  unfold ip, fmul, ftr.
  rewrite (@rsum_ext n _ (fun i => rsum m (fun r => (A r i * x i) * rsum n (fun j => A r j * y j)))).
  - rewrite rsum_exchange. apply rsum_ext. intros r _. apply rsum_mul_r.
  - intros i _. rewrite <- rsum_mul_l.
    rewrite (@rsum_ext n _ (fun j => rsum m (fun r => (A r i * x i) * (A r j * y j)))).
    + rewrite rsum_exchange. apply rsum_ext. intros r _. now rewrite rsum_mul_l.
    + intros j _. rewrite <- rsum_mul_r, <- rsum_mul_l. apply rsum_ext. intros; ring.
Qed.
Lemma gram_sym m A i j : fmul m (ftr A) A i j = fmul m (ftr A) A j i.
Proof. unfold fmul, ftr. apply rsum_ext. intros; ring. Qed.
Lemma gram_svd_eq m n A U s VT : svd_of n (fmul m (ftr A) A) U s VT -> forall i k, (i < n)%nat -> (k < n)%nat -> s k * VT k i = s k * U i k.
Proof.
  intros H i k Hi Hk. set (G := fmul m (ftr A) A) in *.
  set (w := fun j => VT k j - U j k).
  assert (Gw : forall j, (j < n)%nat -> rsum n (fun l => G j l * w l) = - s k * w j).
  { intros j Hj. unfold w. rewrite (@rsum_ext n _ (fun l => G j l * VT k l - G l j * U l k)) by (intros; unfold G; rewrite (gram_sym m A j); ring).
    rewrite rsum_sub. rewrite <- (svd_rows n G U s VT H j k Hj Hk), <- (svd_cols n G U s VT H j k Hj Hk). ring. }
  assert (Q : 0 <= rsum n (fun j => w j * rsum n (fun l => G j l * w l))) by (unfold G; rewrite quad_form; apply ip_pos).
  rewrite (@rsum_ext n _ (fun j => - s k * (w j * w j))) in Q by (intros j Hj; rewrite Gw by auto; ring). rewrite rsum_mul_l in Q.
  destruct H as [_ [_ [HP _]]]. specialize (HP k Hk).
  destruct (Req_dec (s k) 0) as [->|N]; [ring|].
  assert (Z : rsum n (fun j => w j * w j) = 0).
  { assert (P : 0 <= rsum n (fun j => w j * w j)) by (apply rsum_pos; intros; apply Rle_0_sqr). nra. }
  pose proof (@rsum_eq0 n _ (fun j _ => Rle_0_sqr (w j)) Z i Hi) as E. cbv beta in E. assert (w i = 0) by (unfold Rsqr in E; nra). unfold w in *. f_equal. lra.
Qed.
Lemma gram_svd m n A U s VT : svd_of n (fmul m (ftr A) A) U s VT -> forall i j, (i < n)%nat -> (j < n)%nat ->
  fmul m (ftr A) A i j = rsum n (fun k => s k * (U i k * U j k)).
Proof.
  intros H i j Hi Hj. pose proof H as [_ [_ [_ [_ HG]]]]. rewrite HG by auto. apply rsum_ext. intros k Hk.
  pose proof (gram_svd_eq m n A U s VT H j k Hj Hk). transitivity (U i k * (s k * VT k j)); [ring|]. rewrite H0. ring.
Qed.
Lemma gram_rank m n A U s VT : svd_of n (fmul m (ftr A) A) U s VT -> forall k, (m <= k < n)%nat -> s k = 0.
Proof.
  intros H. pose proof H as [HU [_ [HP [HD _]]]].
  enough (Z : (m < n)%nat -> s m = 0).
  { intros k Hk. specialize (HD m k ltac:(lia) ltac:(lia)). specialize (HP k ltac:(lia)). rewrite Z in HD by lia. lra. }
  intros Hm. destruct (Req_dec (s m) 0) as [|N]; [auto|exfalso].
  assert (P : forall k, (k < S m)%nat -> 0 < s k).
  { intros k Hk. specialize (HD k m ltac:(lia) Hm). specialize (HP m Hm). lra. }
  enough (S m <= m)%nat by lia.
  apply (orthonormal_le m (S m) (fun r k => / sqrt (s k) * rsum n (fun i => A r i * U i k))).
  intros k l Hk Hl. unfold ip, column.
  rewrite (@rsum_ext m _ (fun r => (/ sqrt (s k) * / sqrt (s l)) * (rsum n (fun i => A r i * U i k) * rsum n (fun j => A r j * U j l)))) by (intros; ring).
  rewrite rsum_mul_l. pose proof (quad_form m n A (fun i => U i k) (fun j => U j l)) as Q. unfold ip in Q. rewrite <- Q. clear Q.
  rewrite (@rsum_ext n _ (fun i => s l * (U i k * U i l))).
  - rewrite rsum_mul_l. pose proof (HU k l ltac:(lia) ltac:(lia)) as E. unfold ip, column in E. rewrite E.
    destruct (Nat.eqb_spec k l) as [->|]; [|ring]. pose proof (P l Hl) as Pl. assert (0 < sqrt (s l)) by (apply sqrt_lt_R0; auto).
    rewrite <- (sqrt_sqrt (s l)) at 3 by lra. field. lra.
  - intros i Hi.
    rewrite (@rsum_ext n _ (fun j => fmul m (ftr A) A j i * U j l)) by (intros; now rewrite gram_sym).
    rewrite <- (svd_cols n _ U s VT H i l Hi ltac:(lia)). pose proof (gram_svd_eq m n A U s VT H i l Hi ltac:(lia)) as E. rewrite (Rmult_comm (VT l i)), E. ring.
Qed.
Lemma grass_start svd m n frac mu init F : svd_ok svd n (fmul m (ftr init) init) ->
  build_grassmannian_frame svd m n frac mu init 0 = Some F ->
  fst F = (Nat.min m n, n) /\
  forall i j, (i < n)%nat -> (j < n)%nat ->
    ip (fst (fst F)) (column (snd F) i) (column (snd F) j) = ip m (column init i) (column init j).
Proof.
  intros H. unfold build_grassmannian_frame, svd_ok in *. cbn [grass_loop].
  destruct (svd _) as [[U s] VT]. intros [= <-]. split; [reflexivity|]. intros i j Hi Hj. cbn [fst snd].
  change (ip m (column init i) (column init j)) with (fmul m (ftr init) init i j).
  rewrite (gram_svd m n init U s VT H) by auto. symmetry.
  etransitivity; [apply (rsum_prefix n (Nat.min m n)); [lia|]|].
  - intros k Hk. rewrite (gram_rank m n init U s VT H) by lia. ring.
  - unfold ip, column. apply rsum_ext. intros k Hk. pose proof H as [_ [_ [HP _]]].
    transitivity ((sqrt (s k) * sqrt (s k)) * (U i k * U j k)); [rewrite sqrt_sqrt by (apply HP; lia); reflexivity|ring].
Qed.
(** an atom that is zero makes the result undefined *)
Lemma grass_zero_column svd m n frac mu init it j : mu <> 0 ->
  (forall G : fmat, (forall l, (l < n)%nat -> G j l = 0 /\ G l j = 0) -> svd_ok svd n G) -> (j < n)%nat ->
  (forall i, (i < m)%nat -> init i j = 0) -> build_grassmannian_frame svd m n frac mu init (S it) = None.
Proof.
  intros Hmu H Hj Hz. unfold build_grassmannian_frame. cbn [grass_loop].
  set (g := fmul m (ftr init) init). set (off := off_ind g).
  enough (E : grass_body svd m n frac mu off g = None) by now rewrite E.
  assert (Eg : forall l, (l < n)%nat -> g j l = 0 /\ g l j = 0) by (intros l Hl; split; unfold g, fmul, ftr; apply (@rsum_0' m); intros i Hi; rewrite Hz by auto; ring).
  assert (Ee : forall l, (l < n)%nat -> grass_entries n frac mu off g j l = 0 /\ grass_entries n frac mu off g l j = 0).
  { intros l Hl. destruct (Eg l Hl) as [E1 E2]. unfold grass_entries. rewrite E1, E2. split; [destruct (off j l && _)|destruct (off l j && _)]; destruct (Rltb _ _); unfold Rdiv; ring. }
  specialize (H _ Ee). unfold grass_body. unfold svd_ok in H. destruct (svd _) as [[U s] VT].
  cbv zeta. destruct (forallb _ _) eqn:F; [exfalso|reflexivity].
  rewrite forallb_forall in F. specialize (F j ltac:(apply in_seq; lia)). apply Rltb_true in F.
  enough (Z : rsum n (fun k => U j k * (if (k <? m)%nat then s k else 0) * VT k j) = 0) by lra.
  apply (@rsum_0' n). intros k Hk.
  assert (E : U j k * s k = 0).
  { rewrite (svd_rows n _ U s VT H j k Hj Hk). apply (@rsum_0' n). intros l Hl.
    rewrite (proj1 (Ee l Hl)). ring. }
  destruct (k <? m)%nat; [rewrite E|]; ring.
Qed.

(** *** two atoms on a line *)
Lemma svd2_rank1 G U s VT : svd_of 2 G U s VT -> G 0%nat 0%nat * G 1%nat 1%nat = G 0%nat 1%nat * G 1%nat 0%nat -> s 1%nat = 0.
Proof.
  intros [HU [HV [HP [HD HG]]]] D.
  rewrite !HG in D by lia. unfold rsum in D. cbn in D.
  pose proof (HU 0%nat 0%nat ltac:(lia) ltac:(lia)) as u00. pose proof (HU 0%nat 1%nat ltac:(lia) ltac:(lia)) as u01. pose proof (HU 1%nat 1%nat ltac:(lia) ltac:(lia)) as u11.
  pose proof (HV 0%nat 0%nat ltac:(lia) ltac:(lia)) as v00. pose proof (HV 0%nat 1%nat ltac:(lia) ltac:(lia)) as v01. pose proof (HV 1%nat 1%nat ltac:(lia) ltac:(lia)) as v11.
  unfold ip, column in *. cbn in u00, u01, u11, v00, v01, v11.
  pose proof (HP 1%nat ltac:(lia)) as p1. pose proof (HD 0%nat 1%nat ltac:(lia) ltac:(lia)) as p01.
  set (a := U 0%nat 0%nat) in *. set (b := U 0%nat 1%nat) in *. set (c := U 1%nat 0%nat) in *. set (d := U 1%nat 1%nat) in *.
  set (e := VT 0%nat 0%nat) in *. set (f := VT 0%nat 1%nat) in *. set (g := VT 1%nat 0%nat) in *. set (h := VT 1%nat 1%nat) in *.
  set (x := s 0%nat) in *. set (y := s 1%nat) in *.
  assert (Du : (a * d - b * c) * (a * d - b * c) = 1).
  { replace ((a * d - b * c) * (a * d - b * c)) with ((0 + a * a + c * c) * (0 + b * b + d * d) - (0 + a * b + c * d) * (0 + a * b + c * d)) by ring. rewrite u00, u11, u01. ring. }
  assert (Dv : (e * h - f * g) * (e * h - f * g) = 1).
  { replace ((e * h - f * g) * (e * h - f * g)) with ((0 + e * e + f * f) * (0 + g * g + h * h) - (0 + e * g + f * h) * (0 + e * g + f * h)) by ring. rewrite v00, v11, v01. ring. }
  assert (Z : (a * d - b * c) * (x * y) * (e * h - f * g) = 0) by (ring_simplify in D; ring_simplify; lra).
  assert (XY : x * y = 0).
  { replace (x * y) with ((x * y) * ((a * d - b * c) * (a * d - b * c)) * ((e * h - f * g) * (e * h - f * g))) by (rewrite Du, Dv; ring).
    replace (x * y * ((a * d - b * c) * (a * d - b * c)) * ((e * h - f * g) * (e * h - f * g))) with (((a * d - b * c) * (x * y) * (e * h - f * g)) * ((a * d - b * c) * (e * h - f * g))) by ring. rewrite Z. ring. }
  nra.
Qed.
Lemma entries_mu1 n frac off g i j : grass_entries n frac 1 off g i j = g i j.
Proof. unfold grass_entries. destruct (off i j && _); destruct (Rltb _ _); field. Qed.
Lemma body_line svd frac off g : (forall G : fmat, (forall i j, (i < 2)%nat -> (j < 2)%nat -> G i j = g i j) -> svd_ok svd 2 G) -> g 0%nat 0%nat * g 1%nat 1%nat = g 0%nat 1%nat * g 1%nat 0%nat ->
  0 < g 0%nat 0%nat -> 0 < g 1%nat 1%nat ->
  exists g', grass_body svd 1 2 frac 1 off g = Some g' /\ forall i j, (i < 2)%nat -> (j < 2)%nat -> g' i j = g i j / g j j.
Proof.
  intros H D P0 P1. unfold grass_body. specialize (H (grass_entries 2 frac 1 off g) ltac:(intros; apply entries_mu1)). unfold svd_ok in H.
  destruct (svd _) as [[U s] VT]. cbv zeta.
  assert (Z : s 1%nat = 0) by (apply (svd2_rank1 _ U s VT H); rewrite !entries_mu1; exact D).
  assert (E : forall i j, (i < 2)%nat -> (j < 2)%nat -> rsum 2 (fun k => U i k * (if (k <? 1)%nat then s k else 0) * VT k j) = g i j).
  { intros i j Hi Hj. destruct H as [_ [_ [_ [_ HG]]]]. rewrite <- (entries_mu1 2 frac off g i j), HG by auto. cbn. rewrite Z. ring. }
  assert (Pj : forall j, (j < 2)%nat -> 0 < g j j) by (intros [|[|j]] Hj; [auto|auto|lia]).
  replace (forallb _ _) with true.
  - eexists. split; [reflexivity|]. intros i j Hi Hj. cbv beta. rewrite !E by auto. specialize (Pj j Hj).
    assert (0 < sqrt (g j j)) by (apply sqrt_lt_R0; auto). transitivity (g i j / (sqrt (g j j) * sqrt (g j j))); [field; lra|]. rewrite sqrt_sqrt by lra. reflexivity.
  - symmetry. apply forallb_forall. intros j Hj. apply in_seq in Hj. apply Rltb_true. rewrite E by lia. apply Pj. lia.
Qed.
Definition line_init : fmat := fun _ j => if Nat.eqb j 0 then 1 else 2.
Definition line_gram (g : fmat) : Prop := is_matrix2 g 1 (1 / 2) 2 1.
Definition line_start (g : fmat) : Prop := is_matrix2 g 1 2 2 4.
Lemma loop_line svd frac off it : (forall G, line_gram G -> svd_ok svd 2 G) -> forall g, line_gram g ->
  exists g', grass_loop svd 1 2 frac 1 off it g = Some g' /\ line_gram g'.
Proof.
  intros H. induction it as [|it IH]; intros g L; [exists g; auto|].
  pose proof L as [a [b [c d]]]. destruct (body_line svd frac off g) as [g' [E Eg]]; [intros G HG; apply H; repeat split; rewrite HG by lia; auto|rewrite a, b, c, d; field|lra|lra|].
  cbn [grass_loop]. rewrite E. apply IH. repeat split; rewrite Eg by lia; rewrite ?a, ?b, ?c, ?d; field.
Qed.
Lemma grass_line svd frac it : (forall G, line_start G \/ line_gram G -> svd_ok svd 2 G) ->
  exists F, build_grassmannian_frame svd 1 2 frac 1 line_init (S it) = Some (1%nat, 2%nat, F) /\
    ip 1 (column F 0) (column F 0) = 1 / 2 /\ ip 1 (column F 1) (column F 1) = 2.
Proof.
  intros H. unfold build_grassmannian_frame. set (g := fmul 1 (ftr line_init) line_init). set (off := off_ind g).
  assert (g00 : g 0%nat 0%nat = 1) by (unfold g, fmul, ftr, line_init; cbn; ring).
  assert (g01 : g 0%nat 1%nat = 2) by (unfold g, fmul, ftr, line_init; cbn; ring).
  assert (g10 : g 1%nat 0%nat = 2) by (unfold g, fmul, ftr, line_init; cbn; ring).
  assert (g11 : g 1%nat 1%nat = 4) by (unfold g, fmul, ftr, line_init; cbn; ring).
  destruct (body_line svd frac off g) as [h [E Eh]]; [intros G HG; apply H; left; repeat split; rewrite HG by lia; auto|rewrite g00, g01, g10, g11; ring|lra|lra|].
  destruct (loop_line svd frac off it (fun G HG => H G (or_intror HG)) h) as [g' [E' L]].
  { repeat split; rewrite Eh by lia; rewrite ?g00, ?g01, ?g10, ?g11; field. }
  cbn [grass_loop]. rewrite E, E'. specialize (H g' (or_intror L)). unfold svd_ok in H. destruct (svd g') as [[U s] VT].
  eexists. split; [reflexivity|]. destruct L as [a [b [c d]]].
  assert (Z : s 1%nat = 0) by (apply (svd2_rank1 _ U s VT H); rewrite a, b, c, d; field).
  pose proof H as [HU [HV [HP [_ HG]]]].
  pose proof (HP 0%nat ltac:(lia)) as p0.
  pose proof (HG 0%nat 0%nat ltac:(lia) ltac:(lia)) as e00. pose proof (HG 0%nat 1%nat ltac:(lia) ltac:(lia)) as e01.
  pose proof (HG 1%nat 0%nat ltac:(lia) ltac:(lia)) as e10. pose proof (HG 1%nat 1%nat ltac:(lia) ltac:(lia)) as e11.
  rewrite a in e00. rewrite b in e01. rewrite c in e10. rewrite d in e11. unfold rsum in e00, e01, e10, e11. cbn in e00, e01, e10, e11. rewrite Z in *.
  pose proof (HU 0%nat 0%nat ltac:(lia) ltac:(lia)) as u00. pose proof (HV 0%nat 0%nat ltac:(lia) ltac:(lia)) as v00.
  unfold ip, column in u00, v00. cbn in u00, v00.
  set (x := s 0%nat) in *. set (u := U 0%nat 0%nat) in *. set (w := U 1%nat 0%nat) in *. set (p := VT 0%nat 0%nat) in *. set (q := VT 0%nat 1%nat) in *.
  assert (r0 : x * x * (u * u) = 5 / 4).
  { replace (x * x * (u * u)) with ((u * x * p) * (u * x * p) + (u * x * q) * (u * x * q)) by (replace (x * x * (u * u)) with (x * x * (u * u) * (0 + p * p + q * q)) by (rewrite v00; ring); ring).
    replace (u * x * p) with 1 by lra. replace (u * x * q) with (1 / 2) by lra. field. }
  assert (r1 : x * x * (w * w) = 5).
  { replace (x * x * (w * w)) with ((w * x * p) * (w * x * p) + (w * x * q) * (w * x * q)) by (replace (x * x * (w * w)) with (x * x * (w * w) * (0 + p * p + q * q)) by (rewrite v00; ring); ring).
    replace (w * x * p) with 2 by lra. replace (w * x * q) with 1 by lra. ring. }
  assert (xx : x * x = 25 / 4).
  { replace (x * x) with (x * x * (u * u) + x * x * (w * w)) by (replace (x * x) with (x * x * (0 + u * u + w * w)) at 3 by (rewrite u00; ring); ring). rewrite r0, r1. field. }
  assert (Ex : x = 5 / 2) by nra. 
  unfold ip, column. cbn. fold x u w.
  replace (0 + sqrt x * u * (sqrt x * u)) with ((sqrt x * sqrt x) * (u * u)) by ring.
  replace (0 + sqrt x * w * (sqrt x * w)) with ((sqrt x * sqrt x) * (w * w)) by ring.
  rewrite sqrt_sqrt by lra. split; rewrite Ex in *; lra.
Qed.
Lemma lower_tall_counter : singular_values 2 1 (fun i _ => if Nat.eqb i 0 then 1 else 0) [1] /\
  analysis_energy 2 1 (fun i _ => if Nat.eqb i 0 then 1 else 0) (fun i => if Nat.eqb i 1 then 1 else 0) = 0 /\
  ip 2 (fun i => if Nat.eqb i 1 then 1 else 0) (fun i => if Nat.eqb i 1 then 1 else 0) = 1.
Proof.
  split; [|split].
  - split; [reflexivity|]. split; [intros a [<-|[]]; lra|]. split; [intros i [|j] Hi Hj; cbn in Hj; [|lia]; replace i with 0%nat by lia; lra|].
    exists (fun i _ => if Nat.eqb i 0 then 1 else 0), (fun _ _ => 1). split; [|split].
    + intros [|j] [|k] Hj Hk; cbn in Hj, Hk; try lia. unfold ip, column. cbn. ring.
    + intros [|j] [|k] Hj Hk; cbn in Hj, Hk; try lia. unfold ip, column. cbn. ring.
    + intros i j _ _. cbn. destruct (Nat.eqb i 0); ring.
  - unfold analysis_energy, ip, column. cbn. ring.
  - unfold ip. cbn. ring.
Qed.
