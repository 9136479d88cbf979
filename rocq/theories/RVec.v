(** Real vectors as lists of reals: sums, inner product, norms. *)
From Coq Require Import List Arith Bool Lia Reals Lra Psatz.
From Verif Require Import Scalar Vec.
Import ListNotations.
Set Implicit Arguments.
Local Open Scope R_scope.

Fixpoint rsum (n : nat) (f : nat -> R) : R :=
  match n with O => 0 | S n => rsum n f + f n end.

Lemma Sum_rsum n f : @Sum Rs n f = rsum n f.
Proof. induction n as [|n IH]; simpl; [reflexivity|]. now rewrite IH. Qed.

Lemma rsum_ext n f g : (forall i, (i < n)%nat -> f i = g i) -> rsum n f = rsum n g.
Proof. induction n as [|n IH]; simpl; intros H; auto. rewrite IH, H by auto. auto. Qed.
Lemma rsum_0 n : rsum n (fun _ => 0) = 0.
Proof. induction n as [|n IH]; simpl; auto. rewrite IH; ring. Qed.
Lemma rsum_0' n f : (forall i, (i < n)%nat -> f i = 0) -> rsum n f = 0.
Proof. intros H. rewrite (rsum_ext _ (fun _ => 0)) by auto. apply rsum_0. Qed.
Lemma rsum_const n c : rsum n (fun _ => c) = INR n * c.
Proof. induction n as [|n IH]; [simpl; ring|]. cbn [rsum]. rewrite IH, S_INR. ring. Qed.
Lemma rsum_add n f g : rsum n (fun i => f i + g i) = rsum n f + rsum n g.
Proof. induction n as [|n IH]; simpl; [ring|]. rewrite IH; ring. Qed.
Lemma rsum_sub n f g : rsum n (fun i => f i - g i) = rsum n f - rsum n g.
Proof. induction n as [|n IH]; simpl; [ring|]. rewrite IH; ring. Qed.
Lemma rsum_opp n f : rsum n (fun i => - f i) = - rsum n f.
Proof. induction n as [|n IH]; simpl; [ring|]. rewrite IH; ring. Qed.
Lemma rsum_mul_l n c f : rsum n (fun i => c * f i) = c * rsum n f.
Proof. induction n as [|n IH]; simpl; [ring|]. rewrite IH; ring. Qed.
Lemma rsum_mul_r n c f : rsum n (fun i => f i * c) = rsum n f * c.
Proof. induction n as [|n IH]; simpl; [ring|]. rewrite IH; ring. Qed.
Lemma rsum_exchange m n f :
  rsum m (fun i => rsum n (fun j => f i j)) = rsum n (fun j => rsum m (fun i => f i j)).
Proof.
  induction m as [|m IH]; simpl; [now rewrite rsum_0|]. rewrite IH. now rewrite <- rsum_add.
Qed.
Lemma rsum_split n m f : rsum (n + m) f = rsum n f + rsum m (fun i => f (n + i)%nat).
Proof.
  induction m as [|m IH]; simpl; [rewrite Nat.add_0_r; ring|].
  rewrite Nat.add_succ_r. simpl. rewrite IH. ring.
Qed.
Lemma rsum_S_l n f : rsum (S n) f = f 0%nat + rsum n (fun i => f (S i)).
Proof. change (S n) with (1 + n)%nat. rewrite rsum_split. simpl. ring. Qed.
Lemma rsum_rev n f : rsum n f = rsum n (fun i => f (n - 1 - i)%nat).
Proof. rewrite <- !Sum_rsum. apply (@Sum_rev Rs). Qed.
Lemma rsum_single n k f : (k < n)%nat -> (forall i, (i < n)%nat -> i <> k -> f i = 0) -> rsum n f = f k.
Proof. intros. rewrite <- Sum_rsum. now apply (@Sum_single Rs). Qed.
Lemma rsum_le n f g : (forall i, (i < n)%nat -> f i <= g i) -> rsum n f <= rsum n g.
Proof.
  induction n as [|n IH]; simpl; intros H; [lra|].
  pose proof (H n (Nat.lt_succ_diag_r n)). assert (rsum n f <= rsum n g) by (apply IH; auto). lra.
Qed.
Lemma rsum_pos n f : (forall i, (i < n)%nat -> 0 <= f i) -> 0 <= rsum n f.
Proof. intros H. rewrite <- (rsum_0 n). now apply rsum_le. Qed.
Lemma rsum_ge_term n f k : (k < n)%nat -> (forall i, (i < n)%nat -> 0 <= f i) -> f k <= rsum n f.
Proof.
  induction n as [|n IH]; intros Hk H; [lia|]. cbn [rsum]. destruct (Nat.eq_dec k n) as [->|].
  - assert (0 <= rsum n f) by (apply rsum_pos; auto). lra.
  - assert (f k <= rsum n f) by (apply IH; auto; lia). pose proof (H n ltac:(lia)). lra.
Qed.
Lemma rsum_eq0 n f : (forall i, (i < n)%nat -> 0 <= f i) -> rsum n f = 0 -> forall i, (i < n)%nat -> f i = 0.
Proof. intros H E i Hi. pose proof (rsum_ge_term f Hi H). pose proof (H i Hi). lra. Qed.
Lemma rsum_abs n f : Rabs (rsum n f) <= rsum n (fun i => Rabs (f i)).
Proof.
  induction n as [|n IH]; simpl; [rewrite Rabs_R0; lra|].
  pose proof (Rabs_triang (rsum n f) (f n)). lra.
Qed.

(** *** vectors *)
Definition vec := list R.
Notation "x @ i" := (nth i x 0) (at level 5, i at level 4).

Definition radd (x y : vec) : vec := zipw Rplus x y.
Definition rsub (x y : vec) : vec := zipw Rminus x y.
Definition rmul (x y : vec) : vec := zipw Rmult x y.
Definition rscale (c : R) (x : vec) : vec := map (Rmult c) x.
Definition ropp (x : vec) : vec := map Ropp x.
Definition rzero (n : nat) : vec := repeat 0 n.
Fixpoint rdot (x y : vec) : R :=
  match x, y with a :: x, b :: y => a * b + rdot x y | _, _ => 0 end.
Definition nrm2 (x : vec) : R := rdot x x.
Definition nrm (x : vec) : R := sqrt (rdot x x).
Fixpoint nrm1 (x : vec) : R := match x with [] => 0 | a :: x => Rabs a + nrm1 x end.
Fixpoint nrminf (x : vec) : R := match x with [] => 0 | a :: x => Rmax (Rabs a) (nrminf x) end.
Fixpoint rlsum (x : vec) : R := match x with [] => 0 | a :: x => a + rlsum x end.

Lemma radd_len x y : length (radd x y) = Nat.min (length x) (length y). Proof. apply zipw_length. Qed.
Lemma rsub_len x y : length (rsub x y) = Nat.min (length x) (length y). Proof. apply zipw_length. Qed.
Lemma rmul_len x y : length (rmul x y) = Nat.min (length x) (length y). Proof. apply zipw_length. Qed.
Lemma rscale_len c x : length (rscale c x) = length x. Proof. apply map_length. Qed.
Lemma ropp_len x : length (ropp x) = length x. Proof. apply map_length. Qed.
Lemma rzero_len n : length (rzero n) = n. Proof. apply repeat_length. Qed.
Global Hint Rewrite radd_len rsub_len rmul_len rscale_len ropp_len rzero_len
  map_length app_length rev_length firstn_length skipn_length repeat_length seq_length combine_length : rlen.
Global Hint Rewrite @tab_length @zipw_length : rlen.
(** decide goals about lengths *)
Ltac vl := autorewrite with rlen in *; simpl length in *; try lia; try congruence.

Lemma radd_nth x y i : length x = length y -> (radd x y)@i = x@i + y@i.
Proof. exact (@vadd_nth Rs x y i). Qed.
Lemma rsub_nth x y i : length x = length y -> (rsub x y)@i = x@i - y@i.
Proof. exact (@vsub_nth Rs x y i). Qed.
Lemma rmul_nth x y i : length x = length y -> (rmul x y)@i = x@i * y@i.
Proof. exact (@vmul_nth Rs x y i). Qed.
Lemma rscale_nth c x i : (rscale c x)@i = c * x@i.
Proof. exact (@vscale_nth Rs c x i). Qed.
Lemma ropp_nth x i : (ropp x)@i = - x@i.
Proof. exact (@vopp_nth Rs x i). Qed.
Lemma rzero_nth n i : (rzero n)@i = 0.
Proof. apply nth_repeat_same. Qed.

Lemma vec_eq (x y : vec) : length x = length y -> (forall i, (i < length x)%nat -> x@i = y@i) -> x = y.
Proof. apply list_eq_nth. Qed.
(** prove an equality between vectors entrywise *)
Ltac veq := apply vec_eq; [vl | let i := fresh "i" in let Hi := fresh "Hi" in intros i Hi;
  repeat (rewrite ?rscale_nth, ?ropp_nth, ?rzero_nth;
          first [rewrite radd_nth by vl | rewrite rsub_nth by vl | rewrite rmul_nth by vl | fail ]);
  rewrite ?rscale_nth, ?ropp_nth, ?rzero_nth; try ring].

Lemma rdot_sum n x y : length x = n -> length y = n -> rdot x y = rsum n (fun i => x@i * y@i).
Proof.
  revert x y. induction n as [|n IH]; intros [|a x] [|b y] Hx Hy; try discriminate; auto.
  rewrite rsum_S_l. simpl. rewrite IH by (simpl in *; lia). auto.
Qed.
Lemma inner_rdot x y : @inner Rs x y = rdot x y.
Proof. revert y; induction x as [|a x IH]; intros [|b y]; simpl; auto. Qed.
Lemma rdot_sym x y : rdot x y = rdot y x.
Proof. revert y; induction x as [|a x IH]; intros [|b y]; simpl; auto. rewrite IH; ring. Qed.
Lemma rdot_add_l x y z : length x = length y -> rdot (radd x y) z = rdot x z + rdot y z.
Proof.
  revert y z; induction x as [|a x IH]; intros [|b y] z H; try discriminate; simpl; [ring|].
  destruct z as [|c z]; simpl; [ring|]. unfold radd in IH. rewrite IH by (simpl in H; lia). ring.
Qed.
Lemma rdot_sub_l x y z : length x = length y -> rdot (rsub x y) z = rdot x z - rdot y z.
Proof.
  revert y z; induction x as [|a x IH]; intros [|b y] z H; try discriminate; simpl; [ring|].
  destruct z as [|c z]; simpl; [ring|]. unfold rsub in IH. rewrite IH by (simpl in H; lia). ring.
Qed.
Lemma rdot_scale_l c x z : rdot (rscale c x) z = c * rdot x z.
Proof. revert z; induction x as [|a x IH]; intros [|b z]; simpl; try ring. rewrite IH; ring. Qed.
Lemma rdot_opp_l x z : rdot (ropp x) z = - rdot x z.
Proof. revert z; induction x as [|a x IH]; intros [|b z]; simpl; try ring. rewrite IH; ring. Qed.
Lemma rdot_zero_l n z : rdot (rzero n) z = 0.
Proof. unfold rzero. revert z; induction n as [|n IH]; intros [|b z]; simpl; auto. rewrite IH; ring. Qed.
Lemma rdot_add_r x y z : length y = length z -> rdot x (radd y z) = rdot x y + rdot x z.
Proof. intros. now rewrite rdot_sym, rdot_add_l, (rdot_sym y), (rdot_sym z). Qed.
Lemma rdot_sub_r x y z : length y = length z -> rdot x (rsub y z) = rdot x y - rdot x z.
Proof. intros. now rewrite rdot_sym, rdot_sub_l, (rdot_sym y), (rdot_sym z). Qed.
Lemma rdot_scale_r c x z : rdot x (rscale c z) = c * rdot x z.
Proof. now rewrite rdot_sym, rdot_scale_l, rdot_sym. Qed.
Lemma rdot_opp_r x z : rdot x (ropp z) = - rdot x z.
Proof. now rewrite rdot_sym, rdot_opp_l, rdot_sym. Qed.
Lemma rdot_zero_r n z : rdot z (rzero n) = 0.
Proof. now rewrite rdot_sym, rdot_zero_l. Qed.
(** expand inner products *)
Ltac vdot := repeat first
  [ rewrite rdot_scale_l | rewrite rdot_scale_r | rewrite rdot_opp_l | rewrite rdot_opp_r
  | rewrite rdot_zero_l | rewrite rdot_zero_r
  | rewrite rdot_add_l by vl | rewrite rdot_add_r by vl | rewrite rdot_sub_l by vl | rewrite rdot_sub_r by vl ].

Lemma rdot_pos x : 0 <= rdot x x.
Proof. induction x as [|a x IH]; simpl; [lra|]. nra. Qed.
Lemma rdot_eq0 x : rdot x x = 0 -> x = rzero (length x).
Proof.
  induction x as [|a x IH]; simpl; intros H; [reflexivity|]. pose proof (rdot_pos x).
  assert (a * a = 0) by nra. assert (a = 0) by nra. subst a. unfold rzero in *. simpl. f_equal. apply IH. lra.
Qed.
Lemma rdot_sub_eq0 x y : length x = length y -> rdot (rsub x y) (rsub x y) = 0 -> x = y.
Proof.
  intros HL H. apply rdot_eq0 in H. apply vec_eq; auto. intros i Hi.
  assert (E : (rsub x y)@i = 0) by (rewrite H; apply rzero_nth). rewrite rsub_nth in E by auto. lra.
Qed.

(** Cauchy-Schwarz *)
Lemma cauchy_sq x y : rdot x y * rdot x y <= rdot x x * rdot y y.
Proof.
  revert y; induction x as [|a x IH]; intros [|b y]; simpl; try lra.
  - pose proof (IH y) as H. pose proof (rdot_pos x). pose proof (rdot_pos y).
    set (p := rdot x y) in *. set (q := rdot x x) in *. set (r := rdot y y) in *.
    assert (2 * (a * b) * p <= a * a * r + b * b * q).
    { assert (E : ((a * b) * p) * ((a * b) * p) <= (a * a * r) * (b * b * q)).
      { replace ((a * b) * p * ((a * b) * p)) with ((a * a) * (b * b) * (p * p)) by ring.
        replace ((a * a * r) * (b * b * q)) with ((a * a) * (b * b) * (q * r)) by ring.
        apply Rmult_le_compat_l; [nra|auto]. }
      set (u := a * a * r) in *. set (v := b * b * q) in *. set (w := a * b * p) in *.
      assert (0 <= u) by (unfold u; apply Rmult_le_pos; [nra|assumption]).
      assert (0 <= v) by (unfold v; apply Rmult_le_pos; [nra|assumption]).
      assert (E2 : (2 * w) * (2 * w) <= (u + v) * (u + v)) by (pose proof (Rle_0_sqr (u - v)); unfold Rsqr in *; nra).
      replace (2 * (a * b) * p) with (2 * w) by (unfold w; ring).
      destruct (Rle_or_lt (2 * w) (u + v)); auto. nra. }
    nra.
Qed.
Lemma nrm_pos x : 0 <= nrm x. Proof. apply sqrt_pos. Qed.
Lemma nrm_sq x : nrm x * nrm x = rdot x x. Proof. apply sqrt_sqrt, rdot_pos. Qed.
Lemma nrm_eq0 x : nrm x = 0 -> x = rzero (length x).
Proof. intros H. apply rdot_eq0. rewrite <- nrm_sq, H. ring. Qed.
Lemma nrm_rzero n : nrm (rzero n) = 0.
Proof. unfold nrm. rewrite rdot_zero_l. apply sqrt_0. Qed.
Lemma sq_le a b : 0 <= b -> a * a <= b * b -> a <= b.
Proof. intros. destruct (Rle_or_lt a b); auto. nra. Qed.
Lemma sq_eq a b : 0 <= a -> 0 <= b -> a * a = b * b -> a = b.
Proof. intros. apply Rle_antisym; apply sq_le; lra. Qed.
Lemma cauchy x y : Rabs (rdot x y) <= nrm x * nrm y.
Proof.
  apply sq_le; [apply Rmult_le_pos; apply nrm_pos|].
  replace (nrm x * nrm y * (nrm x * nrm y)) with ((nrm x * nrm x) * (nrm y * nrm y)) by ring.
  rewrite !nrm_sq. pose proof (cauchy_sq x y).
  replace (Rabs (rdot x y) * Rabs (rdot x y)) with (rdot x y * rdot x y); auto.
  rewrite <- Rabs_mult. symmetry. apply Rabs_right. nra.
Qed.
Lemma cauchy_le x y : rdot x y <= nrm x * nrm y.
Proof. pose proof (cauchy x y). pose proof (Rle_abs (rdot x y)). lra. Qed.
Lemma nrm_scale c x : nrm (rscale c x) = Rabs c * nrm x.
Proof.
  apply sq_eq; [apply nrm_pos|apply Rmult_le_pos; [apply Rabs_pos|apply nrm_pos]|].
  replace (Rabs c * nrm x * (Rabs c * nrm x)) with ((Rabs c * Rabs c) * (nrm x * nrm x)) by ring.
  rewrite !nrm_sq. vdot. rewrite <- Rabs_mult. rewrite (Rabs_right (c * c)) by nra. ring.
Qed.
Lemma nrm_triang x y : length x = length y -> nrm (radd x y) <= nrm x + nrm y.
Proof.
  intros H. apply sq_le; [pose proof (nrm_pos x); pose proof (nrm_pos y); lra|].
  rewrite nrm_sq. vdot. pose proof (cauchy_le x y). pose proof (nrm_sq x). pose proof (nrm_sq y).
  rewrite (rdot_sym y x). nra.
Qed.
Lemma nrm_opp x : nrm (ropp x) = nrm x.
Proof. unfold nrm. f_equal. vdot. ring. Qed.
Lemma nrm_sub_sym x y : length x = length y -> nrm (rsub x y) = nrm (rsub y x).
Proof. intros. unfold nrm. f_equal. vdot. ring. Qed.
Lemma nrm1_pos x : 0 <= nrm1 x.
Proof. induction x as [|a x IH]; simpl; [lra|]. pose proof (Rabs_pos a). lra. Qed.
Lemma nrminf_pos x : 0 <= nrminf x.
Proof. induction x as [|a x IH]; simpl; [lra|]. pose proof (Rmax_r (Rabs a) (nrminf x)). lra. Qed.
Lemma nrm1_sum n x : length x = n -> nrm1 x = rsum n (fun i => Rabs (x@i)).
Proof.
  revert n. induction x as [|a x IH]; intros n H; simpl in H; subst n; [reflexivity|].
  rewrite rsum_S_l. simpl. rewrite <- (IH _ eq_refl). reflexivity.
Qed.
Lemma rlsum_sum n x : length x = n -> rlsum x = rsum n (fun i => x@i).
Proof.
  revert n. induction x as [|a x IH]; intros n H; simpl in H; subst n; [reflexivity|].
  rewrite rsum_S_l. simpl. rewrite <- (IH _ eq_refl). reflexivity.
Qed.
Lemma nrminf_ge x i : Rabs (x@i) <= nrminf x.
Proof.
  revert i. induction x as [|a x IH]; intros [|i]; simpl; try (rewrite Rabs_R0; lra).
  - apply Rmax_l.
  - eapply Rle_trans; [apply IH|apply Rmax_r].
Qed.
Lemma nrminf_le x c : 0 <= c -> (forall i, (i < length x)%nat -> Rabs (x@i) <= c) -> nrminf x <= c.
Proof.
  induction x as [|a x IH]; intros Hc H; simpl; auto. apply Rmax_lub.
  - apply (H 0%nat). simpl; lia.
  - apply IH; auto. intros i Hi. apply (H (S i)). simpl; lia.
Qed.
Lemma nrm_triang_sub x y : length x = length y -> nrm x - nrm y <= nrm (rsub x y).
Proof.
  intros H. assert (E : x = radd y (rsub x y)) by veq.
  rewrite E at 1. pose proof (@nrm_triang y (rsub x y) ltac:(vl)). lra.
Qed.
