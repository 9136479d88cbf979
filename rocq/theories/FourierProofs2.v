From Coq Require Import List Arith Bool Lia Reals Lra Psatz.
From Verif Require Import Scalar Vec RVec LopSpec LopModel LopOpSpec LopLemmas LopProofs LopProofs2 FourierModel FourierProofs.
Import ListNotations.
Set Implicit Arguments.
Local Open Scope R_scope.

(** entry (j,k) of the orthonormal DCT-II synthesis matrix *)
Definition dctk (n j k : nat) : R :=
  (if (k =? 0)%nat then / sqrt (INR n) else sqrt (2 / INR n)) * cos (PI * INR k * (2 * INR j + 1) / (2 * INR n)).

Lemma fst_star (a : Cs) : fst (star a) = fst a. Proof. reflexivity. Qed.
Lemma fst_ofR r (z : Cs) : fst (smul (ofR r) z) = r * fst z.
Proof. simpl. ring. Qed.
Lemma fst_Sum_r n (f : nat -> Cs) : fst (Sum n f) = rsum n (fun i => fst (f i)).
Proof. rewrite fst_Sum. apply Sum_rsum. Qed.

Lemma root_refl N k j : (0 < N)%nat -> (k <= N)%nat -> root N ((N - k) * j) = star (root N (k * j)).
Proof.
  intros HN Hk. rewrite Nat.mul_sub_distr_r. rewrite <- root_star_sub by nia.
  rewrite (Nat.mul_comm N j), root_mul_n by auto.
  apply C_eq; simpl; ring.
Qed.

Lemma INR_2n n : INR (2 * n) = 2 * INR n.
Proof. rewrite mult_INR. simpl. ring. Qed.

Lemma sqrt_facts n : (0 < n)%nat ->
  0 < INR n /\ 0 < sqrt (INR n) /\ 0 < sqrt 2 /\ sqrt (INR n) * sqrt (INR n) = INR n /\ sqrt 2 * sqrt 2 = 2 /\
  sqrt (2 * INR n) = sqrt 2 * sqrt (INR n) /\ sqrt (2 / INR n) = sqrt 2 / sqrt (INR n).
Proof.
  intros Hn. assert (0 < INR n) by (now apply lt_0_INR). assert (0 < sqrt (INR n)) by (now apply sqrt_lt_R0).
  assert (0 < sqrt 2) by (apply sqrt_lt_R0; lra).
  repeat split; auto; try (apply sqrt_sqrt; lra).
  - apply sqrt_mult; lra.
  - apply sqrt_div; lra.
Qed.

Lemma mirror_sum n f : (0 < n)%nat -> f n = 0 -> (forall k, (0 < k < n)%nat -> f (2 * n - k)%nat = f k) ->
  rsum (2 * n) f = f 0%nat + 2 * rsum (n - 1) (fun i => f (S i)).
Proof.
  intros Hn Hfn Hm. destruct n as [|n]; [lia|]. replace (S n - 1)%nat with n by lia.
  replace (2 * S n)%nat with (S n + S n)%nat by lia. rewrite rsum_split. rewrite !rsum_S_l.
  rewrite Nat.add_0_r, Hfn. rewrite (rsum_rev n (fun i => f (S n + S i)%nat)).
  rewrite (rsum_ext (fun i => f (S n + S (n - 1 - i))%nat) (fun i => f (S i))); [ring|].
  intros i Hi. rewrite <- (Hm (S i)) by lia. f_equal. lia.
Qed.

Lemma dct_times_nth n x j : (0 < n)%nat -> (j < n)%nat ->
  nth j (dct_times n x) 0 = rsum n (fun k => dctk n j k * nth k x 0).
Proof.
  intros Hn Hj. unfold dct_times. rewrite nth_firstn by auto. rewrite irfft_nth, idft_nth by lia.
  rewrite fst_ofR, fst_Sum_r.
  destruct (sqrt_facts Hn) as [P1 [P2 [P3 [P4 [P5 [P6 P7]]]]]].
  set (c := tab n _ ++ [s0]).
  assert (Hc : forall k, (k < n)%nat -> nth k c s0 = smul (phi_f n k) (nth k x 0, 0)).
  { intros k Hk. unfold c. rewrite nth_app, tab_length. destruct (Nat.ltb_spec k n); [|lia]. now rewrite nth_tab. }
  assert (Hcn : nth n c s0 = @s0 Cs).
  { unfold c. rewrite nth_app, tab_length, Nat.ltb_irrefl, Nat.sub_diag. reflexivity. }
  assert (Hdiv : (2 * n / 2 = n)%nat) by (rewrite Nat.mul_comm; apply Nat.div_mul; lia).
  assert (HH : forall k, (k < 2 * n)%nat -> nth k (herm_ext (2 * n) c) s0 = if (k <=? n)%nat then nth k c s0 else star (nth (2 * n - k) c s0)).
  { intros k Hk. unfold herm_ext. rewrite nth_tab by auto. now rewrite Hdiv. }
  assert (HV : forall k, (k < n)%nat -> fst (smul (root (2 * n) (k * j)) (nth k c s0)) =
     sqrt (2 * INR n) * (if (k =? 0)%nat then sqrt 2 else 1) * cos (PI * INR k * (2 * INR j + 1) / (2 * INR n)) * nth k x 0).
  { intros k Hk. rewrite Hc by auto. unfold phi_f. unfold root. rewrite mult_INR, INR_2n.
    replace (PI * INR k * (2 * INR j + 1) / (2 * INR n)) with (2 * PI * (INR k * INR j) / (2 * INR n) + PI * INR k / (2 * INR n)) by (field; lra).
    rewrite cos_plus. set (a := 2 * PI * (INR k * INR j) / (2 * INR n)). set (b := PI * INR k / (2 * INR n)).
    simpl. ring. }
  rewrite mirror_sum; auto.
  - rewrite HH by lia. cbn [Nat.leb]. rewrite HV by auto. cbn [Nat.eqb].
    rewrite (rsum_ext _ (fun i => sqrt (2 * INR n) * (cos (PI * INR (S i) * (2 * INR j + 1) / (2 * INR n)) * nth (S i) x 0))).
    2:{ intros i Hi. rewrite HH by lia. destruct (Nat.leb_spec (S i) n); [|lia]. rewrite HV by lia. cbn [Nat.eqb]. ring. }
    rewrite rsum_mul_l.
    destruct n as [|n]; [lia|]. rewrite (rsum_S_l n (fun k => dctk _ _ k * _)). unfold dctk at 1. cbn [Nat.eqb].
    rewrite (rsum_ext (fun i => dctk (S n) j (S i) * nth (S i) x 0) (fun i => sqrt (2 / INR (S n)) * (cos (PI * INR (S i) * (2 * INR j + 1) / (2 * INR (S n))) * nth (S i) x 0))).
    2:{ intros i Hi. unfold dctk. cbn [Nat.eqb]. ring. }
    rewrite rsum_mul_l. replace (S n - 1)%nat with n by lia. rewrite P6, P7, INR_2n.
    set (Z := rsum n _). set (C0 := cos _). rewrite <- P4 at 1.
    set (q := sqrt (INR (S n))) in *. set (w := sqrt 2) in *.
    transitivity ((w * w) / 2 * (/ q * C0 * nth 0 x 0) + w / q * Z); [field; lra|]. rewrite P5. field. lra.
  - rewrite HH by lia. rewrite Nat.leb_refl, Hcn. simpl. ring.
  - intros k Hk. rewrite !HH by lia. destruct (Nat.leb_spec (2 * n - k) n); [lia|].
    destruct (Nat.leb_spec k n); [|lia]. replace (2 * n - (2 * n - k))%nat with k by lia.
    rewrite root_refl by lia. rewrite <- star_mul. apply fst_star.
Qed.

Lemma dct_trans_nth n y k : (0 < n)%nat -> (k < n)%nat -> length y = n ->
  nth k (dct_trans n y) 0 = rsum n (fun j => dctk n j k * nth j y 0).
Proof.
  intros Hn Hk Hy. unfold dct_trans. rewrite nth_tab by auto.
  destruct (sqrt_facts Hn) as [P1 [P2 [P3 [P4 [P5 [P6 P7]]]]]].
  assert (Hdiv : (2 * n / 2 = n)%nat) by (rewrite Nat.mul_comm; apply Nat.div_mul; lia).
  rewrite nth_firstn by auto. unfold rfft. rewrite nth_firstn by (rewrite Hdiv; lia).
  rewrite dft_nth by lia. rewrite <- (Sum_mul_l Cs). rewrite fst_Sum_r.
  replace (2 * n)%nat with (n + n)%nat at 1 by lia. rewrite rsum_split.
  rewrite (rsum_rev n (fun i => fst (smul (phi_a n k) (smul (star (root (2 * n) ((n + i) * k))) _)))).
  rewrite <- rsum_add. apply rsum_ext. intros j Hj. rewrite !cplx_nth. rewrite !nth_app, Hy.
  destruct (Nat.ltb_spec j n); [|lia]. destruct (Nat.ltb_spec (n + (n - 1 - j)) n); [lia|].
  rewrite rev_nth by lia. rewrite Hy. replace (n - S (n + (n - 1 - j) - n))%nat with j by lia.
  replace (n + (n - 1 - j))%nat with (2 * n - S j)%nat by lia. rewrite root_refl by lia. rewrite star_star.
  unfold phi_a, dctk, root. rewrite !Cexp_star. rewrite !INR_2n, !mult_INR, S_INR.
  set (r := if (k =? 0)%nat then / sqrt 2 else 1).
  set (t := PI * INR k / (2 * INR n)).
  replace (- (2 * PI * (INR j * INR k) / (2 * INR n))) with (t - PI * INR k * (2 * INR j + 1) / (2 * INR n)) by (unfold t; field; lra).
  replace (2 * PI * ((INR j + 1) * INR k) / (2 * INR n)) with (t + PI * INR k * (2 * INR j + 1) / (2 * INR n)) by (unfold t; field; lra).
  set (u := PI * INR k * (2 * INR j + 1) / (2 * INR n)).
  replace (fst (smul (smul (ofR (r / sqrt (2 * INR n))) (Cexp (- t))) (smul (Cexp (t - u)) (nth j y 0, 0)))) with
    (r / sqrt (2 * INR n) * cos (-t + (t - u)) * nth j y 0).
  2:{ rewrite cos_plus. simpl. ring. }
  replace (fst (smul (smul (ofR (r / sqrt (2 * INR n))) (Cexp (- t))) (smul (Cexp (t + u)) (nth j y 0, 0)))) with
    (r / sqrt (2 * INR n) * cos (-t + (t + u)) * nth j y 0).
  2:{ rewrite cos_plus. simpl. ring. }
  replace (- t + (t - u)) with (- u) by ring. replace (- t + (t + u)) with u by ring. rewrite cos_neg.
  rewrite P6, P7. unfold r. destruct (k =? 0)%nat.
  - replace (/ sqrt 2 / (sqrt 2 * sqrt (INR n))) with (/ (sqrt 2 * sqrt 2) / sqrt (INR n)) by (field; lra).
    rewrite P5. field. lra.
  - replace (sqrt 2 / sqrt (INR n)) with (2 / (sqrt 2 * sqrt (INR n))). 2:{ rewrite <- P5 at 1. field. lra. }
    field. lra.
Qed.

Lemma dct_adjoint n : (0 < n)%nat -> has_adjoint (op_cosine_basis n) n n.
Proof.
  intros Hn. split; [reflexivity|split; [reflexivity|]].
  apply (@adjoint_by_kernel Rs) with (a := fun j k => dctk n j k); cbn [op_cosine_basis times trans mkop].
  - intros x Hx. unfold dct_times. rewrite firstn_length, irfft_length. lia.
  - intros y Hy. unfold dct_trans. apply tab_length.
  - intros x i Hx Hi. rewrite Sum_rsum. now apply dct_times_nth.
  - intros y j Hy Hj. rewrite Sum_rsum. now apply dct_trans_nth.
Qed.

(** *** orthonormality *)
Lemma sin_PI_nat m : sin (PI * INR m) = 0.
Proof.
  induction m as [|m IH]; [simpl; rewrite Rmult_0_r; apply sin_0|].
  rewrite S_INR, Rmult_plus_distr_l, Rmult_1_r, neg_sin. lra.
Qed.
Lemma cos_PI_nat m : cos (PI * INR m) = if Nat.even m then 1 else -1.
Proof.
  induction m as [|m IH]; [simpl; rewrite Rmult_0_r; apply cos_0|].
  rewrite S_INR, Rmult_plus_distr_l, Rmult_1_r, neg_cos, IH.
  rewrite Nat.even_succ, <- Nat.negb_even. destruct (Nat.even m); simpl; lra.
Qed.

Lemma dirichlet th N : 2 * sin (th / 2) * rsum N (fun k => cos (INR k * th)) = sin (INR N * th - th / 2) + sin (th / 2).
Proof.
  induction N as [|N IH].
  - simpl. replace (0 * th - th / 2) with (- (th / 2)) by ring. rewrite sin_neg. ring.
  - cbn [rsum]. rewrite Rmult_plus_distr_l, IH. rewrite S_INR.
    replace ((INR N + 1) * th - th / 2) with (INR N * th + th / 2) by field.
    rewrite sin_plus, sin_minus. ring.
Qed.
Lemma half_angle_pos n m : (0 < m < 2 * n)%nat -> 0 < sin (PI * INR m / (2 * INR n)).
Proof.
  intros H. assert (0 < INR n) by (apply lt_0_INR; lia). assert (0 < INR m) by (apply lt_0_INR; lia).
  assert (INR m < 2 * INR n) by (rewrite <- INR_2n; apply lt_INR; lia). pose proof PI_RGT_0.
  apply sin_gt_0.
  - apply Rdiv_lt_0_compat; nra.
  - apply Rmult_lt_reg_r with (2 * INR n); [lra|]. unfold Rdiv. rewrite Rmult_assoc, Rinv_l by lra. nra.
Qed.
Lemma cossum n m : (0 < m < 2 * n)%nat ->
  rsum n (fun k => cos (INR k * (PI * INR m / INR n))) = if Nat.even m then 0 else 1.
Proof.
  intros H. assert (Hn : 0 < INR n) by (apply lt_0_INR; lia).
  pose proof (dirichlet (PI * INR m / INR n) n) as D. pose proof (half_angle_pos n H) as S.
  replace (INR n * (PI * INR m / INR n)) with (PI * INR m) in D by (field; lra).
  replace (PI * INR m / INR n / 2) with (PI * INR m / (2 * INR n)) in D by (field; lra).
  rewrite sin_minus, sin_PI_nat, cos_PI_nat in D. set (s := sin _) in *. set (T := rsum _ _) in *.
  destruct (Nat.even m).
  - assert (s * T = 0) by lra. apply Rmult_integral in H0. destruct H0; [lra|auto].
  - assert (s * (T - 1) = 0) by lra. apply Rmult_integral in H0. destruct H0; lra.
Qed.
Lemma cossum_0 n : rsum n (fun k => cos (INR k * (PI * INR 0 / INR n))) = INR n.
Proof.
  rewrite (rsum_ext _ (fun _ => 1)); [rewrite rsum_const; ring|]. intros i Hi.
  rewrite <- cos_0. f_equal. simpl. unfold Rdiv. ring.
Qed.
Lemma oddsum th N : 2 * sin th * rsum N (fun j => cos (th * (2 * INR j + 1))) = sin (2 * INR N * th).
Proof.
  induction N as [|N IH].
  - simpl. rewrite !Rmult_0_r, Rmult_0_l, sin_0. ring.
  - cbn [rsum]. rewrite Rmult_plus_distr_l, IH, S_INR.
    replace (2 * INR N * th) with (th * (2 * INR N + 1) - th) by ring.
    replace (2 * (INR N + 1) * th) with (th * (2 * INR N + 1) + th) by ring.
    rewrite sin_plus, sin_minus. ring.
Qed.
Lemma oddsum_0 n m : (0 < m < 2 * n)%nat ->
  rsum n (fun j => cos (PI * INR m / (2 * INR n) * (2 * INR j + 1))) = 0.
Proof.
  intros H. assert (Hn : 0 < INR n) by (apply lt_0_INR; lia). pose proof (half_angle_pos n H) as S.
  pose proof (oddsum (PI * INR m / (2 * INR n)) n) as D.
  replace (2 * INR n * (PI * INR m / (2 * INR n))) with (PI * INR m) in D by (field; lra).
  rewrite sin_PI_nat in D. set (s := sin _) in *. set (T := rsum _ _) in *.
  assert (E : s * T = 0) by lra. apply Rmult_integral in E. destruct E; lra.
Qed.

Definition dctw (n k : nat) : R := if (k =? 0)%nat then / sqrt (INR n) else sqrt (2 / INR n).
Lemma dctw_sq n k : (0 < n)%nat -> dctw n k * dctw n k = (if (k =? 0)%nat then 1 else 2) / INR n.
Proof.
  intros Hn. destruct (sqrt_facts Hn) as [P1 [P2 [P3 [P4 [P5 [P6 P7]]]]]]. unfold dctw.
  destruct (k =? 0)%nat.
  - rewrite <- P4 at 3. field. lra.
  - apply sqrt_sqrt. apply Rlt_le, Rdiv_lt_0_compat; lra.
Qed.

(** product to sum *)
Lemma coscos a b : 2 * (cos a * cos b) = cos (a - b) + cos (a + b).
Proof. rewrite cos_minus, cos_plus. ring. Qed.

Lemma dct_rows n k l : (k < n)%nat -> (l < n)%nat ->
  rsum n (fun j => dctk n j k * dctk n j l) = if (k =? l)%nat then 1 else 0.
Proof.
  intros Hk Hl. assert (Hn : (0 < n)%nat) by lia. assert (HN : 0 < INR n) by (now apply lt_0_INR).
  assert (SYM : forall k l, (k < n)%nat -> (l <= k)%nat -> rsum n (fun j => dctk n j k * dctk n j l) = if (k =? l)%nat then 1 else 0).
  2:{ destruct (Nat.le_ge_cases l k); [now apply SYM|]. rewrite Nat.eqb_sym, <- (SYM l k) by auto.
      apply rsum_ext. intros; ring. }
  clear k l Hk Hl. intros k l Hk Hl.
  rewrite (rsum_ext _ (fun j => dctw n k * dctw n l / 2 * (cos (PI * INR (k - l) / (2 * INR n) * (2 * INR j + 1)) + cos (PI * INR (k + l) / (2 * INR n) * (2 * INR j + 1))))).
  2:{ intros j Hj. unfold dctk. fold (dctw n k). fold (dctw n l).
      rewrite minus_INR, plus_INR by auto.
      replace (PI * (INR k - INR l) / (2 * INR n) * (2 * INR j + 1)) with (PI * INR k * (2 * INR j + 1) / (2 * INR n) - PI * INR l * (2 * INR j + 1) / (2 * INR n)) by (field; lra).
      replace (PI * (INR k + INR l) / (2 * INR n) * (2 * INR j + 1)) with (PI * INR k * (2 * INR j + 1) / (2 * INR n) + PI * INR l * (2 * INR j + 1) / (2 * INR n)) by (field; lra).
      rewrite <- coscos. field. }
  rewrite rsum_mul_l, rsum_add.
  assert (Z : forall m, m = 0%nat -> rsum n (fun j => cos (PI * INR m / (2 * INR n) * (2 * INR j + 1))) = INR n).
  { intros m ->. rewrite (rsum_ext _ (fun _ => 1)); [rewrite rsum_const; ring|]. intros i Hi. rewrite <- cos_0. f_equal. simpl. unfold Rdiv. ring. }
  destruct (Nat.eqb_spec k l) as [->|Hne].
  - rewrite (Z (l - l)%nat) by lia. destruct (Nat.eq_dec l 0) as [->|].
    + rewrite (Z (0 + 0)%nat) by lia. pose proof (dctw_sq 0 Hn) as E. simpl in E. unfold Rdiv at 1. rewrite E. field. lra.
    + rewrite oddsum_0 by lia. unfold Rdiv at 1. rewrite dctw_sq by auto. destruct (Nat.eqb_spec l 0); [lia|]. field. lra.
  - rewrite !oddsum_0 by lia. ring.
Qed.

Lemma dct_cols n j l : (j < n)%nat -> (l < n)%nat ->
  rsum n (fun k => dctk n j k * dctk n l k) = if (j =? l)%nat then 1 else 0.
Proof.
  intros Hj Hl. assert (Hn : (0 < n)%nat) by lia. assert (HN : 0 < INR n) by (now apply lt_0_INR).
  assert (SYM : forall j l, (j < n)%nat -> (l <= j)%nat -> rsum n (fun k => dctk n j k * dctk n l k) = if (j =? l)%nat then 1 else 0).
  2:{ destruct (Nat.le_ge_cases l j); [now apply SYM|]. rewrite Nat.eqb_sym, <- (SYM l j) by auto.
      apply rsum_ext. intros; ring. }
  clear j l Hj Hl. intros j l Hj Hl.
  assert (PS : forall k, 2 * (cos (PI * INR k * (2 * INR j + 1) / (2 * INR n)) * cos (PI * INR k * (2 * INR l + 1) / (2 * INR n)))
     = cos (INR k * (PI * INR (j - l) / INR n)) + cos (INR k * (PI * INR (j + l + 1) / INR n))).
  { intros k. rewrite coscos. rewrite minus_INR, !plus_INR by auto. simpl (INR 1). f_equal; f_equal; field; lra. }
  destruct n as [|n']; [lia|]. rewrite rsum_S_l. set (n := S n') in *.
  rewrite (rsum_ext (fun i => dctk n j (S i) * dctk n l (S i)) (fun i => / INR n * (cos (INR (S i) * (PI * INR (j - l) / INR n)) + cos (INR (S i) * (PI * INR (j + l + 1) / INR n))))).
  2:{ intros i Hi. rewrite <- PS. unfold dctk. cbn [Nat.eqb]. 
      pose proof (dctw_sq (S i) Hn) as E. unfold dctw in E. cbn [Nat.eqb] in E.
      replace (/ INR n) with (2 / INR n / 2) by (field; lra).
      set (w := sqrt (2 / INR n)) in *. rewrite <- E. field. }
  rewrite rsum_mul_l, rsum_add.
  assert (E0 : dctk n j 0 * dctk n l 0 = / INR n).
  { unfold dctk. cbn [Nat.eqb]. simpl (INR 0). rewrite !Rmult_0_r, !Rmult_0_l. unfold Rdiv. rewrite !Rmult_0_l, cos_0.
    pose proof (dctw_sq 0 Hn) as E. unfold dctw in E. cbn [Nat.eqb] in E. rewrite !Rmult_1_r, E. field. lra. }
  rewrite E0.
  assert (T : forall m, rsum n' (fun i => cos (INR (S i) * (PI * INR m / INR n))) = rsum n (fun i => cos (INR i * (PI * INR m / INR n))) - 1).
  { intros m. change (rsum n) with (rsum (S n')). rewrite rsum_S_l. simpl (INR 0). rewrite Rmult_0_l, cos_0. ring. }
  rewrite !T. rewrite (@cossum n (j + l + 1)) by lia.
  destruct (Nat.eqb_spec j l) as [->|Hne].
  - rewrite Nat.sub_diag, cossum_0. replace (l + l + 1)%nat with (S (2 * l)) by lia.
    rewrite Nat.even_succ, <- Nat.negb_even, Nat.even_mul. cbn [Nat.even orb negb]. field. lra.
  - rewrite cossum by lia. replace (j + l + 1)%nat with (j - l + (2 * l + 1))%nat by lia.
    rewrite Nat.even_add. replace (2 * l + 1)%nat with (S (2 * l)) by lia. rewrite Nat.even_succ, <- Nat.negb_even, Nat.even_mul.
    destruct (Nat.even (j - l)); cbn [Nat.even orb negb eqb]; field; lra.
Qed.

Lemma dct_inv n (x : list R) : (0 < n)%nat -> length x = n ->
  trans (op_cosine_basis n) (times (op_cosine_basis n) x) = x /\
  times (op_cosine_basis n) (trans (op_cosine_basis n) x) = x.
Proof.
  intros Hn Hx. destruct (dct_adjoint Hn) as [_ [_ [H1 [H2 _]]]]. split.
  - apply vec_eq; [rewrite H2; auto|]. rewrite H2 by auto. intros k Hk.
    cbn [op_cosine_basis times trans mkop] in *. rewrite dct_trans_nth by auto.
    rewrite (rsum_ext _ (fun j => rsum n (fun l => dctk n j k * dctk n j l * nth l x 0))).
    2:{ intros j Hj. rewrite dct_times_nth by auto. rewrite <- rsum_mul_l. apply rsum_ext. intros; ring. }
    rewrite rsum_exchange.
    rewrite (rsum_ext _ (fun l => (if (k =? l)%nat then 1 else 0) * nth l x 0)).
    2:{ intros l Hl. rewrite rsum_mul_r, dct_rows by auto. reflexivity. }
    rewrite (@rsum_single n k); auto.
    + rewrite Nat.eqb_refl. ring.
    + intros i Hi Hne. destruct (Nat.eqb_spec k i); [congruence|]. ring.
  - apply vec_eq; [rewrite H1; auto|]. rewrite H1 by auto. intros j Hj.
    cbn [op_cosine_basis times trans mkop] in *. rewrite dct_times_nth by auto.
    rewrite (rsum_ext _ (fun k => rsum n (fun l => dctk n j k * dctk n l k * nth l x 0))).
    2:{ intros k Hk. rewrite dct_trans_nth by auto. rewrite <- rsum_mul_l. apply rsum_ext. intros; ring. }
    rewrite rsum_exchange.
    rewrite (rsum_ext _ (fun l => (if (j =? l)%nat then 1 else 0) * nth l x 0)).
    2:{ intros l Hl. rewrite rsum_mul_r, dct_cols by auto. reflexivity. }
    rewrite (@rsum_single n j); auto.
    + rewrite Nat.eqb_refl. ring.
    + intros i Hi Hne. destruct (Nat.eqb_spec j i); [congruence|]. ring.
Qed.
