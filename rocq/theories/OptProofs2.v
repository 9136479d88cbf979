(** Projection onto the l1 ball. *)
From Coq Require Import List Arith Bool Lia Reals Lra Psatz Permutation.
From Verif Require Import Scalar Vec Loop RVec RMat XReal OptSpec OptModel OptProofs.
Import ListNotations.
Set Implicit Arguments.
Local Open Scope R_scope.

(** *** sorting *)
Lemma rinsert_perm a l : Permutation (rinsert a l) (a :: l).
Proof.
  induction l as [|b l IH]; simpl; auto. destruct (Rleb a b); auto.
  apply perm_trans with (b :: a :: l); [now constructor|apply perm_swap].
Qed.
Lemma rsort_perm l : Permutation (rsort l) l.
Proof. induction l as [|a l IH]; simpl; auto. rewrite rinsert_perm. now constructor. Qed.
Lemma rsort_len l : length (rsort l) = length l.
Proof. apply Permutation_length, rsort_perm. Qed.
Lemma ascending_cons a l : ascending l -> (forall b, In b l -> a <= b) -> ascending (a :: l).
Proof.
  intros H1 H2 [|i] [|j] Hij Hj; simpl in *; try lia; try lra.
  - apply H2, nth_In. lia.
  - apply H1; lia.
Qed.
Lemma ascending_inv a l : ascending (a :: l) -> ascending l /\ (forall b, In b l -> a <= b).
Proof.
  intros H. split.
  - intros i j Hij Hj. apply (H (S i) (S j)); simpl; lia.
  - intros b Hb. destruct (In_nth _ _ 0 Hb) as [i [Hi <-]]. apply (H 0%nat (S i)); simpl; lia.
Qed.
Lemma rinsert_asc a l : ascending l -> ascending (rinsert a l).
Proof.
  induction l as [|b l IH]; simpl; intros H.
  - intros [|i] [|j] Hij Hj; simpl in *; try lia; lra.
  - destruct (Rleb_spec a b) as [Hab|Hab].
    + apply ascending_cons; auto. intros c [<-|Hc]; auto. apply ascending_inv in H. destruct H as [_ H]. specialize (H c Hc). lra.
    + apply ascending_inv in H. destruct H as [H1 H2]. apply ascending_cons; auto.
      intros c Hc. apply (Permutation_in _ (rinsert_perm a l)) in Hc. destruct Hc as [<-|Hc]; auto. lra.
Qed.
Lemma rsort_asc l : ascending (rsort l).
Proof. induction l as [|a l IH]; simpl; [intros i j Hij Hj; simpl in Hj; lia|]. now apply rinsert_asc. Qed.
Lemma rev_desc l : ascending l -> descending (rev l).
Proof.
  intros H i j Hij Hj. rewrite rev_length in Hj.
  assert (E : forall k, (k < length l)%nat -> (rev l)@k = l@(length l - S k)) by (intros; now apply rev_nth).
  rewrite !E by lia. apply H; lia.
Qed.

Lemma rlsum_perm l l' : Permutation l l' -> rlsum l = rlsum l'.
Proof. induction 1; simpl; lra. Qed.
Lemma nrm1_rlsum l : nrm1 l = rlsum (map Rabs l).
Proof. induction l as [|a l IH]; simpl; auto. now rewrite IH. Qed.

(** *** cumulative sums and flags *)
Lemma rcumsum_from_len a l : length (rcumsum_from a l) = length l.
Proof. revert a; induction l as [|b l IH]; intros a; simpl; auto. Qed.
Lemma rcumsum_from_nth a l i : (i < length l)%nat -> (rcumsum_from a l)@i = a + rsum (S i) (fun j => l@j).
Proof.
  revert a i; induction l as [|b l IH]; intros a i Hi; simpl in Hi; [lia|].
  destruct i as [|i]; [simpl; ring|]. cbn [rcumsum_from nth]. rewrite IH by lia.
  rewrite (rsum_S_l (S i)). cbn [nth]. ring.
Qed.
Lemma first_true_spec l k :
  match first_true k l with
  | Some j => exists i, j = (k + i)%nat /\ nth_error l i = Some true /\ forall i', (i' < i)%nat -> nth_error l i' = Some false
  | None => forall i b, nth_error l i = Some b -> b = false
  end.
Proof.
  revert k; induction l as [|b l IH]; intros k; simpl.
  - intros [|i] b; discriminate.
  - destruct b.
    + exists 0%nat. split; [lia|]. split; [auto|]. intros; lia.
    + specialize (IH (S k)). destruct (first_true (S k) l) as [j|].
      * destruct IH as [i [-> [H1 H2]]]. exists (S i). split; [lia|]. split; [auto|].
        intros [|i'] Hi; simpl; auto. apply H2. lia.
      * intros [|i] b; simpl; [congruence|apply IH].
Qed.

Section L1.
  Variables (a : vec) (q : R).
  Hypothesis Ha : forall b, In b a -> 0 <= b.
  Hypothesis Hq : 0 <= q.
  Hypothesis Hout : q < rlsum a.
  Let u := rev (rsort a).
  Let n := length a.
  Let kappa := l1_threshold a q.
  Let S_ (k : nat) := rsum k (fun j => u@j).
  Lemma u_len : length u = n.
  Proof. unfold u. rewrite rev_length. apply rsort_len. Qed.
  Lemma u_desc : descending u. Proof. apply rev_desc, rsort_asc. Qed.
  Lemma u_perm : Permutation u a.
  Proof. unfold u. rewrite <- Permutation_rev. apply rsort_perm. Qed.
  Lemma u_pos i : 0 <= u@i.
  Proof.
    destruct (Nat.lt_ge_cases i n) as [H|H].
    - apply Ha, (Permutation_in _ u_perm), nth_In. rewrite u_len; auto.
    - rewrite nth_overflow by (rewrite u_len; auto). lra.
  Qed.
  Lemma u_sum : S_ n = rlsum a.
  Proof.
    unfold S_. rewrite <- (rlsum_perm u_perm), (rlsum_sum (n := n)); auto. apply u_len.
  Qed.
  Lemma n_pos : (0 < n)%nat.
  Proof. unfold n. destruct a; simpl in *; [lra|lia]. Qed.

  Let flag k := Rltb (u@k * INR (k + 1)) (S_ (S k) - q).
  Lemma kappa_eq : exists K, (1 <= K <= n)%nat /\ kappa = (S_ K - q) / INR K /\
    (forall k, (k < K)%nat -> flag k = false) /\ ((K < n)%nat -> flag K = true).
  Proof.
    unfold kappa, l1_threshold. fold u.
    set (flags := zipw (fun a b => Rltb b a) (map (fun c => c - q) (rcumsum u)) (tab (length u) (fun k => u@k * INR (k + 1)))).
    assert (Hlen : length flags = n).
    { unfold flags. rewrite zipw_length, map_length, tab_length. unfold rcumsum. rewrite rcumsum_from_len, u_len. lia. }
    assert (Hcu : forall i, (i < n)%nat -> (rcumsum u)@i = S_ (S i)).
    { intros i Hi. unfold rcumsum. rewrite rcumsum_from_nth by (rewrite u_len; auto). unfold S_. ring. }
    assert (Hf : forall i, (i < n)%nat -> nth_error flags i = Some (flag i)).
    { intros i Hi. rewrite (nth_error_nth' flags false) by lia. f_equal. unfold flags.
      assert (Hl1 : (i < length (map (fun c => (c - q)%R) (rcumsum u)))%nat).
      { rewrite map_length. unfold rcumsum. rewrite rcumsum_from_len, u_len. auto. }
      rewrite (@nth_zipw _ _ _ _ _ _ i (0 - q) 0); auto; [|rewrite tab_length, u_len; auto].
      rewrite (map_nth (fun c => c - q)), Hcu by auto.
      rewrite nth_tab by (rewrite u_len; auto). reflexivity. }
    assert (Hf0 : flag 0 = false).
    { unfold flag, S_. simpl. destruct (Rltb_spec (u@0 * 1) (0 + u@0 - q)); auto. lra. }
    pose proof n_pos as Hn.
    unfold argmax_bool. pose proof (first_true_spec flags 0) as Hs.
    destruct (first_true 0 flags) as [K|].
    - destruct Hs as [i [EK [H1 H2]]]. simpl in EK. subst i.
      assert (HK : (K < n)%nat). { rewrite <- Hlen. apply nth_error_Some. congruence. }
      assert (HK0 : K <> 0%nat). { intros ->. rewrite Hf in H1 by auto. congruence. }
      destruct (Nat.eqb_spec K 0); [contradiction|].
      exists K. split; [lia|]. split; [rewrite Hcu by lia; f_equal; f_equal; f_equal; lia|].
      split.
      + intros k Hk. specialize (H2 k Hk). rewrite Hf in H2 by lia. congruence.
      + intros _. rewrite Hf in H1 by lia. congruence.
    - simpl. rewrite Hlen. exists n. split; [lia|]. split; [rewrite Hcu by lia; f_equal; f_equal; f_equal; lia|].
      split; [|lia]. intros k Hk. apply (Hs k). now apply Hf.
  Qed.

  Lemma kappa_spec : 0 < kappa /\ rsum n (fun i => Rmax 0 (u@i - kappa)) = q.
  Proof.
    destruct kappa_eq as [K [HK [Ek [Hlow Hhigh]]]].
    assert (HKR : 0 < INR K) by (apply lt_0_INR; lia).
    assert (H1 : kappa <= u@(K-1)).
    { specialize (Hlow (K - 1)%nat ltac:(lia)). unfold flag in Hlow.
      replace (S (K - 1)) with K in Hlow by lia. replace (K - 1 + 1)%nat with K in Hlow by lia.
      revert Hlow. destruct (Rltb_spec (u@(K-1) * INR K) (S_ K - q)) as [H|H]; [discriminate|]. intros _.
      rewrite Ek. apply Rmult_le_reg_r with (INR K); [auto|]. unfold Rdiv. rewrite Rmult_assoc, Rinv_l by lra. lra. }
    assert (H2 : (K < n)%nat -> u@K < kappa).
    { intros HKn. specialize (Hhigh HKn). unfold flag in Hhigh. revert Hhigh.
      destruct (Rltb_spec (u@K * INR (K + 1)) (S_ (S K) - q)) as [H|H]; [|discriminate]. intros _.
      rewrite plus_INR in H. unfold S_ in H. cbn [rsum] in H. fold (S_ K) in H. simpl (INR 1) in H.
      rewrite Ek. apply Rmult_lt_reg_r with (INR K); [auto|]. unfold Rdiv. rewrite Rmult_assoc, Rinv_l by lra. lra. }
    assert (Hkap : kappa * INR K = S_ K - q).
    { rewrite Ek. unfold Rdiv. rewrite Rmult_assoc, Rinv_l; lra. }
    split.
    - destruct (Nat.eq_dec K n) as [E|E].
      + rewrite E in *. rewrite u_sum in Hkap. nra.
      + specialize (H2 ltac:(lia)). pose proof (u_pos K). lra.
    - replace n with (K + (n - K))%nat by lia. rewrite rsum_split.
      rewrite (rsum_ext (fun i => Rmax 0 (u@i - kappa)) (fun i => u@i - kappa)).
      2:{ intros i Hi. rewrite Rmax_right; auto. assert (u@(K-1) <= u@i) by (apply u_desc; rewrite ?u_len; lia). lra. }
      rewrite (rsum_0' (n := n - K)).
      2:{ intros i Hi. rewrite Rmax_left; auto.
          assert (u@(K + i) <= u@K) by (apply u_desc; rewrite ?u_len; lia). specialize (H2 ltac:(lia)). lra. }
      rewrite rsum_sub, rsum_const. fold (S_ K). lra.
  Qed.

  Lemma kappa_sum : rlsum (map (fun b => Rmax 0 (b - kappa)) a) = q.
  Proof.
    destruct kappa_spec as [Hk E]. rewrite <- E.
    rewrite <- (rlsum_perm (Permutation_map (fun a => Rmax 0 (a - kappa)) u_perm)).
    rewrite (rlsum_sum (n := n)) by (rewrite map_length; apply u_len).
    apply rsum_ext. intros i Hi.
    rewrite nth_indep with (d' := Rmax 0 (0 - kappa)) by (rewrite map_length, u_len; auto).
    apply (map_nth (fun a => Rmax 0 (a - kappa))).
  Qed.
End L1.

Lemma shrink_nrm1 y k : 0 <= k -> nrm1 (shrink y k) = rlsum (map (fun b => Rmax 0 (b - k)) (map Rabs y)).
Proof.
  intros Hk. unfold shrink. induction y as [|a l IH]; simpl; auto. rewrite IH. f_equal.
  unfold Rabs at 2. destruct (Rcase_abs a); unfold Rmax, Rmin;
    repeat destruct (Rle_dec _ _); unfold Rabs; destruct (Rcase_abs _); lra.
Qed.
Lemma shrink_dot y k z : 0 <= k -> length z = length y ->
  rdot (rsub y (shrink y k)) z <= k * nrm1 z /\ rdot (rsub y (shrink y k)) (shrink y k) = k * nrm1 (shrink y k).
Proof.
  intros Hk. unfold shrink, rsub. revert z. induction y as [|a l IH]; intros [|b z] Hz; simpl in *; try discriminate; [lra|].
  destruct (IH z ltac:(lia)) as [I1 I2]. split.
  - assert (E : (a - (Rmax 0 (a - k) + Rmin 0 (a + k))) * b <= k * Rabs b).
    { unfold Rmax, Rmin. repeat destruct (Rle_dec _ _); unfold Rabs; destruct (Rcase_abs b); nra. }
    lra.
  - assert (E : (a - (Rmax 0 (a - k) + Rmin 0 (a + k))) * (Rmax 0 (a - k) + Rmin 0 (a + k)) = k * Rabs (Rmax 0 (a - k) + Rmin 0 (a + k))).
    { unfold Rmax, Rmin. repeat destruct (Rle_dec _ _); unfold Rabs; destruct (Rcase_abs _); nra. }
    lra.
Qed.
Lemma abs_pos_map y : forall b, In b (map Rabs y) -> 0 <= b.
Proof. intros b Hb. apply in_map_iff in Hb. destruct Hb as [c [<- _]]. apply Rabs_pos. Qed.

Section InsideBall.
  Variables (y : vec) (q : R).
  Hypothesis Hq : 0 <= q.
  Hypothesis Hout : q < nrm1 y.
  Lemma inside_nrm1 : nrm1 (project_inside_ball y q) = q.
  Proof.
    rewrite nrm1_rlsum in Hout. unfold project_inside_ball.
    destruct (kappa_spec _ (@abs_pos_map y) Hq Hout) as [Hk _].
    rewrite shrink_nrm1 by lra. apply kappa_sum; auto. apply abs_pos_map.
  Qed.
  Lemma inside_vi z : length z = length y -> nrm1 z <= q ->
    rdot (rsub y (project_inside_ball y q)) (rsub z (project_inside_ball y q)) <= 0.
  Proof.
    intros Hz Cz. pose proof inside_nrm1 as HN. unfold project_inside_ball in *. rewrite nrm1_rlsum in Hout.
    destruct (kappa_spec _ (@abs_pos_map y) Hq Hout) as [Hk _].
    destruct (shrink_dot y z (Rlt_le _ _ Hk) Hz) as [H1 H2]. rewrite HN in H2.
    rewrite rdot_sub_r by (unfold shrink; rewrite map_length; auto). nra.
  Qed.
End InsideBall.

Lemma shrink_len y k : length (shrink y k) = length y. Proof. apply map_length. Qed.
Global Hint Rewrite shrink_len : rlen.

Lemma vi_l1_ball n q : 0 <= q -> vi n (fun y => nrm1 y <= q) (proj_l1_ball q).
Proof.
  intros Hq x Hx. unfold proj_l1_ball. destruct (Rltb_spec q (nrm1 x)) as [H|H].
  - split; [unfold project_inside_ball; vl|]. split; [rewrite inside_nrm1; auto; lra|].
    intros z Hz Cz. apply inside_vi; auto. congruence.
  - split; [auto|]. split; [lra|]. intros z Hz _. apply (@rdot_nonpos n); vl.
    intros i Hi. rewrite !rsub_nth by vl. lra.
Qed.
(** translating a set *)
Lemma vi_translate n (C : vec -> Prop) P b : length b = n -> vi n C P ->
  vi n (fun y => C (rsub y b)) (fun x => radd (P (rsub x b)) b).
Proof.
  intros Hb H x Hx. destruct (H (rsub x b)) as [L [HC V]]; [vl|].
  assert (E : rsub (radd (P (rsub x b)) b) b = P (rsub x b)).
  { apply vec_eq; [vl; rewrite L; lia|]. intros i Hi. rewrite rsub_nth by (vl; rewrite L; lia).
    rewrite radd_nth by (rewrite L; auto). ring. }
  split; [vl; rewrite L; lia|]. split; [rewrite E; auto|]. intros z Hz Cz.
  specialize (V (rsub z b) ltac:(vl) Cz).
  replace (rsub x (radd (P (rsub x b)) b)) with (rsub (rsub x b) (P (rsub x b))).
  replace (rsub z (radd (P (rsub x b)) b)) with (rsub (rsub z b) (P (rsub x b))); auto.
  - apply vec_eq; [vl; rewrite !L; lia|]. intros i Hi. rewrite !rsub_nth by (vl; rewrite ?L; lia).
    rewrite radd_nth by (rewrite L; auto). ring.
  - apply vec_eq; [vl; rewrite !L; lia|]. intros i Hi. rewrite !rsub_nth by (vl; rewrite ?L; lia).
    rewrite radd_nth by (rewrite L; auto). ring.
Qed.
Lemma vi_l1_ball_at n q b : 0 <= q -> length b = n -> vi n (fun y => nrm1 (rsub y b) <= q) (proj_l1_ball_at q b).
Proof. intros Hq Hb. exact (@vi_translate n _ (proj_l1_ball q) b Hb (@vi_l1_ball n q Hq)). Qed.
Lemma vi_spgl1 n q : 0 <= q -> vi n (fun y => nrm1 y <= q) (fun x => spgl1_project_to_l1_ball x q).
Proof. exact (@vi_l1_ball n q). Qed.
Lemma vi_spgl1_at n q b : 0 <= q -> length b = n ->
  vi n (fun y => nrm1 (rsub y b) <= q) (fun x => spgl1_project_to_l1_ball_at x b q).
Proof. intros Hq Hb. exact (@vi_translate n _ (proj_l1_ball q) b Hb (@vi_l1_ball n q Hq)). Qed.

Lemma cabs_pos z : 0 <= cabs z. Proof. apply sqrt_pos. Qed.
Lemma cabs_sq z : cabs z * cabs z = fst z * fst z + snd z * snd z.
Proof. apply sqrt_sqrt. nra. Qed.
Lemma cabs_cauchy a b : fst a * fst b + snd a * snd b <= cabs a * cabs b.
Proof.
  pose proof (cabs_pos a). pose proof (cabs_pos b). pose proof (cabs_sq a) as Ea. pose proof (cabs_sq b) as Eb.
  destruct a as [a1 a2], b as [b1 b2]; simpl in *.
  destruct (Rle_lt_dec (a1 * b1 + a2 * b2) 0) as [H1|H1]; [nra|].
  apply sq_le; [nra|].
  replace (cabs (a1, a2) * cabs (b1, b2) * (cabs (a1, a2) * cabs (b1, b2)))
    with ((cabs (a1, a2) * cabs (a1, a2)) * (cabs (b1, b2) * cabs (b1, b2))) by ring.
  rewrite Ea, Eb. pose proof (Rle_0_sqr (a1 * b2 - a2 * b1)) as Hs. unfold Rsqr in Hs. nra.
Qed.
Lemma cshrink1_small k z : cabs z <= k -> cshrink1 k z = (0, 0).
Proof. intros H. unfold cshrink1. rewrite Rmax_right by lra. f_equal; ring. Qed.
Lemma cshrink1_big k z : 0 <= k < cabs z -> cshrink1 k z = ((1 - k / cabs z) * fst z, (1 - k / cabs z) * snd z).
Proof.
  intros H. unfold cshrink1. rewrite Rmax_left by lra.
  assert (Hz : cabs z <> 0) by lra. unfold Reqb. destruct (Req_EM_T (cabs z) 0); [contradiction|].
  simpl. f_equal; field; auto.
Qed.
Lemma cabs_zero : cabs (0, 0) = 0.
Proof. unfold cabs. simpl. replace (0 * 0 + 0 * 0) with 0 by ring. apply sqrt_0. Qed.
Lemma cabs_scale c z : 0 <= c -> cabs (c * fst z, c * snd z) = c * cabs z.
Proof.
  intros Hc. apply sq_eq; [apply cabs_pos|pose proof (cabs_pos z); nra|].
  rewrite cabs_sq. simpl. replace (c * cabs z * (c * cabs z)) with (c * c * (cabs z * cabs z)) by ring.
  rewrite cabs_sq. ring.
Qed.
Lemma cshrink1_abs k z : 0 <= k -> cabs (cshrink1 k z) = Rmax 0 (cabs z - k).
Proof.
  intros Hk. destruct (Rle_lt_dec (cabs z) k) as [H|H].
  - rewrite cshrink1_small by auto. rewrite cabs_zero, Rmax_left; lra.
  - rewrite cshrink1_big by lra. rewrite cabs_scale.
    2:{ apply Rmult_le_reg_r with (cabs z); [lra|]. unfold Rdiv. rewrite Rmult_minus_distr_r, Rmult_assoc, Rinv_l; lra. }
    rewrite Rmax_right by lra.
    field; lra.
Qed.
Lemma cshrink1_dot k z b : 0 <= k ->
  let s := cshrink1 k z in
  (fst z - fst s) * fst b + (snd z - snd s) * snd b <= k * cabs b /\
  (fst z - fst s) * fst s + (snd z - snd s) * snd s = k * cabs s.
Proof.
  intros Hk s. unfold s. pose proof (cabs_cauchy z b) as Hc. pose proof (cabs_pos b). pose proof (cabs_pos z).
  destruct (Rle_lt_dec (cabs z) k) as [H1|H1].
  - rewrite cshrink1_small by auto. rewrite cabs_zero. simpl. split; nra.
  - rewrite cshrink1_big by lra.
    assert (Hd : 0 <= k / cabs z) by (apply Rmult_le_pos; [lra|apply Rlt_le, Rinv_0_lt_compat; lra]).
    assert (H2 : 0 <= 1 - k / cabs z).
    { apply Rmult_le_reg_r with (cabs z); [lra|]. unfold Rdiv. rewrite Rmult_minus_distr_r, Rmult_assoc, Rinv_l; lra. }
    rewrite cabs_scale by auto. simpl. split.
    + replace ((fst z - (1 - k / cabs z) * fst z) * fst b + (snd z - (1 - k / cabs z) * snd z) * snd b)
        with (k / cabs z * (fst z * fst b + snd z * snd b)) by ring.
      assert (H3 : k / cabs z * (fst z * fst b + snd z * snd b) <= k / cabs z * (cabs z * cabs b)) by (apply Rmult_le_compat_l; auto).
      replace (k / cabs z * (cabs z * cabs b)) with (k * cabs b) in H3 by (field; lra). auto.
    + replace ((fst z - (1 - k / cabs z) * fst z) * ((1 - k / cabs z) * fst z) + (snd z - (1 - k / cabs z) * snd z) * ((1 - k / cabs z) * snd z))
        with (k / cabs z * (1 - k / cabs z) * (fst z * fst z + snd z * snd z)) by ring.
      rewrite <- cabs_sq. field. lra.
Qed.
Lemma cshrink_dot y k z : 0 <= k -> length z = length y ->
  cdot (csub y (map (cshrink1 k) y)) z <= k * cnrm1 z /\
  cdot (csub y (map (cshrink1 k) y)) (map (cshrink1 k) y) = k * cnrm1 (map (cshrink1 k) y).
Proof.
  intros Hk. unfold cdot, csub, cnrm1. revert z. induction y as [|a l IH]; intros [|b z] Hz; try discriminate Hz.
  - simpl. lra.
  - cbn [map zipw rlsum]. simpl in Hz. destruct (IH z ltac:(lia)) as [I1 I2].
    destruct (@cshrink1_dot k a b Hk) as [E1 E2]. cbv zeta in *. cbn [fst snd]. split; nra.
Qed.
Lemma cdot_sub_r x y z : length y = length z -> cdot x (csub y z) = cdot x y - cdot x z.
Proof.
  unfold cdot, csub. revert y z; induction x as [|a x IH]; intros [|b y] [|c z] H; try discriminate H; simpl; try lra.
  rewrite IH by (simpl in H; lia). ring.
Qed.
Lemma cdot_sub_l x y z : length y = length z -> cdot (csub y z) x = cdot y x - cdot z x.
Proof.
  unfold cdot, csub. revert y z; induction x as [|a x IH]; intros [|b y] [|c z] H; try discriminate H; simpl; try lra.
  rewrite IH by (simpl in H; lia). ring.
Qed.
Lemma cdot_sym x y : cdot x y = cdot y x.
Proof. unfold cdot. revert y; induction x as [|a x IH]; intros [|b y]; simpl; auto. rewrite IH. ring. Qed.
Lemma cdot_pos x : 0 <= cdot x x.
Proof. unfold cdot. induction x as [|a x IH]; simpl; [lra|nra]. Qed.
Lemma cdot_sub_eq0 x y : length x = length y -> cdot (csub x y) (csub x y) = 0 -> x = y.
Proof.
  revert y; induction x as [|[a a'] x IH]; intros [|[b b'] y] H; try discriminate H; auto.
  intros E. assert (E' : (a - b) * (a - b) + (a' - b') * (a' - b') + cdot (csub x y) (csub x y) = 0) by (rewrite <- E; reflexivity).
  pose proof (cdot_pos (csub x y)) as Hp.
  pose proof (Rle_0_sqr (a - b)) as H1. pose proof (Rle_0_sqr (a' - b')) as H2. unfold Rsqr in *.
  assert (H3 : (a - b) * (a - b) = 0) by lra. assert (H4 : (a' - b') * (a' - b') = 0) by lra.
  apply Rmult_integral in H3. apply Rmult_integral in H4.
  f_equal; [f_equal; lra|]. apply IH; [simpl in H; lia|]. destruct H3 as [H3|H3], H4 as [H4|H4]; rewrite H3, H4 in *; lra.
Qed.
Lemma csub_len x y : length (csub x y) = Nat.min (length x) (length y). Proof. apply zipw_length. Qed.

Lemma cdist2_expand x p z : length p = length x -> length z = length x ->
  cdist2 x z = cdist2 x p + cdist2 z p - 2 * cdot (csub x p) (csub z p).
Proof.
  intros H1 H2. unfold cdist2. rewrite !cdot_sub_l, !cdot_sub_r by congruence.
  rewrite (cdot_sym z x), (cdot_sym p x), (cdot_sym z p). ring.
Qed.

Lemma cball_spec x q : 0 <= q ->
  let p := spgl1_project_to_l1_ball_c x q in
  length p = length x /\ cnrm1 p <= q /\ (cnrm1 x <= q -> p = x) /\
  forall z, length z = length x -> cnrm1 z <= q ->
    cdist2 x p <= cdist2 x z /\ (cdist2 x z <= cdist2 x p -> z = p).
Proof.
  intros Hq. cbv zeta. unfold spgl1_project_to_l1_ball_c.
  assert (Hab : forall b, In b (map cabs x) -> 0 <= b).
  { intros b Hb. apply in_map_iff in Hb. destruct Hb as [c [<- _]]. apply cabs_pos. }
  assert (Hfin : forall p, length p = length x -> (forall z, length z = length x -> cnrm1 z <= q -> cdot (csub x p) (csub z p) <= 0) ->
     forall z, length z = length x -> cnrm1 z <= q ->
     cdist2 x p <= cdist2 x z /\ (cdist2 x z <= cdist2 x p -> z = p)).
  { intros p Hp Hvi z Hz Cz. specialize (Hvi z Hz Cz). rewrite (@cdist2_expand x p z) by auto.
    pose proof (cdot_pos (csub z p)) as Hps. unfold cdist2 in *. split; [lra|].
    intros. apply cdot_sub_eq0; [congruence|lra]. }
  destruct (Rltb_spec q (cnrm1 x)) as [H|H].
  - unfold cnrm1 in H. destruct (kappa_spec _ Hab Hq H) as [Hk _].
    set (k := l1_threshold (map cabs x) q) in *.
    assert (HN : cnrm1 (map (cshrink1 k) x) = q).
    { unfold cnrm1. rewrite map_map. rewrite <- (kappa_sum _ Hab Hq H). fold k. rewrite map_map. f_equal.
      apply map_ext. intros z. apply cshrink1_abs. lra. }
    split; [apply map_length|]. split; [lra|]. split; [unfold cnrm1; lra|].
    apply Hfin; [apply map_length|]. intros z Hz Cz.
    destruct (cshrink_dot x z (Rlt_le _ _ Hk) Hz) as [H1 H2]. rewrite HN in H2.
    rewrite cdot_sub_r by (rewrite map_length; auto). nra.
  - split; [auto|]. split; [lra|]. split; [auto|]. apply Hfin; [auto|]. intros z Hz Cz.
    assert (E : forall y, cdot (csub x x) y = 0).
    { intros y. rewrite cdot_sub_l by auto. ring. }
    rewrite E. lra.
Qed.
