From Coq Require Import List Arith ZArith Reals Lra Lia Permutation.
From Flocq Require Import Core.
From Verif Require Import FpSpec FpModel FpProofs FpLinModel.
Import ListNotations.
Local Open Scope R_scope.

Lemma Rsum_app l1 l2 : Rsum (l1 ++ l2) = Rsum l1 + Rsum l2.
Proof. induction l1 as [|a l IH]; [unfold Rsum; cbn; lra|]. cbn [app]. unfold Rsum in *. cbn [fold_right]. rewrite IH. ring. Qed.
Lemma Rsum_cons a l : Rsum (a :: l) = a + Rsum l. Proof. reflexivity. Qed.
Lemma Rsum_perm l l' : Permutation l l' -> Rsum l = Rsum l'.
Proof. induction 1; rewrite ?Rsum_cons; lra. Qed.
Lemma Rsum_nonneg l : Forall (fun a => 0 <= a) l -> 0 <= Rsum l.
Proof. induction 1; rewrite ?Rsum_cons; cbn; lra. Qed.
Lemma Rsum_abs l : Rabs (Rsum l) <= Rsum (map Rabs l).
Proof. induction l as [|a l IH]; cbn [map]; rewrite ?Rsum_cons; [cbn; rewrite Rabs_R0; lra|]. eapply Rle_trans; [apply Rabs_triang|]. lra. Qed.
Lemma Rsum_abs_pos l : 0 <= Rsum (map Rabs l).
Proof. apply Rsum_nonneg. apply Forall_forall. intros a Ha. apply in_map_iff in Ha. destruct Ha as [b [<- _]]. apply Rabs_pos. Qed.
Lemma dot_abs_map l : dot_abs l = Rsum (map Rabs (map (fun ab => fst ab * snd ab) l)).
Proof. unfold dot_abs. now rewrite map_map. Qed.
Lemma dot_abs_pos l : 0 <= dot_abs l. Proof. rewrite dot_abs_map. apply Rsum_abs_pos. Qed.
Lemma dot_exact_le l : Rabs (dot_exact l) <= dot_abs l. Proof. rewrite dot_abs_map. apply Rsum_abs. Qed.

Section P.
  Variables emin prec : Z.
  Context {Hp : Prec_gt_0 prec}.
  Notation fl := (fl emin prec).
  Notation is_float := (is_float emin prec).
  Notation u := (ulp1 prec).
  Notation bpow := (bpow radix2).
  Notation tiny := (tiny emin).
  Notation sum_eval := (sum_eval emin prec).
  Notation dot_eval := (dot_eval emin prec).
  Notation fdot := (fdot emin prec).
  Notation fsum := (fsum emin prec).
  Hint Resolve fl_float float_0 : core.

  Lemma pow1u d : 1 <= (1 + u) ^ d.
  Proof. apply pow_R1_Rle. pose proof (u_pos prec). lra. Qed.
  Lemma pow1u_le d e : (d <= e)%nat -> (1 + u) ^ d <= (1 + u) ^ e.
  Proof. intros H. apply Rle_pow; [pose proof (u_pos prec); lra|exact H]. Qed.

  Lemma sum_eval_float l d s : sum_eval l d s -> Forall is_float l -> is_float s.
  Proof. induction 1; intros F; auto. now inversion F. Qed.
  Lemma sum_eval_depth l d s : sum_eval l d s -> (d <= length l - 1)%nat.
  Proof.
    induction 1 as [| |l l1 l2 d1 d2 s1 s2 H1 IH1 H2 IH2 N1 N2 P]; cbn; try lia.
    rewrite (Permutation_length P), app_length. assert (length l1 <> 0)%nat by (destruct l1; cbn; congruence). assert (length l2 <> 0)%nat by (destruct l2; cbn; congruence). lia.
  Qed.
  Lemma sum_eval_error l d s : sum_eval l d s -> Forall is_float l -> Rabs (s - Rsum l) <= ((1 + u) ^ d - 1) * Rsum (map Rabs l).
  Proof.
    pose proof (u_pos prec) as U. induction 1 as [|x|l l1 l2 d1 d2 s1 s2 H1 IH1 H2 IH2 N1 N2 P]; intros F.
    - cbn. rewrite Rminus_0_r, Rabs_R0. lra.
    - cbn. replace (x - (x + 0)) with 0 by ring. rewrite Rabs_R0. lra.
    - rewrite P in F. apply Forall_app in F. destruct F as [F1 F2]. specialize (IH1 F1). specialize (IH2 F2).
      rewrite (Rsum_perm _ _ P), (Rsum_perm _ _ (Permutation_map Rabs P)), map_app, !Rsum_app.
      set (d := Nat.max d1 d2) in *. set (S1 := Rsum (map Rabs l1)) in *. set (S2 := Rsum (map Rabs l2)) in *.
      assert (P1 : 0 <= S1) by apply Rsum_abs_pos. assert (P2 : 0 <= S2) by apply Rsum_abs_pos.
      assert (E1 : Rabs (s1 - Rsum l1) <= ((1 + u) ^ d - 1) * S1).
      { eapply Rle_trans; [exact IH1|]. apply Rmult_le_compat_r; [auto|]. assert ((1 + u) ^ d1 <= (1 + u) ^ d) by (apply pow1u_le; lia). lra. }
      assert (E2 : Rabs (s2 - Rsum l2) <= ((1 + u) ^ d - 1) * S2).
      { eapply Rle_trans; [exact IH2|]. apply Rmult_le_compat_r; [auto|]. assert ((1 + u) ^ d2 <= (1 + u) ^ d) by (apply pow1u_le; lia). lra. }
      pose proof (fl_err_add emin prec s1 s2 (sum_eval_float _ _ _ H1 F1) (sum_eval_float _ _ _ H2 F2)) as E.
      assert (B1 : Rabs (Rsum l1) <= S1) by apply Rsum_abs. assert (B2 : Rabs (Rsum l2) <= S2) by apply Rsum_abs.
      cbn [pow]. set (w := (1 + u) ^ d) in *. assert (W : 1 <= w) by apply pow1u.
      assert (M : Rabs (s1 + s2) <= w * (S1 + S2)).
      { replace (s1 + s2) with ((s1 - Rsum l1) + (s2 - Rsum l2) + (Rsum l1 + Rsum l2)) by ring.
        eapply Rle_trans; [apply Rabs_triang|]. eapply Rle_trans; [apply Rplus_le_compat; apply Rabs_triang|]. nra. }
      replace (fl (s1 + s2) - (Rsum l1 + Rsum l2)) with ((fl (s1 + s2) - (s1 + s2)) + ((s1 - Rsum l1) + (s2 - Rsum l2))) by ring.
      eapply Rle_trans; [apply Rabs_triang|]. eapply Rle_trans; [apply Rplus_le_compat_l, Rabs_triang|].
      assert (u * Rabs (s1 + s2) <= u * (w * (S1 + S2))) by (apply Rmult_le_compat_l; lra). nra.
  Qed.
  Lemma fsum_error l s : fsum l s -> Forall is_float l -> Rabs (s - Rsum l) <= ((1 + u) ^ (length l - 1) - 1) * Rsum (map Rabs l).
  Proof.
    intros [d H] F. eapply Rle_trans; [exact (sum_eval_error _ _ _ H F)|]. apply Rmult_le_compat_r; [apply Rsum_abs_pos|].
    pose proof (pow1u_le _ _ (sum_eval_depth _ _ _ H)). lra.
  Qed.
  Lemma fsum_two l s t : fsum l s -> fsum l t -> Forall is_float l -> Rabs (s - t) <= 2 * (((1 + u) ^ (length l - 1) - 1) * Rsum (map Rabs l)).
  Proof.
    intros Hs Ht F. pose proof (fsum_error _ _ Hs F). pose proof (fsum_error _ _ Ht F).
    replace (s - t) with ((s - Rsum l) - (t - Rsum l)) by ring. eapply Rle_trans; [apply Rabs_triang|]. rewrite Rabs_Ropp. lra.
  Qed.
  (** sums of multiples of a common unit that stay below 2^prec units are exact *)
  Lemma multiple_float k x : (emin <= k)%Z -> multiple k x -> Rabs x <= bpow (k + prec) -> is_float x.
  Proof.
    intros Hk [m ->] H. destruct (Req_dec (Rabs (IZR m * bpow k)) (bpow (k + prec))) as [E|E].
    - unfold FpSpec.is_float. apply generic_format_abs_inv. rewrite E. apply float_bpow; [exact Hp|]. pose proof Hp as Q. unfold Prec_gt_0 in Q. lia.
    - apply generic_format_FLT. exists (Float radix2 m k); cbn; [reflexivity| |exact Hk].
      apply lt_IZR. rewrite abs_IZR. pose proof Hp as Q; unfold Prec_gt_0 in Q. change 2%Z with (radix_val radix2). rewrite IZR_Zpower by lia.
      apply Rmult_lt_reg_r with (bpow k); [apply bpow_gt_0|]. rewrite <- bpow_plus, (Z.add_comm prec).
      rewrite <- (Rabs_pos_eq (bpow k)) at 1 by apply bpow_ge_0. rewrite <- Rabs_mult. lra.
  Qed.
  Lemma multiple_add k x y : multiple k x -> multiple k y -> multiple k (x + y).
  Proof. intros [m ->] [n ->]. exists (m + n)%Z. rewrite plus_IZR. ring. Qed.
  Lemma multiple_sum k l : Forall (multiple k) l -> multiple k (Rsum l).
  Proof. induction 1; [exists 0%Z; cbn; ring|]. rewrite Rsum_cons. now apply multiple_add. Qed.
  Lemma sum_eval_exact k l d s : sum_eval l d s -> (emin <= k)%Z -> Forall (multiple k) l -> Rsum (map Rabs l) <= bpow (k + prec) -> s = Rsum l.
  Proof.
    induction 1 as [|x|l l1 l2 d1 d2 s1 s2 H1 IH1 H2 IH2 N1 N2 P]; intros Hk F B.
    - reflexivity.
    - cbn. ring.
    - rewrite P in F. apply Forall_app in F. destruct F as [F1 F2]. rewrite (Rsum_perm _ _ (Permutation_map Rabs P)), map_app, Rsum_app in B.
      pose proof (Rsum_abs_pos l1). pose proof (Rsum_abs_pos l2). rewrite (IH1 Hk F1 ltac:(lra)), (IH2 Hk F2 ltac:(lra)).
      rewrite (Rsum_perm _ _ P), Rsum_app. apply fl_id. apply (multiple_float k); auto.
      + apply multiple_add; now apply multiple_sum.
      + eapply Rle_trans; [apply Rabs_triang|]. pose proof (Rsum_abs l1). pose proof (Rsum_abs l2). lra.
  Qed.

  (** *** inner products *)
  Lemma dot_eval_float l d s : dot_eval l d s -> is_float s.
  Proof. induction 1; auto. Qed.
  Lemma dot_eval_depth l d s : dot_eval l d s -> (d <= length l)%nat.
  Proof.
    induction 1 as [| |l l1 l2 d1 d2 s1 s2 H1 IH1 H2 IH2 N1 N2 P|l l1 a b d s H IH N P]; cbn; try lia.
    - rewrite (Permutation_length P), app_length. assert (length l1 <> 0)%nat by (destruct l1; cbn; congruence). assert (length l2 <> 0)%nat by (destruct l2; cbn; congruence). lia.
    - rewrite (Permutation_length P). cbn. lia.
  Qed.
  Lemma dot_exact_perm l l' : Permutation l l' -> dot_exact l = dot_exact l'.
  Proof. intros P. apply Rsum_perm, Permutation_map, P. Qed.
  Lemma dot_abs_perm l l' : Permutation l l' -> dot_abs l = dot_abs l'.
  Proof. intros P. apply Rsum_perm, Permutation_map, P. Qed.
  Lemma dot_exact_app l l' : dot_exact (l ++ l') = dot_exact l + dot_exact l'.
  Proof. unfold dot_exact. now rewrite map_app, Rsum_app. Qed.
  Lemma dot_abs_app l l' : dot_abs (l ++ l') = dot_abs l + dot_abs l'.
  Proof. unfold dot_abs. now rewrite map_app, Rsum_app. Qed.
  Lemma dot_eval_error l d s : dot_eval l d s ->
    Rabs (s - dot_exact l) <= ((1 + u) ^ d - 1) * dot_abs l + INR (length l) * tiny * (1 + u) ^ d.
  Proof.
    pose proof (u_pos prec) as U. pose proof (tiny_pos emin) as T.
    induction 1 as [|a b|l l1 l2 d1 d2 s1 s2 H1 IH1 H2 IH2 N1 N2 P|l l1 a b d s H IH N P].
    - cbn. rewrite Rminus_0_r, Rabs_R0. lra.
    - unfold dot_exact, dot_abs. cbn. pose proof (fl_err emin prec (a * b)) as E. rewrite Rplus_0_r.
      pose proof (Rabs_pos (a * b)). nra.
    - rewrite (dot_exact_perm _ _ P), (dot_abs_perm _ _ P), (Permutation_length P), app_length, plus_INR, dot_exact_app, dot_abs_app.
      set (d := Nat.max d1 d2) in *. assert (P1 := dot_abs_pos l1). assert (P2 := dot_abs_pos l2).
      assert (Q1 := pos_INR (length l1)). assert (Q2 := pos_INR (length l2)).
      assert (W1 : (1 + u) ^ d1 <= (1 + u) ^ d) by (apply pow1u_le; lia). assert (W2 : (1 + u) ^ d2 <= (1 + u) ^ d) by (apply pow1u_le; lia).
      assert (E1 : Rabs (s1 - dot_exact l1) <= ((1 + u) ^ d - 1) * dot_abs l1 + INR (length l1) * tiny * (1 + u) ^ d).
      { eapply Rle_trans; [exact IH1|]. apply Rplus_le_compat; [apply Rmult_le_compat_r; lra|apply Rmult_le_compat_l; [nra|lra]]. }
      assert (E2 : Rabs (s2 - dot_exact l2) <= ((1 + u) ^ d - 1) * dot_abs l2 + INR (length l2) * tiny * (1 + u) ^ d).
      { eapply Rle_trans; [exact IH2|]. apply Rplus_le_compat; [apply Rmult_le_compat_r; lra|apply Rmult_le_compat_l; [nra|lra]]. }
      pose proof (fl_err_add emin prec s1 s2 (dot_eval_float _ _ _ H1) (dot_eval_float _ _ _ H2)) as E.
      assert (B1 := dot_exact_le l1). assert (B2 := dot_exact_le l2).
      cbn [pow]. set (w := (1 + u) ^ d) in *. assert (W : 1 <= w) by apply pow1u.
      set (S1 := dot_abs l1) in *. set (S2 := dot_abs l2) in *. set (x1 := dot_exact l1) in *. set (x2 := dot_exact l2) in *.
      set (n1 := INR (length l1) * tiny) in *. set (n2 := INR (length l2) * tiny) in *.
      assert (Pn1 : 0 <= n1) by (unfold n1; nra). assert (Pn2 : 0 <= n2) by (unfold n2; nra).
      replace ((INR (length l1) + INR (length l2)) * tiny) with (n1 + n2) by (unfold n1, n2; ring).
      assert (M : Rabs (s1 + s2) <= w * (S1 + S2) + w * (n1 + n2)).
      { replace (s1 + s2) with ((s1 - x1) + (s2 - x2) + (x1 + x2)) by ring.
        eapply Rle_trans; [apply Rabs_triang|]. eapply Rle_trans; [apply Rplus_le_compat; apply Rabs_triang|]. nra. }
      replace (fl (s1 + s2) - (x1 + x2)) with ((fl (s1 + s2) - (s1 + s2)) + ((s1 - x1) + (s2 - x2))) by ring.
      eapply Rle_trans; [apply Rabs_triang|]. eapply Rle_trans; [apply Rplus_le_compat_l, Rabs_triang|].
      assert (u * Rabs (s1 + s2) <= u * (w * (S1 + S2) + w * (n1 + n2))) by (apply Rmult_le_compat_l; lra). nra.
    - rewrite (dot_exact_perm _ _ P), (dot_abs_perm _ _ P), (Permutation_length P). cbn [length]. rewrite S_INR.
      change (dot_exact ((a, b) :: l1)) with (a * b + dot_exact l1). change (dot_abs ((a, b) :: l1)) with (Rabs (a * b) + dot_abs l1).
      assert (P1 := dot_abs_pos l1). assert (Q1 := pos_INR (length l1)). assert (B1 := dot_exact_le l1).
      pose proof (fl_err emin prec (a * b + s)) as E. cbn [pow]. set (w := (1 + u) ^ d) in *. assert (W : 1 <= w) by apply pow1u.
      set (S1 := dot_abs l1) in *. set (x1 := dot_exact l1) in *. set (n1 := INR (length l1) * tiny) in *. assert (Pn1 : 0 <= n1) by (unfold n1; nra).
      replace ((INR (length l1) + 1) * tiny) with (n1 + tiny) by (unfold n1; ring).
      assert (M : Rabs (a * b + s) <= Rabs (a * b) + w * S1 + w * n1).
      { replace (a * b + s) with (a * b + ((s - x1) + x1)) by ring. eapply Rle_trans; [apply Rabs_triang|].
        pose proof (Rabs_triang (s - x1) x1). nra. }
      replace (fl (a * b + s) - (a * b + x1)) with ((fl (a * b + s) - (a * b + s)) + (s - x1)) by ring.
      eapply Rle_trans; [apply Rabs_triang|]. pose proof (Rabs_pos (a * b)).
      assert (u * Rabs (a * b + s) <= u * (Rabs (a * b) + w * S1 + w * n1)) by (apply Rmult_le_compat_l; lra).
      assert (0 <= (1 + u) * (w - 1) * Rabs (a * b)) by (apply Rmult_le_pos; [apply Rmult_le_pos|]; lra).
      assert (0 <= tiny * ((1 + u) * (w - 1))) by (apply Rmult_le_pos; [|apply Rmult_le_pos]; lra).
      assert (0 <= tiny * u) by (apply Rmult_le_pos; lra). lra.
  Qed.
  Lemma fdot_error x y s : fdot x y s ->
    Rabs (s - dot_exact (combine x y)) <= ((1 + u) ^ length (combine x y) - 1) * dot_abs (combine x y) + INR (length (combine x y)) * tiny * (1 + u) ^ length (combine x y).
  Proof.
    intros [d H]. eapply Rle_trans; [exact (dot_eval_error _ _ _ H)|]. pose proof (pow1u_le _ _ (dot_eval_depth _ _ _ H)).
    pose proof (dot_abs_pos (combine x y)). pose proof (tiny_pos emin). pose proof (pos_INR (length (combine x y))).
    apply Rplus_le_compat; [apply Rmult_le_compat_r; lra|apply Rmult_le_compat_l; [nra|lra]].
  Qed.

  (** squares *)
  Definition is_square (ab : R * R) : Prop := fst ab = snd ab.
  Lemma squares_combine x : Forall is_square (combine x x).
  Proof. induction x; cbn; constructor; [reflexivity|auto]. Qed.
  Lemma square_eval_nonneg l d s : dot_eval l d s -> Forall is_square l -> 0 <= s.
  Proof.
    induction 1 as [|a b|l l1 l2 d1 d2 s1 s2 H1 IH1 H2 IH2 N1 N2 P|l l1 a b d s H IH N P]; intros F.
    - lra.
    - inversion F as [|? ? E _]; subst. cbv in E. subst b. apply fl_nonneg; [exact Hp|nra].
    - rewrite P in F. apply Forall_app in F. destruct F. apply fl_nonneg; [exact Hp|]. specialize (IH1 H). specialize (IH2 H0). lra.
    - rewrite P in F. inversion F as [|? ? E F']; subst. cbv in E. subst b. apply fl_nonneg; [exact Hp|]. specialize (IH F'). nra.
  Qed.
  Lemma fl_0_small z : 0 <= z -> fl z = 0 -> z <= tiny.
  Proof.
    intros Hz H. pose proof (error_le_half_ulp radix2 (FLT_exp emin prec) (fun t => negb (Z.even t)) z) as E.
    change (Rabs (fl z - z) <= / 2 * ulp radix2 (FLT_exp emin prec) z) in E. rewrite H in E. rewrite Rminus_0_l, Rabs_Ropp, (Rabs_pos_eq z Hz) in E.
    destruct (Rle_or_lt (bpow (emin + prec)) z) as [C|C].
    - exfalso. assert (Q : fl (bpow (emin + prec)) <= fl z) by (apply fl_le; auto). rewrite fl_id in Q by (apply float_bpow; unfold Prec_gt_0 in Hp; auto; lia).
      pose proof (bpow_gt_0 radix2 (emin + prec)). lra.
    - rewrite ulp_FLT_small in E; [|exact Hp|rewrite Rabs_pos_eq; auto]. rewrite tiny_eq in E. exact E.
  Qed.
  Lemma square_eval_zero l d s : dot_eval l d s -> Forall is_square l -> s = 0 -> Forall (fun ab => fst ab * fst ab <= tiny) l.
  Proof.
    induction 1 as [|a b|l l1 l2 d1 d2 s1 s2 H1 IH1 H2 IH2 N1 N2 P|l l1 a b d s H IH N P]; intros F Z.
    - constructor.
    - inversion F as [|? ? E _]; subst. cbv in E. subst b. constructor; [|constructor]. cbn. apply fl_0_small; [nra|auto].
    - rewrite P in F |- *. apply Forall_app in F. destruct F as [F1 F2]. pose proof (square_eval_nonneg _ _ _ H1 F1). pose proof (square_eval_nonneg _ _ _ H2 F2).
      apply fl_add_0 in Z; [|exact Hp|eapply dot_eval_float; eauto|eapply dot_eval_float; eauto]. apply Forall_app. split; [apply IH1|apply IH2]; auto; lra.
    - rewrite P in F |- *. inversion F as [|? ? E F']; subst. cbv in E. subst b. pose proof (square_eval_nonneg _ _ _ H F') as Ps.
      assert (a * a + s <= tiny) by (apply fl_0_small; [nra|auto]). constructor; [cbn; nra|]. apply IH; auto.
      (* s is a float between 0 and tiny *)
      destruct (Rle_or_lt s 0); [lra|]. exfalso.
      assert (Q : fl s = s) by (apply fl_id; eapply dot_eval_float; eauto).
      assert (Q2 : fl s <= fl (a * a + s)) by (apply fl_le; [exact Hp|nra]). lra.
  Qed.
End P.
