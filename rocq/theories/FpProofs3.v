From Coq Require Import List Arith ZArith Reals Lra Lia Permutation.
From Flocq Require Import Core.
From Verif Require Import FpSpec FpModel FpProofs FpLinModel FpProofs2.
Import ListNotations.
Local Open Scope R_scope.

(** ** sums over index ranges *)
Notation rs n f := (Rsum (map f (seq 0 n))) (only parsing).
Lemma Rsum_map_ext {X} (f g : X -> R) l : (forall a, In a l -> f a = g a) -> Rsum (map f l) = Rsum (map g l).
Proof. intros H. f_equal. apply map_ext_in, H. Qed.
Lemma Rsum_map_le {X} (f g : X -> R) l : (forall a, In a l -> f a <= g a) -> Rsum (map f l) <= Rsum (map g l).
Proof. induction l as [|a l IH]; intros H; cbn [map]; [apply Rle_refl|]. rewrite !Rsum_cons. pose proof (H a (or_introl eq_refl)). pose proof (IH (fun b Hb => H b (or_intror Hb))). lra. Qed.
Lemma Rsum_map_plus {X} (f g : X -> R) l : Rsum (map (fun a => f a + g a) l) = Rsum (map f l) + Rsum (map g l).
Proof. induction l as [|a l IH]; cbn [map]; [cbn; ring|]. rewrite !Rsum_cons, IH. ring. Qed.
Lemma Rsum_map_scal {X} c (f : X -> R) l : Rsum (map (fun a => c * f a) l) = c * Rsum (map f l).
Proof. induction l as [|a l IH]; cbn [map]; [cbn; ring|]. rewrite !Rsum_cons, IH. ring. Qed.
Lemma Rsum_map_abs {X} (f : X -> R) l : Rabs (Rsum (map f l)) <= Rsum (map (fun a => Rabs (f a)) l).
Proof. eapply Rle_trans; [apply Rsum_abs|]. rewrite map_map. apply Rle_refl. Qed.
Lemma Rsum_map_zero {X} (l : list X) : Rsum (map (fun _ => 0) l) = 0.
Proof. induction l; cbn [map]; [reflexivity|]. rewrite Rsum_cons, IHl. ring. Qed.
Lemma Rsum_swap {X Y} (f : X -> Y -> R) l k : Rsum (map (fun a => Rsum (map (f a) k)) l) = Rsum (map (fun b => Rsum (map (fun a => f a b) l)) k).
Proof.
  induction l as [|a l IH]; cbn [map].
  - symmetry. apply (Rsum_map_zero k).
  - rewrite Rsum_cons, IH, <- Rsum_map_plus. apply Rsum_map_ext. intros b _. now rewrite Rsum_cons.
Qed.
Lemma Rsum_const (n : nat) c : rs n (fun _ => c) = INR n * c.
Proof.
  generalize 0%nat. induction n as [|n IH]; intros a; cbn [seq map]; [cbn; ring|]. rewrite Rsum_cons, IH, S_INR. ring.
Qed.
Lemma Rsum_nth (l : list R) n : length l = n -> Rsum l = rs n (fun j => nth j l 0).
Proof.
  intros <-. f_equal. apply (nth_ext _ _ 0 0).
  - now rewrite map_length, seq_length.
  - intros i Hi. rewrite (nth_indep _ 0 (nth 0 l 0)) at 1 by auto. rewrite (nth_indep (map _ _) 0 ((fun j => nth j l 0) 0%nat)) by (rewrite map_length, seq_length; auto).
    rewrite (map_nth (fun j => nth j l 0)), seq_nth by auto. cbn. apply nth_indep; auto.
Qed.
Lemma combine_nth_r {X} (g : R * R -> X) a x i : length a = length x -> (i < length a)%nat -> nth i (combine a x) (0, 0) = (nth i a 0, nth i x 0).
Proof. intros. now apply combine_nth. Qed.
Lemma dot_gen (g : R * R -> R) a x n : length a = n -> length x = n -> Rsum (map g (combine a x)) = rs n (fun j => g (nth j a 0, nth j x 0)).
Proof.
  intros Ha Hx. rewrite (Rsum_nth _ n) by (rewrite map_length, combine_length; lia). apply Rsum_map_ext. intros i Hi. apply in_seq in Hi.
  rewrite (nth_indep _ 0 (g (0, 0))) by (rewrite map_length, combine_length; lia). rewrite map_nth, combine_nth by lia. reflexivity.
Qed.
Lemma dot_seq a x n : length a = n -> length x = n -> dot_exact (combine a x) = rs n (fun j => nth j a 0 * nth j x 0).
Proof. apply (dot_gen (fun ab => fst ab * snd ab)). Qed.
Lemma dot_abs_seq a x n : length a = n -> length x = n -> dot_abs (combine a x) = rs n (fun j => Rabs (nth j a 0 * nth j x 0)).
Proof. apply (dot_gen (fun ab => Rabs (fst ab * snd ab))). Qed.
Lemma Forall2_len2 {X Y} (P : X -> Y -> Prop) l k : Forall2 P l k -> length l = length k.
Proof. induction 1; cbn; auto. Qed.
Lemma Forall2_nth2 {X Y} (P : X -> Y -> Prop) l k dx dy i : Forall2 P l k -> (i < length l)%nat -> P (nth i l dx) (nth i k dy).
Proof. intros H. revert i. induction H; intros [|i] Hi; cbn in *; try lia; auto. apply IHForall2. lia. Qed.

Section P.
  Variables emin prec : Z.
  Context {Hp : Prec_gt_0 prec}.
  Notation fl := (fl emin prec).
  Notation is_float := (is_float emin prec).
  Notation u := (ulp1 prec).
  Notation bpow := (bpow radix2).
  Notation tiny := (tiny emin).
  Notation sum_eval := (sum_eval emin prec).
  Notation dot_eval := (dot_eval emin prec).
  Notation fdot := (fdot emin prec).
  Notation fsum := (fsum emin prec).
  Notation fmatvec := (fmatvec emin prec).
  Notation fvecmat := (fvecmat emin prec).
  Hint Resolve fl_float float_0 : core.

  Lemma fdot_float x y s : fdot x y s -> is_float s. Proof. intros [d H]. now apply dot_eval_float in H. Qed.

  (** *** norms without underflow *)
  Notation normal_sq := (normal_sq emin prec).
  Lemma fl_rel_u x : bpow (emin + prec - 1) <= Rabs x -> Rabs (fl x - x) <= u * Rabs x.
  Proof. intros H. eapply Rle_trans; [apply fl_rel; auto|]. destruct (u_frac prec). apply Rmult_le_compat_r; [apply Rabs_pos|lra]. Qed.
  Lemma square_eval_rel l d s : dot_eval l d s -> Forall is_square l -> Forall (fun ab => normal_sq (fst ab)) l ->
    Rabs (s - dot_exact l) <= ((1 + u) ^ d - 1) * dot_exact l.
  Proof.
    pose proof (u_pos prec) as U.
    assert (X : forall l, Forall is_square l -> 0 <= dot_exact l).
    { intros k F. apply Rsum_nonneg. rewrite Forall_map. apply Forall_forall. intros [a b] H. rewrite Forall_forall in F. specialize (F _ H). cbv in F. subst. cbn. nra. }
    induction 1 as [|a b|l l1 l2 d1 d2 s1 s2 H1 IH1 H2 IH2 N1 N2 P|l l1 a b d s H IH N P]; intros F G.
    - cbn. rewrite Rminus_0_r, Rabs_R0. lra.
    - inversion F as [|? ? E _]; subst. cbv in E. subst b. inversion G as [|? ? Q _]; subst. cbn in Q. unfold dot_exact. cbn. rewrite Rplus_0_r.
      destruct Q as [->|Q]; [rewrite Rmult_0_l, fl_0, Rminus_0_r, Rabs_R0; lra|].
      eapply Rle_trans; [apply fl_rel_u; rewrite Rabs_pos_eq by nra; exact Q|]. rewrite Rabs_pos_eq by nra. lra.
    - rewrite P in F, G. apply Forall_app in F, G. destruct F as [F1 F2], G as [G1 G2]. specialize (IH1 F1 G1). specialize (IH2 F2 G2).
      rewrite (dot_exact_perm _ _ P), dot_exact_app. pose proof (X l1 F1) as P1. pose proof (X l2 F2) as P2.
      set (d := Nat.max d1 d2) in *.
      assert (W1 : (1 + u) ^ d1 <= (1 + u) ^ d) by (apply pow1u_le; lia). assert (W2 : (1 + u) ^ d2 <= (1 + u) ^ d) by (apply pow1u_le; lia).
      pose proof (fl_err_add emin prec s1 s2 (dot_eval_float _ _ _ _ _ H1) (dot_eval_float _ _ _ _ _ H2)) as E.
      cbn [pow]. set (w := (1 + u) ^ d) in *. assert (W : 1 <= w) by apply pow1u. set (x1 := dot_exact l1) in *. set (x2 := dot_exact l2) in *.
      assert (E1 : Rabs (s1 - x1) <= (w - 1) * x1) by (eapply Rle_trans; [exact IH1|]; apply Rmult_le_compat_r; lra).
      assert (E2 : Rabs (s2 - x2) <= (w - 1) * x2) by (eapply Rle_trans; [exact IH2|]; apply Rmult_le_compat_r; lra).
      assert (M : Rabs (s1 + s2) <= w * (x1 + x2)).
      { replace (s1 + s2) with ((s1 - x1) + (s2 - x2) + (x1 + x2)) by ring. eapply Rle_trans; [apply Rabs_triang|]. rewrite (Rabs_pos_eq (x1 + x2)) by lra.
        pose proof (Rabs_triang (s1 - x1) (s2 - x2)). lra. }
      replace (fl (s1 + s2) - (x1 + x2)) with ((fl (s1 + s2) - (s1 + s2)) + ((s1 - x1) + (s2 - x2))) by ring.
      eapply Rle_trans; [apply Rabs_triang|]. eapply Rle_trans; [apply Rplus_le_compat_l, Rabs_triang|].
      assert (u * Rabs (s1 + s2) <= u * (w * (x1 + x2))) by (apply Rmult_le_compat_l; lra). lra.
    - rewrite P in F, G. inversion F as [|? ? E F']; subst. cbv in E. subst b. inversion G as [|? ? Q G']; subst. cbn in Q. specialize (IH F' G').
      rewrite (dot_exact_perm _ _ P). change (dot_exact ((a, a) :: l1)) with (a * a + dot_exact l1). pose proof (X l1 F') as P1.
      pose proof (square_eval_nonneg _ _ _ _ _ H F') as Ps.
      assert (E : Rabs (fl (a * a + s) - (a * a + s)) <= u * (a * a + s)).
      { destruct Q as [->|Q].
        - rewrite Rmult_0_l, Rplus_0_l, fl_id by (eapply dot_eval_float; eauto). rewrite Rminus_eq_0, Rabs_R0. nra.
        - eapply Rle_trans; [apply fl_rel_u; rewrite Rabs_pos_eq by nra; lra|]. rewrite Rabs_pos_eq by nra. lra. }
      cbn [pow]. set (w := (1 + u) ^ d) in *. assert (W : 1 <= w) by apply pow1u. set (x1 := dot_exact l1) in *.
      assert (M : s <= w * x1) by (pose proof (Rle_abs (s - x1)); lra).
      replace (fl (a * a + s) - (a * a + x1)) with ((fl (a * a + s) - (a * a + s)) + (s - x1)) by ring.
      eapply Rle_trans; [apply Rabs_triang|]. assert (u * s <= u * (w * x1)) by (apply Rmult_le_compat_l; lra).
      assert (0 <= a * a) by nra. assert (0 <= (1 + u) * (w - 1) * (a * a)) by (apply Rmult_le_pos; [apply Rmult_le_pos|]; lra). lra.
  Qed.
  Lemma fnorm_error x r : (emin + 2 * prec <= 2)%Z -> fnorm emin prec x r -> Forall normal_sq x ->
    Rabs (r - sqrt (dot_exact (combine x x))) <= ((1 + u) ^ S (length x) - 1) * sqrt (dot_exact (combine x x)).
  Proof.
    intros He [s [[d H] ->]] F. pose proof (u_pos prec) as U. set (S := dot_exact (combine x x)).
    assert (G : Forall (fun ab : R * R => normal_sq (fst ab)) (combine x x)).
    { apply Forall_forall. intros [a b] Hab. apply in_combine_l in Hab. rewrite Forall_forall in F. apply F, Hab. }
    pose proof (square_eval_rel _ _ _ H (squares_combine x) G) as E. fold S in E.
    pose proof (square_eval_nonneg _ _ _ _ _ H (squares_combine x)) as Ps.
    assert (PS : 0 <= S).
    { unfold S. apply Rsum_nonneg. rewrite Forall_map. apply Forall_forall. intros [a b] Hab. pose proof (squares_combine x) as Q. rewrite Forall_forall in Q. specialize (Q _ Hab). cbv in Q. subst. cbn. nra. }
    pose proof (dot_eval_depth _ _ _ _ _ H) as D. rewrite combine_length, Nat.min_id in D.
    assert (W : (1 + u) ^ d <= (1 + u) ^ length x) by (apply pow1u_le; auto).
    cbn [pow]. set (w := (1 + u) ^ length x) in *. assert (W1 : 1 <= w) by apply pow1u.
    assert (E' : Rabs (s - S) <= (w - 1) * S) by (eapply Rle_trans; [exact E|]; apply Rmult_le_compat_r; lra). clear E.
    assert (B : Rabs (sqrt s - sqrt S) <= (w - 1) * sqrt S).
    { destruct (Req_dec S 0) as [Z|Z].
      - rewrite Z in *. rewrite Rmult_0_r, Rminus_0_r in E'. assert (s = 0) by (pose proof (Rle_abs s); lra). subst. rewrite sqrt_0, Rminus_0_r, Rabs_R0. lra.
      - assert (Q : 0 < sqrt S) by (apply sqrt_lt_R0; lra). pose proof (sqrt_pos s) as Q2.
        apply Rmult_le_reg_r with (sqrt s + sqrt S); [lra|]. rewrite <- (Rabs_pos_eq (sqrt s + sqrt S)) at 1 by lra. rewrite <- Rabs_mult.
        replace ((sqrt s - sqrt S) * (sqrt s + sqrt S)) with (s - S) by (pose proof (sqrt_sqrt s Ps); pose proof (sqrt_sqrt S PS); lra).
        eapply Rle_trans; [exact E'|]. rewrite <- (sqrt_sqrt S PS) at 1.
        assert (0 <= (w - 1) * sqrt S * sqrt s) by (apply Rmult_le_pos; [apply Rmult_le_pos|]; lra). lra. }
    assert (C : Rabs (fl (sqrt s) - sqrt s) <= u * sqrt s).
    { destruct (Req_dec s 0) as [Z|Z]; [rewrite Z, sqrt_0, fl_0, Rminus_0_r, Rabs_R0; lra|].
      pose proof (sqrt_pos s) as Q2. rewrite <- (Rabs_pos_eq (sqrt s)) at 3 by auto. apply fl_rel_u. rewrite Rabs_pos_eq by auto.
      (* s >= bpow emin, a float; sqrt s >= bpow (emin + prec - 1) *)
      assert (Fs : is_float s) by (eapply dot_eval_float; eauto).
      assert (Ls : bpow emin <= s).
      { destruct (Rle_or_lt (bpow emin) s) as [|L]; auto. exfalso. apply Z. 
        assert (Q : s <= 0); [|lra]. 
        assert (Hu : ulp radix2 (FLT_exp emin prec) s = bpow emin). { apply ulp_FLT_small; [exact Hp|]. rewrite Rabs_pos_eq by auto. eapply Rlt_le_trans; [exact L|]. apply bpow_le. pose proof Hp as Q; unfold Prec_gt_0 in Q. lia. }
        destruct (Rle_or_lt s 0) as [|L2]; auto. exfalso.
        assert (V : ulp radix2 (FLT_exp emin prec) s <= s) by (apply ulp_le_id; [exact L2|exact Fs]). rewrite Hu in V. lra. }
      apply Rsqr_incr_0_var; [|auto]. unfold Rsqr. rewrite sqrt_sqrt by auto. 
      rewrite <- bpow_plus. eapply Rle_trans; [|exact Ls]. apply bpow_le. lia. }
    replace (fl (sqrt s) - sqrt S) with ((fl (sqrt s) - sqrt s) + (sqrt s - sqrt S)) by ring.
    eapply Rle_trans; [apply Rabs_triang|].
    assert (sqrt s <= w * sqrt S) by (pose proof (Rle_abs (sqrt s - sqrt S)); lra).
    assert (u * sqrt s <= u * (w * sqrt S)) by (apply Rmult_le_compat_l; lra). lra.
  Qed.
End P.
