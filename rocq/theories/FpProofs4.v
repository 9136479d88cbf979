From Coq Require Import List Arith ZArith Reals Lra Lia Permutation.
From Flocq Require Import Core.
From Verif Require Import FpSpec FpModel FpProofs FpLinModel FpProofs2 FpProofs3.
Notation rs n f := (Rsum (map f (seq 0 n))) (only parsing).
Import ListNotations.
Local Open Scope R_scope.

Lemma nth_unit n i j : (j < n)%nat -> nth j (unit_vec n i) 0 = if Nat.eqb j i then 1 else 0.
Proof.
  intros H. unfold unit_vec. rewrite (nth_indep _ 0 ((fun j => if Nat.eqb j i then 1 else 0) 0%nat)) by (rewrite map_length, seq_length; auto).
  rewrite (map_nth (fun j => if Nat.eqb j i then 1 else 0)), seq_nth by auto. reflexivity.
Qed.
Lemma rs_single n (f : nat -> R) i : (i < n)%nat -> rs n (fun j => if Nat.eqb j i then f j else 0) = f i.
Proof.
  intros H. assert (G : forall k a, (a <= i < a + k)%nat -> Rsum (map (fun j => if Nat.eqb j i then f j else 0) (seq a k)) = f i).
  { induction k as [|k IH]; intros a Ha; [lia|]. cbn [seq map]. rewrite Rsum_cons. destruct (Nat.eqb_spec a i) as [->|Ne].
    - replace (Rsum _) with 0; [ring|]. symmetry. transitivity (Rsum (map (fun _ => 0) (seq (S i) k))); [|apply Rsum_map_zero]. apply Rsum_map_ext. intros j Hj. apply in_seq in Hj. destruct (Nat.eqb_spec j i); auto; lia.
    - rewrite IH by lia. ring. }
  apply G. lia.
Qed.

Section P.
  Variables emin prec : Z.
  Context {Hp : Prec_gt_0 prec}.
  Notation fl := (fl emin prec).
  Notation is_float := (is_float emin prec).
  Notation u := (ulp1 prec).
  Notation bpow := (bpow radix2).
  Notation tiny := (tiny emin).
  Notation sum_eval := (sum_eval emin prec).
  Notation dot_eval := (dot_eval emin prec).
  Notation fdot := (fdot emin prec).
  Notation fsum := (fsum emin prec).
  Notation fmatvec := (fmatvec emin prec).
  Notation fvecmat := (fvecmat emin prec).
  Hint Resolve fl_float float_0 : core.

  (** *** the adjoint identity of a matrix *)
  Lemma dot_two v p s m (e G : nat -> R) al de : length v = m -> length p = m -> fdot v p s -> 1 <= al -> 0 <= de ->
    (forall i, (i < m)%nat -> Rabs (nth i p 0 - e i) <= (al - 1) * G i + de) -> (forall i, (i < m)%nat -> Rabs (e i) <= G i) ->
    Rabs (s - rs m (fun i => nth i v 0 * e i)) <=
      ((1 + u) ^ m * al - 1) * rs m (fun i => Rabs (nth i v 0) * G i) + (1 + u) ^ m * de * rs m (fun i => Rabs (nth i v 0)) + INR m * tiny * (1 + u) ^ m.
  Proof.
    intros Hv Hpl Hd Hal Hde He HG. pose proof (fdot_error _ _ _ _ _ Hd) as E. rewrite combine_length, Hv, Hpl, Nat.min_id in E.
    rewrite (dot_seq v p m Hv Hpl), (dot_abs_seq v p m Hv Hpl) in E. set (w := (1 + u) ^ m) in *. assert (W : 1 <= w) by apply pow1u.
    set (B := rs m (fun i => Rabs (nth i v 0) * G i)). set (V := rs m (fun i => Rabs (nth i v 0))).
    assert (E1 : rs m (fun j => Rabs (nth j v 0 * nth j p 0)) <= al * B + de * V).
    { unfold B, V. rewrite <- !Rsum_map_scal, <- Rsum_map_plus. apply Rsum_map_le. intros i Hi. apply in_seq in Hi. rewrite Rabs_mult.
      pose proof (He i ltac:(lia)). pose proof (HG i ltac:(lia)). pose proof (Rabs_pos (nth i v 0)).
      assert (Rabs (nth i p 0) <= al * G i + de). { replace (nth i p 0) with ((nth i p 0 - e i) + e i) by ring. eapply Rle_trans; [apply Rabs_triang|]. lra. }
      replace (al * (Rabs (nth i v 0) * G i) + de * Rabs (nth i v 0)) with (Rabs (nth i v 0) * (al * G i + de)) by ring. apply Rmult_le_compat_l; auto. }
    assert (E2 : Rabs (rs m (fun j => nth j v 0 * nth j p 0) - rs m (fun i => nth i v 0 * e i)) <= (al - 1) * B + de * V).
    { unfold B, V. rewrite <- !Rsum_map_scal, <- Rsum_map_plus.
      replace (rs m (fun j => nth j v 0 * nth j p 0) - rs m (fun i => nth i v 0 * e i)) with (rs m (fun i => nth i v 0 * (nth i p 0 - e i))).
      2:{ rewrite <- (Rmult_1_l (rs m (fun i => nth i v 0 * e i))). unfold Rminus at 2. rewrite Ropp_mult_distr_l, <- Rsum_map_scal, <- Rsum_map_plus. apply Rsum_map_ext. intros. ring. }
      eapply Rle_trans; [apply Rsum_map_abs|]. apply Rsum_map_le. intros i Hi. apply in_seq in Hi. rewrite Rabs_mult. pose proof (He i ltac:(lia)). pose proof (Rabs_pos (nth i v 0)).
      replace ((al - 1) * (Rabs (nth i v 0) * G i) + de * Rabs (nth i v 0)) with (Rabs (nth i v 0) * ((al - 1) * G i + de)) by ring. apply Rmult_le_compat_l; auto. }
    set (P := rs m (fun j => nth j v 0 * nth j p 0)) in *. set (T := rs m (fun i => nth i v 0 * e i)) in *. set (Q := rs m (fun j => Rabs (nth j v 0 * nth j p 0))) in *.
    replace (s - T) with ((s - P) + (P - T)) by ring. eapply Rle_trans; [apply Rabs_triang|].
    assert ((w - 1) * Q <= (w - 1) * (al * B + de * V)) by (apply Rmult_le_compat_l; lra). lra.
  Qed.

  Lemma matrix_row m n A i : is_matrix m n A -> (i < m)%nat -> length (nth i A []) = n.
  Proof. intros [L F] H. rewrite Forall_forall in F. apply F, nth_In. lia. Qed.
  Lemma matvec_error m n A x p i : is_matrix m n A -> length x = n -> fmatvec A x p -> (i < m)%nat ->
    Rabs (nth i p 0 - dot_exact (combine (nth i A []) x)) <= ((1 + u) ^ n - 1) * dot_abs (combine (nth i A []) x) + INR n * tiny * (1 + u) ^ n.
  Proof.
    intros HA Hx H Hi. pose proof (matrix_row m n A i HA Hi) as HL. destruct HA as [L F].
    pose proof (Forall2_nth2 _ _ _ [] 0 i H ltac:(lia)) as Hd. cbv beta in Hd.
    pose proof (fdot_error _ _ _ _ _ Hd) as E. rewrite combine_length, HL, Hx, Nat.min_id in E. exact E.
  Qed.
  Definition col (A : list (list R)) j : list R := map (fun row => nth j row 0) A.
  Lemma nth_col A i j : (i < length A)%nat -> nth i (col A j) 0 = nth j (nth i A []) 0.
  Proof.
    intros H. unfold col. rewrite (nth_indep _ 0 ((fun row : list R => nth j row 0) [])) by (rewrite map_length; auto). now rewrite (map_nth (fun row : list R => nth j row 0)).
  Qed.
  Lemma vecmat_error m n A v q j : is_matrix m n A -> length v = m -> fvecmat n A v q -> (j < n)%nat ->
    Rabs (nth j q 0 - dot_exact (combine (col A j) v)) <= ((1 + u) ^ m - 1) * dot_abs (combine (col A j) v) + INR m * tiny * (1 + u) ^ m.
  Proof.
    intros [L F] Hv H Hj. pose proof (Forall2_nth2 _ _ _ 0%nat 0 j H ltac:(rewrite seq_length; lia)) as Hd. cbv beta in Hd.
    rewrite seq_nth in Hd by auto. pose proof (fdot_error _ _ _ _ _ Hd) as E. rewrite combine_length, map_length, L, Hv, Nat.min_id in E. exact E.
  Qed.
  (** v^T A x, and the same with every factor replaced by its magnitude *)
  Definition bil (m n : nat) (A : list (list R)) (v x : list R) : R := rs m (fun i => rs n (fun j => nth i v 0 * nth j (nth i A []) 0 * nth j x 0)).
  Lemma adjoint_rounded m n A x v p q yy xx : is_matrix m n A -> length x = n -> length v = m ->
    fmatvec A x p -> fvecmat n A v q -> fdot p v yy -> fdot x q xx ->
    Rabs (yy - xx) <= 2 * ((1 + u) ^ (m + n) - 1) * bil_abs m n A v x
      + tiny * ((1 + u) ^ (m + n) * (INR n * rs m (fun i => Rabs (nth i v 0)) + INR m * rs n (fun j => Rabs (nth j x 0))) + INR m * (1 + u) ^ m + INR n * (1 + u) ^ n).
  Proof.
    intros HA Hx Hv Hm Hq Hyy Hxx. pose proof (tiny_pos emin) as T.
    assert (Lp : length p = m) by (rewrite <- (Forall2_len2 _ _ _ Hm); apply HA).
    assert (Lq : length q = n) by (rewrite <- (Forall2_len2 _ _ _ Hq), seq_length; auto).
    assert (Hyy' : fdot v p yy).
    { destruct Hyy as [d Hd]. exists d. revert Hd. clear -Lp Hv. intros Hd.
      assert (Sw : forall l d s, dot_eval l d s -> dot_eval (map (fun ab => (snd ab, fst ab)) l) d s).
      { clear. induction 1 as [|a b|l l1 l2 d1 d2 s1 s2 H1 IH1 H2 IH2 N1 N2 P|l l1 a b d s H IH N P]; cbn.
        - constructor.
        - rewrite (Rmult_comm a b). constructor.
        - apply dot_add with (map (fun ab => (snd ab, fst ab)) l1) (map (fun ab => (snd ab, fst ab)) l2); auto; [destruct l1; cbn; congruence|destruct l2; cbn; congruence|]. rewrite <- map_app. now apply Permutation_map.
        - rewrite (Rmult_comm a b). apply dot_fma with (map (fun ab => (snd ab, fst ab)) l1); auto; [destruct l1; cbn; congruence|]. apply (Permutation_map (fun ab : R * R => (snd ab, fst ab))) in P. exact P. }
      apply Sw in Hd. replace (combine v p) with (map (fun ab : R * R => (snd ab, fst ab)) (combine p v)); auto.
      clear Hd. revert p Lp. subst m. induction v as [|a v IH]; intros [|b p] L; cbn in *; try lia; auto. f_equal. apply IH. lia. }
    pose proof (pow1u prec n) as Wn. pose proof (pow1u prec m) as Wm.
    pose proof (pos_INR n) as In. pose proof (pos_INR m) as Im.
    assert (Dn : 0 <= INR n * tiny * (1 + u) ^ n) by (apply Rmult_le_pos; [apply Rmult_le_pos|]; lra).
    assert (Dm : 0 <= INR m * tiny * (1 + u) ^ m) by (apply Rmult_le_pos; [apply Rmult_le_pos|]; lra).
    pose proof (dot_two v p yy m (fun i => dot_exact (combine (nth i A []) x)) (fun i => dot_abs (combine (nth i A []) x)) ((1 + u) ^ n) (INR n * tiny * (1 + u) ^ n)
      Hv Lp Hyy' Wn Dn (fun i Hi => matvec_error m n A x p i HA Hx Hm Hi) (fun i Hi => dot_exact_le _)) as E1.
    pose proof (dot_two x q xx n (fun j => dot_exact (combine (col A j) v)) (fun j => dot_abs (combine (col A j) v)) ((1 + u) ^ m) (INR m * tiny * (1 + u) ^ m)
      Hx Lq Hxx Wm Dm (fun j Hj => vecmat_error m n A v q j HA Hv Hq Hj) (fun j Hj => dot_exact_le _)) as E2.
    assert (Lc : forall j, length (col A j) = m) by (intros j; unfold col; rewrite map_length; apply HA).
    assert (X1 : rs m (fun i => nth i v 0 * dot_exact (combine (nth i A []) x)) = bil m n A v x).
    { unfold bil. apply Rsum_map_ext. intros i Hi. apply in_seq in Hi. rewrite (dot_seq _ x n); [|apply (matrix_row m n); auto; lia|auto]. rewrite <- Rsum_map_scal. apply Rsum_map_ext. intros. ring. }
    assert (X2 : rs n (fun j => nth j x 0 * dot_exact (combine (col A j) v)) = bil m n A v x).
    { unfold bil. rewrite Rsum_swap. apply Rsum_map_ext. intros j Hj. apply in_seq in Hj. rewrite (dot_seq _ v m); auto. rewrite <- Rsum_map_scal. apply Rsum_map_ext. intros i Hi. apply in_seq in Hi. rewrite nth_col by (destruct HA; lia). ring. }
    assert (X3 : rs m (fun i => Rabs (nth i v 0) * dot_abs (combine (nth i A []) x)) = bil_abs m n A v x).
    { unfold bil_abs, FpSpec.rs. apply Rsum_map_ext. intros i Hi. apply in_seq in Hi. rewrite (dot_abs_seq _ x n); [|apply (matrix_row m n); auto; lia|auto]. rewrite <- Rsum_map_scal. apply Rsum_map_ext. intros. rewrite Rabs_mult. ring. }
    assert (X4 : rs n (fun j => Rabs (nth j x 0) * dot_abs (combine (col A j) v)) = bil_abs m n A v x).
    { unfold bil_abs, FpSpec.rs. rewrite Rsum_swap. apply Rsum_map_ext. intros j Hj. apply in_seq in Hj. rewrite (dot_abs_seq _ v m); auto. rewrite <- Rsum_map_scal. apply Rsum_map_ext. intros i Hi. apply in_seq in Hi. rewrite nth_col by (destruct HA; lia). rewrite Rabs_mult. ring. }
    cbv beta in E1, E2. rewrite X1, X3 in E1. rewrite X2, X4 in E2. rewrite pow_add.
    replace (yy - xx) with ((yy - bil m n A v x) - (xx - bil m n A v x)) by ring. eapply Rle_trans; [apply Rabs_triang|]. rewrite Rabs_Ropp.
    eapply Rle_trans; [apply Rplus_le_compat; [exact E1|exact E2]|]. apply Req_le. ring.
  Qed.

  (** *** running sums and differences *)
  Lemma firstn_sum l i : (i < length l)%nat -> Rsum (firstn (S i) l) = Rsum (firstn i l) + nth i l 0.
  Proof.
    revert i. induction l as [|a l IH]; intros i H; cbn [length] in H; [lia|]. destruct i as [|i]; [cbn; ring|].
    cbn [nth]. rewrite firstn_cons, Rsum_cons, IH by lia. rewrite firstn_cons, Rsum_cons. ring.
  Qed.
  Lemma firstn_abs_le l i : Rsum (map Rabs (firstn i l)) <= Rsum (map Rabs l).
  Proof.
    rewrite <- (firstn_skipn i l) at 2. rewrite map_app, Rsum_app. pose proof (Rsum_abs_pos (skipn i l)). lra.
  Qed.
  Lemma fcumsum_error x y i : fcumsum emin prec x y -> Forall is_float x -> (i < length x)%nat ->
    is_float (nth i y 0) /\ Rabs (nth i y 0 - Rsum (firstn (S i) x)) <= ((1 + u) ^ i - 1) * Rsum (map Rabs (firstn (S i) x)).
  Proof.
    intros H F Hi. pose proof (Forall2_nth2 _ _ _ 0%nat 0 i H ltac:(rewrite seq_length; lia)) as Hs. cbv beta in Hs. rewrite seq_nth in Hs by auto. change (0 + i)%nat with i in Hs.
    assert (F' : Forall is_float (firstn (S i) x)). { rewrite <- (firstn_skipn (S i) x) in F. apply Forall_app in F. apply F. }
    split; [destruct Hs as [d Hs]; eapply sum_eval_float; eauto|].
    pose proof (fsum_error _ _ _ _ Hs F') as E. rewrite firstn_length, Nat.min_l in E by lia. replace (S i - 1)%nat with i in E by lia. exact E.
  Qed.
  Lemma nth_fdiff y i : (i < length y)%nat -> nth i (fdiff emin prec y) 0 = fl (nth i y 0 - match i with O => 0 | S k => nth k y 0 end).
  Proof.
    intros H. unfold fdiff. rewrite (nth_indep _ 0 ((fun ab : R * R => fl (fst ab - snd ab)) (0, 0))) by (rewrite map_length, combine_length; cbn [length]; lia).
    rewrite (map_nth (fun ab : R * R => fl (fst ab - snd ab))).
    assert (G : nth i (combine y (0 :: y)) (0, 0) = (nth i y 0, nth i (0 :: y) 0)).
    { rewrite <- (firstn_all2 (n := length (0 :: y)) (0 :: y)) at 1 by lia.
      assert (Q : forall (a b : list R) i, (i < length a)%nat -> (i < length b)%nat -> nth i (combine a b) (0, 0) = (nth i a 0, nth i b 0)).
      { clear. induction a as [|c a IH]; intros [|d b] i Ha Hb; cbn [length] in *; try lia. destruct i; cbn; auto. apply IH; lia. }
      rewrite firstn_all2 by lia. apply Q; cbn [length]; lia. }
    rewrite G. cbn [fst snd]. destruct i; reflexivity.
  Qed.
  Lemma diff_cumsum_error x y i : fcumsum emin prec x y -> Forall is_float x -> (i < length x)%nat ->
    Rabs (nth i (fdiff emin prec y) 0 - nth i x 0) <= 2 * ((1 + u) ^ length x - 1) * Rsum (map Rabs x).
  Proof.
    intros H F Hi. pose proof (u_pos prec) as U. assert (Ly : length y = length x) by (rewrite <- (Forall2_len2 _ _ _ H), seq_length; auto).
    rewrite nth_fdiff by lia. set (T := Rsum (map Rabs x)). assert (PT : 0 <= T) by apply Rsum_abs_pos.
    set (w := (1 + u) ^ (length x - 1)). assert (W : 1 <= w) by apply pow1u.
    replace ((1 + u) ^ length x) with ((1 + u) * w) by (unfold w; replace (length x) with (S (length x - 1)) at 2 by lia; reflexivity).
    assert (B : forall k, (k < length x)%nat -> is_float (nth k y 0) /\ Rabs (nth k y 0 - Rsum (firstn (S k) x)) <= (w - 1) * T).
    { intros k Hk. destruct (fcumsum_error x y k H F Hk) as [Fk Ek]. split; auto. eapply Rle_trans; [exact Ek|].
      assert ((1 + u) ^ k <= w) by (apply pow1u_le; lia). pose proof (pow1u prec k). pose proof (firstn_abs_le x (S k)) as Q. fold T in Q. pose proof (Rsum_abs_pos (firstn (S k) x)).
      apply Rmult_le_compat; lra. }
    destruct (B i Hi) as [Fi Ei]. rewrite firstn_sum in Ei by auto.
    assert (Xi : Rabs (nth i x 0) <= T).
    { pose proof (firstn_abs_le x (S i)) as Q. fold T in Q. rewrite <- (firstn_skipn i (firstn (S i) x)) in Q. rewrite map_app, Rsum_app in Q.
      pose proof (Rsum_abs_pos (firstn i (firstn (S i) x))). 
      assert (V : Rsum (map Rabs (skipn i (firstn (S i) x))) = Rabs (nth i x 0)).
      { clear -Hi. revert i Hi. induction x as [|a x IH]; intros i Hi; cbn [length] in Hi; [lia|]. destruct i; [cbn; ring|]. rewrite firstn_cons. cbn [skipn nth]. apply IH. lia. }
      lra. }
    assert (C : exists b, is_float b /\ Rabs (b - Rsum (firstn i x)) <= (w - 1) * T /\ match i with O => 0 | S k => nth k y 0 end = b).
    { destruct i as [|k]; [exists 0; repeat split; auto; cbn; rewrite Rminus_0_r, Rabs_R0; apply Rmult_le_pos; lra|].
      destruct (B k ltac:(lia)) as [Fk Ek]. eauto. }
    destruct C as [b [Fb [Eb ->]]]. pose proof (fl_err_sub emin prec _ _ Fi Fb) as E.
    set (a := nth i y 0) in *. set (xi := nth i x 0) in *. set (s := Rsum (firstn i x)) in *.
    assert (D : Rabs ((a - b) - xi) <= 2 * ((w - 1) * T)).
    { replace (a - b - xi) with ((a - (s + xi)) - (b - s)) by ring. eapply Rle_trans; [apply Rabs_triang|]. rewrite Rabs_Ropp. lra. }
    assert (D2 : Rabs (a - b) <= T + 2 * ((w - 1) * T)).
    { replace (a - b) with ((a - b - xi) + xi) by ring. eapply Rle_trans; [apply Rabs_triang|]. lra. }
    replace (fl (a - b) - xi) with ((fl (a - b) - (a - b)) + (a - b - xi)) by ring. eapply Rle_trans; [apply Rabs_triang|].
    assert (u * Rabs (a - b) <= u * (T + 2 * ((w - 1) * T))) by (apply Rmult_le_compat_l; lra).
    assert (0 <= u * T) by (apply Rmult_le_pos; lra). lra.
  Qed.

  (** *** residual updates *)
  Lemma fl_err_post z : Rabs (fl z - z) <= u * Rabs (fl z) + tiny.
  Proof.
    pose proof (u_pos prec) as U. pose proof (tiny_pos emin) as T.
    destruct (Rle_or_lt (bpow (emin + prec - 1)) (Rabs z)) as [H|H].
    - pose proof (fl_rel emin prec z H) as E. assert (R1 : Rabs z <= (1 + u) * Rabs (fl z)).
      { assert (Rabs z <= Rabs (fl z - z) + Rabs (fl z)).
        { replace z with (- (fl z - z) + fl z) at 1 by ring. eapply Rle_trans; [apply Rabs_triang|]. rewrite Rabs_Ropp. lra. }
        assert (Rabs z * (1 - u / (1 + u)) <= Rabs (fl z)) by lra. replace (1 - u / (1 + u)) with (/ (1 + u)) in H1 by (field; lra).
        apply (Rmult_le_compat_l (1 + u)) in H1; [|lra]. replace ((1 + u) * (Rabs z * / (1 + u))) with (Rabs z) in H1 by (field; lra). exact H1. }
      eapply Rle_trans; [exact E|]. apply Rle_trans with (u / (1 + u) * ((1 + u) * Rabs (fl z))).
      + apply Rmult_le_compat_l; [|exact R1]. destruct (u_frac prec). lra.
      + replace (u / (1 + u) * ((1 + u) * Rabs (fl z))) with (u * Rabs (fl z)) by (field; lra). lra.
    - pose proof (error_le_half_ulp radix2 (FLT_exp emin prec) (fun t => negb (Z.even t)) z) as E.
      change (Rabs (fl z - z) <= / 2 * ulp radix2 (FLT_exp emin prec) z) in E. rewrite ulp_FLT_small in E; [|exact Hp|eapply Rlt_le_trans; [exact H|apply bpow_le; lia]].
      rewrite tiny_eq in E. pose proof (Rabs_pos (fl z)). assert (0 <= u * Rabs (fl z)) by (apply Rmult_le_pos; lra). lra.
  Qed.
  Lemma fmuladd_float s a b v : fmuladd emin prec s a b v -> is_float v. Proof. intros [->| ->]; auto. Qed.
  Lemma fmuladd_err s a b v : is_float s -> fmuladd emin prec s a b v -> Rabs (v - (s + a * b)) <= u * (Rabs v + Rabs (a * b)) + tiny.
  Proof.
    pose proof (u_pos prec) as U. pose proof (tiny_pos emin) as T. intros Fs [->| ->].
    - pose proof (fl_err_add_post emin prec s (fl (a * b)) Fs ltac:(auto)) as E. pose proof (fl_err emin prec (a * b)) as E2.
      replace (fl (s + fl (a * b)) - (s + a * b)) with ((fl (s + fl (a * b)) - (s + fl (a * b))) + (fl (a * b) - a * b)) by ring. eapply Rle_trans; [apply Rabs_triang|]. lra.
    - pose proof (fl_err_post (s + a * b)) as E. pose proof (Rabs_pos (a * b)). assert (0 <= u * Rabs (a * b)) by (apply Rmult_le_pos; lra). lra.
  Qed.
  (** a product with a unit vector is exact *)
  Lemma dot_zeros l d s : dot_eval l d s -> Forall (fun ab => snd ab = 0) l -> s = 0.
  Proof.
    induction 1 as [|a b|l l1 l2 d1 d2 s1 s2 H1 IH1 H2 IH2 N1 N2 P|l l1 a b d s H IH N P]; intros F; auto.
    - inversion F; cbn in *; subst. rewrite Rmult_0_r. apply fl_0.
    - rewrite P in F. apply Forall_app in F. destruct F. rewrite IH1, IH2, Rplus_0_r by auto. apply fl_0.
    - rewrite P in F. inversion F; cbn in *; subst. rewrite Rmult_0_r, IH, Rplus_0_r by auto. apply fl_0.
  Qed.
  Lemma dot_unit l d s : dot_eval l d s -> forall a l', is_float a -> Permutation l ((a, 1) :: l') -> Forall (fun ab => snd ab = 0) l' -> s = a.
  Proof.
    assert (Sp : forall (l1 l2 : list (R * R)) a l', Permutation (l1 ++ l2) ((a, 1) :: l') ->
      (exists k, Permutation l1 ((a, 1) :: k) /\ Permutation l' (k ++ l2)) \/ (exists k, Permutation l2 ((a, 1) :: k) /\ Permutation l' (l1 ++ k))).
    { intros l1 l2 a l' P. assert (I1 : In (a, 1) (l1 ++ l2)) by (eapply Permutation_in; [symmetry; exact P|left; auto]).
      apply in_app_or in I1. destruct I1 as [I1|I1]; apply in_split in I1; destruct I1 as [p [q E]]; subst.
      - left. exists (p ++ q). split; [symmetry; apply Permutation_middle|]. apply (Permutation_cons_inv (a := (a, 1))). rewrite <- P, <- !app_assoc. cbn. symmetry. apply Permutation_middle.
      - right. exists (p ++ q). split; [symmetry; apply Permutation_middle|]. apply (Permutation_cons_inv (a := (a, 1))). rewrite <- P, !app_assoc. symmetry. apply Permutation_middle. }
    induction 1 as [|a b|l l1 l2 d1 d2 s1 s2 H1 IH1 H2 IH2 N1 N2 P|l l1 a b d s H IH N P]; intros a' l' Fa Pl Z.
    - apply Permutation_nil in Pl. discriminate.
    - apply Permutation_length_1_inv in Pl. inversion Pl; subst. rewrite Rmult_1_r. now apply fl_id.
    - rewrite P in Pl. apply Sp in Pl. destruct Pl as [[k [P1 P2]]|[k [P1 P2]]]; rewrite P2 in Z; apply Forall_app in Z; destruct Z as [Z1 Z2].
      + rewrite (IH1 a' k Fa P1 Z1), (dot_zeros _ _ _ H2 Z2), Rplus_0_r. now apply fl_id.
      + rewrite (dot_zeros _ _ _ H1 Z1), (IH2 a' k Fa P1 Z2), Rplus_0_l. now apply fl_id.
    - rewrite P in Pl. change ((a, b) :: l1) with ([(a, b)] ++ l1) in Pl. apply Sp in Pl. destruct Pl as [[k [P1 P2]]|[k [P1 P2]]]; rewrite P2 in Z; apply Forall_app in Z; destruct Z as [Z1 Z2].
      + apply Permutation_length_1_inv in P1. inversion P1; subst. rewrite (dot_zeros _ _ _ H Z2), Rmult_1_r, Rplus_0_r. now apply fl_id.
      + inversion Z1; cbn in *; subst. rewrite Rmult_0_r, Rplus_0_l, (IH a' k Fa P1 Z2). now apply fl_id.
  Qed.
  Lemma combine_split (a x : list R) i : length a = length x -> (i < length a)%nat ->
    combine a x = combine (firstn i a) (firstn i x) ++ (nth i a 0, nth i x 0) :: combine (skipn (S i) a) (skipn (S i) x).
  Proof.
    revert a x. induction i as [|i IH]; intros [|b a] [|y x] L H; cbn [length] in *; try lia; [reflexivity|].
    cbn [combine firstn skipn nth app]. rewrite (IH a x) by lia. reflexivity.
  Qed.
  Lemma matvec_unit m n A i atom t : is_matrix m n A -> Forall (Forall is_float) A -> (i < n)%nat -> fmatvec A (unit_vec n i) atom -> (t < m)%nat -> nth t atom 0 = nth i (nth t A []) 0.
  Proof.
    intros HA FA Hi H Ht. pose proof (matrix_row m n A t HA Ht) as HL. destruct HA as [L F]. pose proof (Forall2_nth2 _ _ _ [] 0 t H ltac:(lia)) as [d Hd].
    assert (Lu : length (unit_vec n i) = n) by (unfold unit_vec; rewrite map_length, seq_length; auto).
    rewrite (combine_split _ _ i) in Hd by lia. rewrite nth_unit, Nat.eqb_refl in Hd by auto.
    eapply (dot_unit _ _ _ Hd); [|symmetry; apply Permutation_middle|].
    - rewrite Forall_forall in FA. assert (Q : Forall is_float (nth t A [])) by (apply FA, nth_In; lia). rewrite Forall_forall in Q. apply Q, nth_In. lia.
    - apply Forall_forall. intros [a b] Hab. cbn. apply in_app_or in Hab. destruct Hab as [Hab|Hab]; apply in_combine_r in Hab; apply (In_nth _ _ 0) in Hab; destruct Hab as [k [Hk <-]].
      + rewrite firstn_length in Hk.
        assert (Q : forall (l : list R) p k, (k < p)%nat -> nth k (firstn p l) 0 = nth k l 0). { clear. induction l as [|a l IH]; intros [|p] [|k] H; cbn; try lia; auto. apply IH. lia. }
        rewrite Q by lia. rewrite nth_unit by lia. destruct (Nat.eqb_spec k i); auto; lia.
      + rewrite skipn_length in Hk.
        assert (Q : forall (l : list R) p k, nth k (skipn p l) 0 = nth (p + k) l 0). { clear. induction l as [|a l IH]; intros [|p] k; cbn; try (destruct k; auto; fail); auto. }
        rewrite Q. rewrite nth_unit by lia. destruct (Nat.eqb_spec (S i + k) i); auto; lia.
  Qed.

  (** *** matching pursuit *)
  Definition mp_loss (A : list (list R)) (t : nat) (it : mp_iter) : R :=
    let a := nth (mi_i it) (nth t A []) 0 in
    u * (Rabs (nth t (mi_r it) 0) + Rabs (mi_c it * a) + Rabs (a * nth (mi_i it) (mi_x it) 0)) + tiny.
  Lemma mp_step_drift m n A i c x r x' r' y t : is_matrix m n A -> Forall (Forall is_float) A -> Forall is_float x -> Forall is_float r -> length x = n -> length r = m -> (t < m)%nat ->
    fmp_step emin prec n A i c x r x' r' ->
    Rabs (nth t r' 0 - resid n A y x' t) <= Rabs (nth t r 0 - resid n A y x t) + mp_loss A t (MpIter i c x' r').
  Proof.
    intros HA FA Fx Fr Lx Lr Ht (h & atom & Hh & [Hi _] & Hc & Hat & Lx' & Lr' & Ex & Er).
    assert (Lh : length h = n) by (rewrite <- (Forall2_len2 _ _ _ Hh), seq_length; auto). rewrite Lh in Hi.
    assert (Fc : is_float c). { subst c. pose proof (Forall2_nth2 _ _ _ 0%nat 0 i Hh ltac:(rewrite seq_length; lia)) as Q. eapply fdot_float; [exact Hp|exact Q]. }
    specialize (Er t ltac:(lia)). rewrite (matvec_unit m n A i atom t HA FA Hi Hat Ht) in Er. set (a := nth i (nth t A []) 0) in *.
    assert (Frt : is_float (nth t r 0)) by (rewrite Forall_forall in Fr; apply Fr, nth_In; lia).
    pose proof (fmuladd_err _ _ _ _ Frt Er) as E1.
    assert (Fxi : is_float (nth i x 0)) by (rewrite Forall_forall in Fx; apply Fx, nth_In; lia).
    pose proof (fl_err_add_post emin prec _ _ Fxi Fc) as E2. pose proof (Ex i ltac:(lia)) as Exi. rewrite Nat.eqb_refl in Exi. rewrite <- Exi in E2.
    assert (D : rs n (fun j => nth j (nth t A []) 0 * nth j x' 0) = rs n (fun j => nth j (nth t A []) 0 * nth j x 0) + a * (nth i x' 0 - nth i x 0)).
    { unfold a. rewrite <- (rs_single n (fun j => nth j (nth t A []) 0 * (nth j x' 0 - nth j x 0)) i Hi), <- Rsum_map_plus. apply Rsum_map_ext. intros j Hj. apply in_seq in Hj.
      destruct (Nat.eqb_spec j i) as [->|Ne]; [ring|]. rewrite (Ex j) by lia. destruct (Nat.eqb_spec j i); [lia|]. ring. }
    unfold resid, FpSpec.rs, mp_loss. cbn [mi_i mi_c mi_x mi_r]. fold a. rewrite D.
    set (S := rs n (fun j => nth j (nth t A []) 0 * nth j x 0)) in *. set (r0 := nth t r 0) in *. set (r1 := nth t r' 0) in *. set (x0 := nth i x 0) in *. set (x1 := nth i x' 0) in *.
    replace (r1 - (nth t y 0 - (S + a * (x1 - x0)))) with ((r0 - (nth t y 0 - S)) + ((r1 - (r0 + - c * a)) + a * (x1 - (x0 + c)))) by ring.
    eapply Rle_trans; [apply Rabs_triang|]. apply Rplus_le_compat_l. eapply Rle_trans; [apply Rabs_triang|].
    rewrite (Rabs_mult a (x1 - (x0 + c))), (Rabs_mult a x1). rewrite <- Ropp_mult_distr_l, Rabs_Ropp in E1. rewrite <- Ropp_mult_distr_l.
    pose proof (Rabs_pos a). assert (Rabs a * Rabs (x1 - (x0 + c)) <= Rabs a * (u * Rabs x1)) by (apply Rmult_le_compat_l; auto). lra.
  Qed.
  Lemma mp_step_floats m n A i c x r x' r' : is_matrix m n A -> Forall is_float x -> length x = n -> length r = m -> fmp_step emin prec n A i c x r x' r' ->
    Forall is_float x' /\ Forall is_float r' /\ length x' = n /\ length r' = m.
  Proof.
    intros HA Fx Lx Lr (h & atom & Hh & _ & _ & _ & Lx' & Lr' & Ex & Er). repeat split; try lia.
    - apply Forall_forall. intros b Hb. apply (In_nth _ _ 0) in Hb. destruct Hb as [j [Hj <-]]. rewrite Ex by lia. destruct (Nat.eqb j i); auto. rewrite Forall_forall in Fx. apply Fx, nth_In. lia.
    - apply Forall_forall. intros b Hb. apply (In_nth _ _ 0) in Hb. destruct Hb as [j [Hj <-]]. eapply fmuladd_float, Er. lia.
  Qed.
  Lemma mp_trace_drift m n A y t tr : is_matrix m n A -> Forall (Forall is_float) A -> (t < m)%nat -> forall x r,
    Forall is_float x -> Forall is_float r -> length x = n -> length r = m -> fmp_trace emin prec n A x r tr ->
    let xr := fold_left (fun _ it => (mi_x it, mi_r it)) tr (x, r) in
    Rabs (nth t (snd xr) 0 - resid n A y (fst xr) t) <= Rabs (nth t r 0 - resid n A y x t) + Rsum (map (mp_loss A t) tr).
  Proof.
    intros HA FA Ht. induction tr as [|it tr IH]; intros x r Fx Fr Lx Lr H; cbn [fold_left map].
    - cbn. lra.
    - destruct H as [H1 H2]. rewrite Rsum_cons. destruct (mp_step_floats m n A _ _ _ _ _ _ HA Fx Lx Lr H1) as (Fx' & Fr' & Lx' & Lr').
      specialize (IH _ _ Fx' Fr' Lx' Lr' H2). cbv zeta in IH |- *. eapply Rle_trans; [exact IH|].
      pose proof (mp_step_drift m n A _ _ x r _ _ y t HA FA Fx Fr Lx Lr Ht H1) as E. destruct it as [i c x1 r1]. cbn [mi_i mi_c mi_x mi_r] in *. lra.
  Qed.
  Lemma mp_drift m n A y tr t : is_matrix m n A -> Forall (Forall is_float) A -> Forall is_float y -> length y = m -> (t < m)%nat ->
    fmp_trace emin prec n A (repeat 0 n) y tr ->
    Rabs (nth t (snd (mp_final n y tr)) 0 - resid n A y (fst (mp_final n y tr)) t) <= Rsum (map (mp_loss A t) tr).
  Proof.
    intros HA FA Fy Ly Ht H. assert (Z : Forall is_float (repeat 0 n)) by (apply Forall_forall; intros b Hb; apply repeat_spec in Hb; subst; auto).
    pose proof (mp_trace_drift m n A y t tr HA FA Ht _ _ Z Fy (repeat_length _ _) Ly H) as E. cbv zeta in E. eapply Rle_trans; [exact E|].
    unfold resid at 1, FpSpec.rs. rewrite (Rsum_map_ext _ (fun _ => 0)), Rsum_map_zero by (intros j _; rewrite nth_repeat; ring). rewrite Rminus_0_r, Rminus_eq_0, Rabs_R0. lra.
  Qed.

  (** *** conjugate gradients *)
  Definition cg_loss (n : nat) (A : list (list R)) (t : nat) (it : cg_iter) : R :=
    u * (Rabs (nth t (ci_r it) 0) + Rabs (ci_a it * nth t (ci_q it) 0)) + tiny
    + Rabs (ci_a it) * (((1 + u) ^ n - 1) * rs n (fun j => Rabs (nth j (nth t A []) 0 * nth j (ci_p it) 0)) + INR n * tiny * (1 + u) ^ n)
    + rs n (fun j => Rabs (nth j (nth t A []) 0) * (u * (Rabs (nth j (ci_x it) 0) + Rabs (ci_a it * nth j (ci_p it) 0)) + tiny)).
  Lemma cg_step_drift n A x r p rho it p' b t : is_matrix n n A -> Forall is_float x -> Forall is_float r -> length x = n -> length r = n -> length p = n -> (t < n)%nat ->
    fcg_step emin prec A x r p rho it p' ->
    Rabs (nth t (ci_r it) 0 - resid n A b (ci_x it) t) <= Rabs (nth t r 0 - resid n A b x t) + cg_loss n A t it.
  Proof.
    intros HA Fx Fr Lx Lr Lp Ht (d & Ep & Hq & Hd & Nd & Nr & Ea & Lx' & Lr' & Ex & Er & _). rewrite <- Ep in *.
    specialize (Er t ltac:(lia)). assert (Frt : is_float (nth t r 0)) by (rewrite Forall_forall in Fr; apply Fr, nth_In; lia).
    pose proof (fmuladd_err _ _ _ _ Frt Er) as E1. pose proof (matvec_error n n A _ _ t HA Lp Hq Ht) as E2.
    rewrite (dot_seq _ _ n (matrix_row n n A t HA Ht) Lp), (dot_abs_seq _ _ n (matrix_row n n A t HA Ht) Lp) in E2.
    unfold resid, FpSpec.rs, cg_loss. set (al := ci_a it) in *. set (q := nth t (ci_q it) 0) in *. set (r1 := nth t (ci_r it) 0) in *. set (r0 := nth t r 0) in *.
    set (row := nth t A []) in *. set (P := rs n (fun j => nth j row 0 * nth j (ci_p it) 0)) in *.
    set (S0 := rs n (fun j => nth j row 0 * nth j x 0)). set (S1 := rs n (fun j => nth j row 0 * nth j (ci_x it) 0)).
    set (L1 := rs n (fun j => Rabs (nth j row 0) * (u * (Rabs (nth j (ci_x it) 0) + Rabs (al * nth j (ci_p it) 0)) + tiny))).
    assert (E3 : Rabs (S1 - (S0 + al * P)) <= L1).
    { replace (S1 - (S0 + al * P)) with (rs n (fun j => nth j row 0 * (nth j (ci_x it) 0 - (nth j x 0 + al * nth j (ci_p it) 0)))).
      2:{ unfold S1, S0, P. rewrite <- Rsum_map_scal, <- Rsum_map_plus. unfold Rminus at 2. rewrite <- (Rmult_1_l (Rsum (map (fun a : nat => nth a row 0 * nth a x 0 + _ * _) _))), Ropp_mult_distr_l, <- Rsum_map_scal, <- Rsum_map_plus. apply Rsum_map_ext. intros. ring. }
      eapply Rle_trans; [apply Rsum_map_abs|]. apply Rsum_map_le. intros j Hj. apply in_seq in Hj. rewrite Rabs_mult. apply Rmult_le_compat_l; [apply Rabs_pos|].
      apply fmuladd_err; [|apply Ex; lia]. rewrite Forall_forall in Fx. apply Fx, nth_In. lia. }
    replace (r1 - (nth t b 0 - S1)) with ((r0 - (nth t b 0 - S0)) + ((r1 - (r0 + - al * q)) + (- al * (q - P)) + (S1 - (S0 + al * P)))) by ring.
    eapply Rle_trans; [apply Rabs_triang|]. apply Rplus_le_compat_l. eapply Rle_trans; [apply Rabs_triang|]. eapply Rle_trans; [apply Rplus_le_compat_r, Rabs_triang|].
    rewrite (Rabs_mult (- al) (q - P)), Rabs_Ropp. rewrite <- Ropp_mult_distr_l, Rabs_Ropp in E1.
    apply Rplus_le_compat; [|exact E3]. apply Rplus_le_compat; [rewrite <- Ropp_mult_distr_l; exact E1|]. apply Rmult_le_compat_l; [apply Rabs_pos|exact E2].
  Qed.
  Lemma fmuladd_floats l s a b : length l = length s -> (forall j, (j < length s)%nat -> fmuladd emin prec (nth j s 0) a (nth j b 0) (nth j l 0)) -> Forall is_float l.
  Proof. intros L H. apply Forall_forall. intros c Hc. apply (In_nth _ _ 0) in Hc. destruct Hc as [j [Hj <-]]. eapply fmuladd_float, H. lia. Qed.
  Lemma cg_trace_drift n A b t tr : is_matrix n n A -> (t < n)%nat -> forall x r p rho,
    Forall is_float x -> Forall is_float r -> length x = n -> length r = n -> length p = n -> fcg_trace emin prec A x r p rho tr ->
    let xr := fold_left (fun _ it => (ci_x it, ci_r it)) tr (x, r) in
    Rabs (nth t (snd xr) 0 - resid n A b (fst xr) t) <= Rabs (nth t r 0 - resid n A b x t) + Rsum (map (cg_loss n A t) tr).
  Proof.
    intros HA Ht. induction tr as [|it tr IH]; intros x r p rho Fx Fr Lx Lr Lp H; cbn [fold_left map].
    - cbn. lra.
    - destruct H as [p' [H1 H2]]. rewrite Rsum_cons. pose proof (cg_step_drift n A x r p rho it p' b t HA Fx Fr Lx Lr Lp Ht H1) as E.
      destruct H1 as (d & Ep & Hq & Hd & Nd & Nr & Ea & Lx' & Lr' & Ex & Er & _ & Lp' & _).
      assert (Fx' : Forall is_float (ci_x it)) by (eapply fmuladd_floats; eauto). assert (Fr' : Forall is_float (ci_r it)) by (eapply fmuladd_floats; eauto).
      assert (L1 : length (ci_x it) = n) by lia. assert (L2 : length (ci_r it) = n) by lia. assert (L3 : length p' = n) by lia.
      specialize (IH _ _ _ _ Fx' Fr' L1 L2 L3 H2). cbv zeta in IH |- *. lra.
  Qed.
  Definition cg_start_loss (n : nat) (A : list (list R)) (x0 r0 : list R) (t : nat) : R :=
    u * Rabs (nth t r0 0) + ((1 + u) ^ n - 1) * rs n (fun j => Rabs (nth j (nth t A []) 0 * nth j x0 0)) + INR n * tiny * (1 + u) ^ n.
  Lemma cg_drift n A b x0 r0 tr t : is_matrix n n A -> Forall is_float b -> Forall is_float x0 -> length b = n -> length x0 = n -> (t < n)%nat ->
    fcg_run emin prec A b x0 r0 tr ->
    Rabs (nth t (snd (cg_final x0 r0 tr)) 0 - resid n A b (fst (cg_final x0 r0 tr)) t) <= cg_start_loss n A x0 r0 t + Rsum (map (cg_loss n A t) tr).
  Proof.
    intros HA Fb Fx Lb Lx Ht (q & rho & Hq & Hr & _ & H).
    assert (Lq : length q = n) by (rewrite <- (Forall2_len2 _ _ _ Hq); apply HA).
    assert (Lr : length r0 = n) by (subst r0; rewrite map_length, combine_length; lia).
    assert (Fr : Forall is_float r0) by (subst r0; rewrite Forall_map; apply Forall_forall; intros; apply fl_float; auto).
    pose proof (cg_trace_drift n A b t tr HA Ht x0 r0 r0 rho Fx Fr Lx Lr Lr H) as E. cbv zeta in E. eapply Rle_trans; [exact E|]. apply Rplus_le_compat_r.
    pose proof (matvec_error n n A x0 q t HA Lx Hq Ht) as E2. rewrite (dot_seq _ _ n (matrix_row n n A t HA Ht) Lx), (dot_abs_seq _ _ n (matrix_row n n A t HA Ht) Lx) in E2.
    assert (Fq : is_float (nth t q 0)). { pose proof (Forall2_nth2 _ _ _ [] 0 t Hq ltac:(destruct HA; lia)) as Q. eapply fdot_float; [exact Hp|exact Q]. }
    assert (Fbt : is_float (nth t b 0)) by (rewrite Forall_forall in Fb; apply Fb, nth_In; lia).
    assert (Ert : nth t r0 0 = fl (nth t b 0 - nth t q 0)).
    { subst r0. rewrite (nth_indep _ 0 ((fun bq : R * R => fl (fst bq - snd bq)) (0, 0))) by (rewrite map_length, combine_length; lia).
      rewrite (map_nth (fun bq : R * R => fl (fst bq - snd bq))), combine_nth by lia. reflexivity. }
    pose proof (fl_err_add_post emin prec (nth t b 0) (- nth t q 0) Fbt (float_opp _ _ _ Fq)) as E3. change (nth t b 0 + - nth t q 0) with (nth t b 0 - nth t q 0) in E3. rewrite <- Ert in E3.
    unfold resid, FpSpec.rs, cg_start_loss. set (S0 := rs n (fun j => nth j (nth t A []) 0 * nth j x0 0)) in *.
    replace (nth t r0 0 - (nth t b 0 - S0)) with ((nth t r0 0 - (nth t b 0 - nth t q 0)) - (nth t q 0 - S0)) by ring. eapply Rle_trans; [apply Rabs_triang|]. rewrite Rabs_Ropp. lra.
  Qed.
End P.
