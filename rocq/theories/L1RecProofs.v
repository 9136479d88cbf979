(** Recovery of sparse vectors by l1 minimisation from incoherent measurements. *)
From Coq Require Import List Arith Bool Lia Reals Lra Psatz.
From Verif Require Import Scalar Vec RVec SolverSpec SelSpec SelProofs CGProofs SpglModel SpglSpec SpglProofs L1RecSpec.
Import ListNotations.
Set Implicit Arguments. Unset Strict Implicit.
Local Open Scope R_scope.

Lemma coord_len n j : length (coordinate n j) = n. Proof. apply tab_length. Qed.
Lemma coord_dot n j x : length x = n -> (j < n)%nat -> rdot (coordinate n j) x = x@j.
Proof.
  intros L H. rewrite (@rdot_sum n) by (auto; apply coord_len). rewrite (@rsum_single n j); auto.
  - unfold coordinate. rewrite nth_tab by auto. rewrite Nat.eqb_refl. ring.
  - intros i Hi N. unfold coordinate. rewrite nth_tab by auto. destruct (Nat.eqb_spec i j); [congruence|ring].
Qed.
Definition on (I : list nat) (h : vec) (n : nat) : R := rsum n (fun i => if mem i I then Rabs (h@i) else 0).
Definition off (I : list nat) (h : vec) (n : nat) : R := rsum n (fun i => if mem i I then 0 else Rabs (h@i)).
Lemma on_off n I h : length h = n -> nrm1 h = on I h n + off I h n.
Proof. intros L. rewrite (@nrm1_sum n _ L). unfold on, off. rewrite <- rsum_add. apply rsum_ext. intros. destruct (mem i I); ring. Qed.
Lemma on_pos n I h : 0 <= on I h n. Proof. apply rsum_pos. intros. destruct (mem i I); [apply Rabs_pos|lra]. Qed.
Lemma off_pos n I h : 0 <= off I h n. Proof. apply rsum_pos. intros. destruct (mem i I); [lra|apply Rabs_pos]. Qed.
Lemma count_le n I c : 0 <= c -> rsum n (fun i => if mem i I then c else 0) <= INR (length I) * c.
Proof.
  intros C. induction I as [|a I IH].
  - simpl. rewrite rsum_0. lra.
  - replace (INR (length (a :: I))) with (INR (length I) + 1) by (simpl length; rewrite S_INR; ring).
    assert (rsum n (fun i => if Nat.eqb i a then c else 0) <= c).
    { destruct (Nat.ltb_spec a n).
      - rewrite (@rsum_single n a) by (auto; intros i Hi N; destruct (Nat.eqb_spec i a); congruence). rewrite Nat.eqb_refl. lra.
      - rewrite rsum_0'; auto. intros i Hi. destruct (Nat.eqb_spec i a); auto. lia. }
    assert (rsum n (fun i => if mem i (a :: I) then c else 0) <= rsum n (fun i => (if mem i I then c else 0) + (if Nat.eqb i a then c else 0))).
    { apply rsum_le. intros i Hi. unfold mem. cbn [existsb]. destruct (Nat.eqb i a); cbn [orb]; destruct (existsb (Nat.eqb i) I); lra. }
    rewrite rsum_add in *. lra.
Qed.
Lemma on_sq n I h : length h = n -> on I h n * on I h n <= INR (length I) * nrm2 h.
Proof.
  intros L. set (u := tab n (fun i => if mem i I then 1 else 0)). set (v := map Rabs h).
  assert (Lu : length u = n) by apply tab_length. assert (Lv : length v = n) by (unfold v; now rewrite map_length).
  assert (E : on I h n = rdot u v).
  { rewrite (@rdot_sum n _ _ Lu Lv). apply rsum_ext. intros i Hi. unfold u. rewrite nth_tab by auto.
    assert (v@i = Rabs (h@i)) as ->. { unfold v. rewrite nth_indep with (d' := Rabs 0) by (rewrite map_length; lia). now rewrite map_nth. }
    destruct (mem i I); ring. }
  rewrite E. eapply Rle_trans; [apply cauchy_sq|].
  assert (rdot v v = nrm2 h) as ->.
  { unfold nrm2. rewrite (@rdot_sum n _ _ Lv Lv), (@rdot_sum n _ _ L L). apply rsum_ext. intros i Hi.
    assert (v@i = Rabs (h@i)) as ->. { unfold v. rewrite nth_indep with (d' := Rabs 0) by (rewrite map_length; lia). now rewrite map_nth. }
    rewrite <- Rabs_mult. apply Rabs_pos_eq. apply Rle_0_sqr. }
  apply Rmult_le_compat_r; [apply rdot_pos|]. rewrite (@rdot_sum n _ _ Lu Lu).
  eapply Rle_trans; [|rewrite <- (Rmult_1_r (INR (length I))); apply (@count_le n I 1); lra].
  apply Req_le, rsum_ext. intros i Hi. unfold u. rewrite nth_tab by auto. destruct (mem i I); ring.
Qed.
(** the l1 norm of x + h against that of x *)
Lemma cone n I x h xk : length x = n -> length h = n -> length xk = n -> (forall i, ~ In i I -> xk@i = 0) ->
  nrm1 x - on I h n + off I h n - 2 * nrm1 (rsub x xk) <= nrm1 (radd x h).
Proof.
  intros Lx Lh Lk S. assert (Ls : length (radd x h) = n) by vl. assert (Ld : length (rsub x xk) = n) by vl.
  rewrite (@nrm1_sum n _ Lx), (@nrm1_sum n _ Ls), (@nrm1_sum n _ Ld). unfold on, off. rewrite <- rsum_mul_l, <- rsum_sub, <- rsum_add, <- rsum_sub.
  apply rsum_le. intros i Hi. rewrite radd_nth, rsub_nth by lia. destruct (mem i I) eqn:M.
  - pose proof (Rabs_triang (x@i + h@i) (- h@i)). rewrite Rabs_Ropp in H. replace (x@i + h@i + - h@i) with (x@i) in H by ring.
    pose proof (Rabs_pos (x@i - xk@i)). lra.
  - assert (~ In i I). { intros C. apply mem_In in C. congruence. } rewrite (S i H).
    pose proof (Rabs_triang (x@i + h@i) (- x@i)) as P. rewrite Rabs_Ropp in P. replace (x@i + h@i + - x@i) with (h@i) in P by ring.
    replace (x@i - 0) with (x@i) by ring. lra.
Qed.
Lemma nrm_le_nrm1 x : nrm x <= nrm1 x.
Proof.
  unfold nrm. rewrite <- (sqrt_square (nrm1 x)) by apply nrm1_pos. apply sqrt_le_1_alt.
  induction x as [|a x IH]; simpl; [lra|]. pose proof (nrm1_pos x). pose proof (Rabs_pos a).
  assert (a * a = Rabs a * Rabs a). { rewrite <- Rabs_mult. symmetry. apply Rabs_pos_eq, Rle_0_sqr. } nra.
Qed.

Section Inc.
  Variables (n m : nat) (A T : vec -> vec) (s mu : R).
  Hypothesis Adj : adjoint_ops n m A T.
  Hypothesis Hi : incoherent n A s mu.
  Hypothesis Hmu : 0 <= mu.
  Hypothesis Hs : 0 < s.
  Let e := coordinate n.
  Lemma A_len x : length x = n -> length (A x) = m. Proof. apply Adj. Qed.
  Lemma gram_exp w h : length w = m -> length h = n -> rdot w (A h) = rsum n (fun j => h@j * rdot w (A (e j))).
  Proof.
    intros Lw Lh. destruct Adj as (_ & [LT _] & D). rewrite rdot_sym, D by auto. rewrite (@rdot_sum n) by auto.
    apply rsum_ext. intros j Hj. f_equal. rewrite <- (@coord_dot n j (T w)) by auto. rewrite <- D by (auto; apply coord_len).
    fold e. apply rdot_sym.
  Qed.
  Lemma rest_le h i : length h = n -> (i < n)%nat ->
    Rabs (rdot (A (e i)) (A h) - s * s * h@i) <= mu * (s * s) * (nrm1 h - Rabs (h@i)).
  Proof.
    intros Lh Li. rewrite gram_exp by (auto; apply A_len, coord_len).
    assert (E : rsum n (fun j => h@j * rdot (A (e i)) (A (e j))) - s * s * h@i = rsum n (fun j => if Nat.eqb j i then 0 else h@j * rdot (A (e i)) (A (e j)))).
    { assert (s * s * h@i = rsum n (fun j => if Nat.eqb j i then h@j * rdot (A (e i)) (A (e j)) else 0)) as ->.
      { rewrite (@rsum_single n i) by (auto; intros j Hj N; destruct (Nat.eqb_spec j i); congruence). rewrite Nat.eqb_refl.
        rewrite <- nrm_sq. unfold e. rewrite (proj1 Hi i Li). ring. }
      rewrite <- rsum_sub. apply rsum_ext. intros j Hj. destruct (Nat.eqb j i); ring. }
    rewrite E. eapply Rle_trans; [apply rsum_abs|].
    assert (nrm1 h - Rabs (h@i) = rsum n (fun j => if Nat.eqb j i then 0 else Rabs (h@j))) as ->.
    { assert (Rabs (h@i) = rsum n (fun j => if Nat.eqb j i then Rabs (h@j) else 0)) as ->.
      { rewrite (@rsum_single n i) by (auto; intros j Hj N; destruct (Nat.eqb_spec j i); congruence). now rewrite Nat.eqb_refl. }
      rewrite (@nrm1_sum n _ Lh), <- rsum_sub. apply rsum_ext. intros j Hj. destruct (Nat.eqb j i); ring. }
    rewrite <- rsum_mul_l. apply rsum_le. intros j Hj. destruct (Nat.eqb_spec j i); [rewrite Rabs_R0; lra|].
    rewrite Rabs_mult, Rmult_comm. apply Rmult_le_compat_r; [apply Rabs_pos|]. apply (proj2 Hi); auto.
  Qed.
  Lemma entry_le h i : length h = n -> (i < n)%nat -> (1 + mu) * Rabs (h@i) <= nrm (A h) / s + mu * nrm1 h.
  Proof.
    intros Lh Li. pose proof (rest_le Lh Li) as R. pose proof (cauchy (A (e i)) (A h)) as C. unfold e in C at 2. rewrite (proj1 Hi i Li) in C.
    assert (Q : s * s * Rabs (h@i) <= s * nrm (A h) + mu * (s * s) * (nrm1 h - Rabs (h@i))).
    { assert (s * s * Rabs (h@i) = Rabs (s * s * h@i)) as ->. { rewrite Rabs_mult. f_equal. symmetry. apply Rabs_pos_eq. nra. }
      replace (s * s * h@i) with (rdot (A (e i)) (A h) - (rdot (A (e i)) (A h) - s * s * h@i)) by ring.
      eapply Rle_trans; [apply Rabs_triang|]. rewrite Rabs_Ropp. lra. }
    apply Rmult_le_reg_l with (s * s); [nra|]. replace (s * s * (nrm (A h) / s + mu * nrm1 h)) with (s * nrm (A h) + mu * (s * s) * nrm1 h) by (field; lra). lra.
  Qed.
  Lemma energy_ge h : length h = n -> s * s * ((1 + mu) * nrm2 h - mu * (nrm1 h * nrm1 h)) <= nrm2 (A h).
  Proof.
    intros Lh. unfold nrm2 at 2. rewrite gram_exp by (auto; now apply A_len).
    assert (rsum n (fun i => s * s * ((1 + mu) * (h@i * h@i) - mu * (Rabs (h@i) * nrm1 h))) = s * s * ((1 + mu) * nrm2 h - mu * (nrm1 h * nrm1 h))) as <-.
    { rewrite rsum_mul_l, rsum_sub, !rsum_mul_l, rsum_mul_r, <- (@nrm1_sum n _ Lh). unfold nrm2. rewrite (@rdot_sum n _ _ Lh Lh). ring. }
    apply rsum_le. intros i Li. pose proof (rest_le Lh Li) as R. rewrite (rdot_sym (A h)).
    set (g := rdot (A (e i)) (A h)) in *. replace (h@i * g) with (s * s * (h@i * h@i) + h@i * (g - s * s * h@i)) by ring.
    assert (P : - (Rabs (h@i) * (mu * (s * s) * (nrm1 h - Rabs (h@i)))) <= h@i * (g - s * s * h@i)).
    { pose proof (Rabs_pos (h@i)). assert (Rabs (h@i * (g - s * s * h@i)) <= Rabs (h@i) * (mu * (s * s) * (nrm1 h - Rabs (h@i)))).
      { rewrite Rabs_mult. apply Rmult_le_compat_l; auto. }
      pose proof (Rle_abs (- (h@i * (g - s * s * h@i)))) as Q. rewrite Rabs_Ropp in Q. lra. }
    assert (h@i * h@i = Rabs (h@i) * Rabs (h@i)) as ->. { rewrite <- Rabs_mult. symmetry. apply Rabs_pos_eq, Rle_0_sqr. }
    lra.
  Qed.

  Variables (K : nat) (sigma : R) (x : vec).
  Hypothesis Lx : length x = n.
  Hypothesis Sx : nearly_sparse K sigma x.
  Lemma sigma_pos : 0 <= sigma.
  Proof. destruct Sx as (xk & _ & _ & H). pose proof (nrm1_pos (rsub x xk)). lra. Qed.
  Lemma constrained z eta eps : length z = n -> (2 * INR K - 1) * mu < 1 -> 0 <= eps ->
    nrm1 z <= nrm1 x + eps -> nrm (A (rsub z x)) <= eta ->
    nrm1 (rsub z x) <= constrained_error K s mu sigma eta eps.
  Proof.
    intros Lz Cond He Hz Ha. destruct Sx as (xk & Lk & (I & LI & SI) & Hk). rewrite Lx in Lk. set (h := rsub z x) in *.
    assert (Lh : length h = n) by (unfold h; vl). pose proof (@cone n I x h xk Lx Lh Lk SI) as C.
    replace (radd x h) with z in C by (unfold h; veq). pose proof (on_off I Lh) as E.
    assert (On : (1 + mu) * on I h n <= INR K * (eta / s + mu * nrm1 h)).
    { assert (P : 0 <= eta / s + mu * nrm1 h).
      { pose proof (nrm_pos (A h)). pose proof (nrm1_pos h). apply Rplus_le_le_0_compat; [|apply Rmult_le_pos; auto].
        apply Rmult_le_pos; [lra|]. left. now apply Rinv_0_lt_compat. }
      unfold on. rewrite <- rsum_mul_l. eapply Rle_trans; [|eapply Rle_trans; [apply (@count_le n I _ P)|]].
      - apply rsum_le. intros i Li. destruct (mem i I); [|lra]. eapply Rle_trans; [apply entry_le; auto|].
        apply Rplus_le_compat_r. apply Rmult_le_compat_r; [|auto]. left. now apply Rinv_0_lt_compat.
      - apply Rmult_le_compat_r; auto. now apply le_INR. }
    assert (N : nrm1 h <= 2 * on I h n + eps + 2 * sigma) by lra.
    unfold constrained_error. apply Rmult_le_reg_r with (1 - (2 * INR K - 1) * mu); [lra|].
    unfold Rdiv at 1. rewrite Rmult_assoc, Rinv_l by lra. rewrite Rmult_1_r.
    assert ((1 + mu) * nrm1 h <= (1 + mu) * (2 * on I h n + eps + 2 * sigma)) by (apply Rmult_le_compat_l; lra). lra.
  Qed.
  Lemma penalised z b lambda gap : length z = n -> length b = m -> (25 * INR K - 1) * mu < 1 ->
    0 < lambda -> 2 * nrminf (T (rsub b (A x))) <= lambda -> 0 <= gap ->
    / 2 * nrm2 (rsub b (A z)) + lambda * nrm1 z <= / 2 * nrm2 (rsub b (A x)) + lambda * nrm1 x + gap ->
    nrm1 (rsub z x) <= penalised_error K s mu sigma lambda gap.
  Proof.
    intros Lz Lb Cond Pl Hl Hg HF. destruct Sx as (xk & Lk & (I & LI & SI) & Hk). rewrite Lx in Lk. set (h := rsub z x) in *.
    assert (Lh : length h = n) by (unfold h; vl). pose proof (@cone n I x h xk Lx Lh Lk SI) as C.
    replace (radd x h) with z in C by (unfold h; veq). pose proof (on_off I Lh) as E.
    pose proof sigma_pos as Ps. pose proof (on_pos n I h) as P1. pose proof (off_pos n I h) as P2.
    set (r := rsub b (A x)) in *. assert (LAx : length (A x) = m) by now apply A_len. assert (LAh : length (A h) = m) by now apply A_len.
    assert (Lr : length r = m) by (unfold r; vl).
    assert (Ez : rsub b (A z) = rsub r (A h)).
    { unfold r, h. rewrite (@lin_sub n m A _ _ (proj1 Adj)) by auto. assert (length (A z) = m) by now apply A_len. veq. }
    assert (Q : nrm2 (rsub b (A z)) = nrm2 r - 2 * rdot r (A h) + nrm2 (A h)).
    { rewrite Ez. unfold nrm2. rewrite !rdot_sub_l, !rdot_sub_r by (vl). rewrite (rdot_sym (A h) r). ring. }
    assert (H1 : rdot r (A h) <= nrminf (T r) * nrm1 h).
    { destruct Adj as (_ & [LT _] & D). rewrite rdot_sym, D, rdot_sym by auto.
      pose proof (Rle_abs (rdot (T r) h)). pose proof (@holder (T r) h). lra. }
    assert (H2 : nrminf (T r) * nrm1 h <= lambda / 2 * nrm1 h) by (apply Rmult_le_compat_r; [apply nrm1_pos|lra]).
    set (a := on I h n) in *. set (o := off I h n) in *.
    assert (M : / 2 * nrm2 (A h) + lambda / 2 * o <= 3 * lambda / 2 * a + 2 * lambda * sigma + gap).
    { assert (lambda * nrm1 x - lambda * nrm1 z <= lambda * (a - o + 2 * sigma)). { rewrite <- Rmult_minus_distr_l. apply Rmult_le_compat_l; lra. }
      rewrite E in H1, H2. lra. }
    set (rho := 4 * sigma + 2 * gap / lambda).
    assert (Pr : 0 <= rho). { unfold rho. assert (0 <= 2 * gap / lambda) by (apply Rmult_le_pos; [lra|left; now apply Rinv_0_lt_compat]). lra. }
    assert (M' : / 2 * nrm2 (A h) + lambda / 2 * o <= lambda / 2 * (3 * a + rho)).
    { replace (lambda / 2 * (3 * a + rho)) with (3 * lambda / 2 * a + 2 * lambda * sigma + gap) by (unfold rho; field; lra). exact M. }
    assert (P3 : 0 <= nrm2 (A h)) by apply rdot_pos.
    assert (O : o <= 3 * a + rho). { apply Rmult_le_reg_l with (lambda / 2); lra. }
    set (kap := 1 - (25 * INR K - 1) * mu). assert (Pk : 0 < kap) by (unfold kap; lra).
    assert (Hq : 0 <= 20 * lambda * INR K / (s * s * kap)).
    { apply Rmult_le_pos; [apply Rmult_le_pos; [lra|apply pos_INR]|]. left. apply Rinv_0_lt_compat. apply Rmult_lt_0_compat; auto. nra. }
    unfold penalised_error. fold rho kap. rewrite E.
    destruct (Rle_dec a rho) as [Ha|Ha]; [lra|]. assert (Ha' : rho < a) by lra.
    assert (F : a * kap <= 4 * lambda * INR K / (s * s)).
    { pose proof (energy_ge Lh) as G. pose proof (@on_sq n I h Lh) as S2. fold a in S2.
      assert (N5 : nrm1 h <= 5 * a) by lra. pose proof (nrm1_pos h) as N0.
      assert (N25 : nrm1 h * nrm1 h <= 25 * (a * a)) by nra.
      assert (Sq : a * a <= INR K * nrm2 h). { eapply Rle_trans; [exact S2|]. apply Rmult_le_compat_r; [apply rdot_pos|now apply le_INR]. }
      assert (PK : 0 <= INR K) by apply pos_INR. assert (Ps2 : 0 < s * s) by nra.
      assert (G2 : s * s * (a * a * kap) <= INR K * nrm2 (A h)).
      { eapply Rle_trans; [|apply Rmult_le_compat_l; [exact PK|exact G]].
        replace (INR K * (s * s * ((1 + mu) * nrm2 h - mu * (nrm1 h * nrm1 h)))) with (s * s * ((1 + mu) * (INR K * nrm2 h) - INR K * mu * (nrm1 h * nrm1 h))) by ring.
        apply Rmult_le_compat_l; [lra|]. unfold kap.
        assert (INR K * mu * (nrm1 h * nrm1 h) <= INR K * mu * (25 * (a * a))) by (apply Rmult_le_compat_l; auto; now apply Rmult_le_pos).
        assert ((1 + mu) * (a * a) <= (1 + mu) * (INR K * nrm2 h)) by (apply Rmult_le_compat_l; lra). lra. }
      assert (B : nrm2 (A h) <= 4 * lambda * a).
      { assert (0 <= lambda / 2 * o) by (apply Rmult_le_pos; lra). assert (lambda / 2 * rho <= lambda / 2 * a) by (apply Rmult_le_compat_l; lra). lra. }
      assert (G3 : s * s * (a * a * kap) <= INR K * (4 * lambda * a)). { eapply Rle_trans; [exact G2|]. now apply Rmult_le_compat_l. }
      apply Rmult_le_reg_l with (s * s * a); [nra|].
      replace (s * s * a * (4 * lambda * INR K / (s * s))) with (INR K * (4 * lambda * a)) by (field; lra). lra. }
    assert (a <= 4 * lambda * INR K / (s * s * kap)).
    { apply Rmult_le_reg_r with kap; auto. replace (4 * lambda * INR K / (s * s * kap) * kap) with (4 * lambda * INR K / (s * s)) by (field; nra). exact F. }
    replace (20 * lambda * INR K / (s * s * kap)) with (5 * (4 * lambda * INR K / (s * s * kap))) by (field; nra). lra.
  Qed.
End Inc.
