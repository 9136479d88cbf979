(** The remaining test problems; sparsity of the heavisine signal and pieces of the cubic signal. *)
From Coq Require Import List Arith ZArith Bool Lia Reals Lra Psatz Permutation.
From Verif Require Import Loop Scalar Vec RVec LopSpec LopOpSpec LopModel LopLemmas LopProofs LopProofs2 LopProofs3 FourierModel FourierProofs FourierProofs2
  BasisSpec BasisModel BasisProofs OptSpec OptModel OptProofs2 SortedL1Model ProblemModel ProblemSpec ProblemProofs.
Import ListNotations.

(** *** problem 1 *)
Lemma sign_cases a : sign a = 1%R \/ sign a = 0%R \/ sign a = (-1)%R.
Proof. unfold sign. destruct (Rltb 0 a); auto. destruct (Rltb a 0); auto. Qed.
Lemma sign_mono a b : (a <= b)%R -> (sign a <= sign b)%R.
Proof.
  intros H. unfold sign. destruct (Rltb_spec 0 a); destruct (Rltb_spec 0 b); destruct (Rltb_spec a 0); destruct (Rltb_spec b 0); lra.
Qed.
Lemma sign_neg a : sign (- a) = (- sign a)%R.
Proof. unfold sign. destruct (Rltb_spec 0 a); destruct (Rltb_spec 0 (- a)); destruct (Rltb_spec a 0); destruct (Rltb_spec (- a) 0); lra. Qed.
Section P1.
  Variable n : nat.
  Hypothesis Hn : 0 < n.
  Definition J (i : nat) : R := (sign (INR (i + 1) / INR n - 3 / 10) - sign (72 / 100 - INR (i + 1) / INR n))%R.
  Lemma J_mono i j : i <= j -> (J i <= J j)%R.
  Proof.
    intros H. assert (P : (0 < / INR n)%R) by (apply Rinv_0_lt_compat; now apply lt_0_INR).
    assert (L : (INR (i + 1) / INR n <= INR (j + 1) / INR n)%R) by (apply Rmult_le_compat_r; [lra|apply le_INR; lia]).
    unfold J. pose proof (sign_mono (INR (i + 1) / INR n - 3 / 10) (INR (j + 1) / INR n - 3 / 10)) as A.
    pose proof (sign_mono (72 / 100 - INR (j + 1) / INR n) (72 / 100 - INR (i + 1) / INR n)) as B. lra.
  Qed.
  Lemma J_int i : exists z : Z, J i = IZR z /\ (-2 <= z <= 2)%Z.
  Proof.
    unfold J. destruct (sign_cases (INR (i + 1) / INR n - 3 / 10)) as [-> | [-> | ->]]; destruct (sign_cases (72 / 100 - INR (i + 1) / INR n)) as [-> | [-> | ->]];
      first [exists 2%Z; split; [lra|lia]|exists 1%Z; split; [lra|lia]|exists 0%Z; split; [lra|lia]|exists (-1)%Z; split; [lra|lia]|exists (-2)%Z; split; [lra|lia]].
  Qed.
  Definition crosses (th : R) (i : nat) : bool := negb (i =? 0) && Rltb (J (i - 1)) th && Rltb th (J i).
  Lemma cross_unique th i j : crosses th i = true -> crosses th j = true -> i = j.
  Proof.
    assert (G : forall i j, crosses th i = true -> crosses th j = true -> i < j -> False).
    { intros a b Ha Hb L. unfold crosses in *. apply andb_prop in Ha as [_ Ha]. apply andb_prop in Hb as [Hb _]. apply andb_prop in Hb as [_ Hb].
      destruct (Rltb_spec th (J a)); [|discriminate]. destruct (Rltb_spec (J (b - 1)) th); [|discriminate]. pose proof (J_mono a (b - 1) ltac:(lia)). lra. }
    intros Hi Hj. destruct (lt_eq_lt_dec i j) as [[L|E]|L]; auto; exfalso; eauto.
  Qed.
  Lemma one_cross th : length (filter (crosses th) (seq 0 n)) <= 1.
  Proof.
    assert (ND : NoDup (filter (crosses th) (seq 0 n))) by (apply NoDup_filter, seq_NoDup).
    destruct (filter (crosses th) (seq 0 n)) as [|a [|b l]] eqn:E; simpl; try lia. exfalso.
    assert (Ha : In a (filter (crosses th) (seq 0 n))) by (rewrite E; now left).
    assert (Hb : In b (filter (crosses th) (seq 0 n))) by (rewrite E; right; now left).
    apply filter_In in Ha as [_ Ha]. apply filter_In in Hb as [_ Hb]. pose proof (cross_unique th a b Ha Hb). subst.
    inversion ND as [|? ? N _]. apply N. now left.
  Qed.
  Definition jumps : list nat := 0 :: filter (crosses (-3 / 2)) (seq 0 n) ++ filter (crosses (-1 / 2)) (seq 0 n) ++ filter (crosses (1 / 2)) (seq 0 n) ++ filter (crosses (3 / 2)) (seq 0 n).
  Lemma jumps_len : length jumps <= 5.
  Proof.
    unfold jumps. cbn [length]. rewrite !app_length.
    pose proof (one_cross (-3 / 2)). pose proof (one_cross (-1 / 2)). pose proof (one_cross (1 / 2)). pose proof (one_cross (3 / 2)). lia.
  Qed.
  Lemma jumps_in i : i < n -> i <> 0 -> J i <> J (i - 1) -> In i jumps.
  Proof.
    intros Hi H0 HJ. pose proof (J_mono (i - 1) i ltac:(lia)) as M. destruct (J_int i) as [z [E1 B1]]. destruct (J_int (i - 1)) as [w [E2 B2]].
    rewrite E1, E2 in *. assert (L : (w < z)%Z) by (apply lt_IZR; lra).
    assert (C : forall th, (IZR w < th)%R -> (th < IZR z)%R -> In i (filter (crosses th) (seq 0 n))).
    { intros th A B. apply filter_In. split; [apply in_seq; lia|]. unfold crosses. rewrite E1, E2. destruct (Nat.eqb_spec i 0); [contradiction|].
      destruct (Rltb_spec (IZR w) th); [|lra]. destruct (Rltb_spec th (IZR z)); [reflexivity|lra]. }
    right. rewrite !in_app_iff. assert (W : (w = -2 \/ w = -1 \/ w = 0 \/ w = 1)%Z) by lia.
    assert (Zw : (IZR (w + 1) <= IZR z)%R) by (apply IZR_le; lia). rewrite plus_IZR in Zw.
    destruct W as [-> | [-> | [-> | ->]]].
    - left. apply C; lra.
    - right; left. apply C; lra.
    - right; right; left. apply C; lra.
    - right; right; right. apply C; lra.
  Qed.
  Lemma cplx_len x : length (cplx x) = length x. Proof. apply map_length. Qed.
  Lemma cplx_nth x i : nth i (cplx x) (@s0 Cs) = (nth i x 0%R, 0%R).
  Proof. exact (map_nth (fun a : R => (a, 0%R)) x 0%R i). Qed.
  Lemma jump_supp : supported_on jumps (times (@op_inv_heaviside Cs n true) (cplx (sig_jump n))).
  Proof.
    intros i Hi. cbn [op_inv_heaviside times mkop] in Hi.
    assert (L : length (cplx (sig_jump n)) = n) by (rewrite cplx_len; apply tab_length).
    destruct (Nat.lt_ge_cases i n) as [Ln|Ln].
    - destruct (Nat.eq_dec i 0) as [->|N0]; [now left|]. apply jumps_in; auto. intros E. apply Hi.
      unfold vmul. rewrite nth_zipw with (da := s0) (db := s0).
      + rewrite jdiff_pre_nth by lia. destruct (Nat.eqb_spec i 0); [contradiction|]. rewrite !cplx_nth. unfold sig_jump. rewrite !nth_tab by lia.
        fold (J i) (J (i - 1)). rewrite E. destruct (nth i (hw n) s0) as [a b]. apply C_eq; cbn; ring.
      + rewrite jdiff_length. cbn [length]. lia.
      + unfold hw. rewrite tab_length. lia.
    - exfalso. apply Hi. apply nth_overflow. unfold vmul. rewrite zipw_length. unfold hw. rewrite tab_length. lia.
  Qed.
  Local Open Scope scal_scope.
  Hypothesis H4 : (4 < n)%nat.
  Definition zc : Cs := (ofR (sqrt (INR n)) * ((0%R, (-2)%R) : Cs) * Cexp (4 * PI / INR n))%S.
  Definition sine_coeffs : list Cs := tab n (fun k => if (k =? 2)%nat then zc else if (k =? n - 2)%nat then star zc else s0).
  Lemma root_conj j : root n ((n - 2) * j) = star (root n (2 * j)).
  Proof.
    assert (E : root n (2 * j) * root n ((n - 2) * j) = s1).
    { rewrite <- root_add. replace (2 * j + (n - 2) * j)%nat with (j * n)%nat by nia. apply root_mul_n. lia. }
    transitivity (star (root n (2 * j)) * root n (2 * j) * root n ((n - 2) * j)).
    - rewrite root_unit. ring.
    - transitivity (star (root n (2 * j)) * (root n (2 * j) * root n ((n - 2) * j))); [ring|]. rewrite E. ring.
  Qed.
  Lemma sine_eq : times (op_fourier_basis n) sine_coeffs = cplx (sig_sine n).
  Proof.
    destruct (fourier_basis_adjoint Hn) as [_ [_ [M _]]].
    assert (L : length (times (op_fourier_basis n) sine_coeffs) = n) by (apply M; apply tab_length).
    apply list_eq_nth with (d := @s0 Cs); [rewrite L, cplx_len; symmetry; apply tab_length|]. intros j Hj. rewrite L in Hj.
    rewrite fourier_basis_entries by auto. rewrite cplx_nth. unfold sig_sine. rewrite nth_tab by auto.
    rewrite (Sum_ext Cs _ (fun k => (if (k =? 2)%nat then root n (2 * j) * zc else s0) + (if (k =? n - 2)%nat then star (root n (2 * j) * zc) else s0))).
    - rewrite Sum_add. rewrite (@Sum_single Cs n 2%nat), (@Sum_single Cs n (n - 2)%nat); try lia.
      + rewrite !Nat.eqb_refl. unfold zc.
        assert (SQ : (0 < sqrt (INR n))%R) by (apply sqrt_lt_R0, lt_0_INR; lia).
        assert (NP : (0 < INR n)%R) by (apply lt_0_INR; lia).
        replace (4 * PI * (INR (j + 1) / INR n))%R with (2 * PI * INR (2 * j) / INR n + 4 * PI / INR n)%R by (rewrite mult_INR, plus_INR; simpl; field; lra).
        rewrite sin_plus. unfold root, Cexp. apply C_eq; cbn; field; lra.
      + intros k Hk Hne. destruct (Nat.eqb_spec k (n - 2)); [contradiction|reflexivity].
      + intros k Hk Hne. destruct (Nat.eqb_spec k 2); [contradiction|reflexivity].
    - intros k Hk. unfold sine_coeffs. rewrite nth_tab by auto. destruct (Nat.eqb_spec k 2) as [E1|E1]; destruct (Nat.eqb_spec k (n - 2)) as [E2|E2]; try (exfalso; lia).
      + subst k. ring.
      + rewrite E2, root_conj, <- star_mul. ring.
      + ring.
  Qed.
  Lemma sine_supp : supported_on [2; n - 2]%nat (trans (op_fourier_basis n) (cplx (sig_sine n))).
  Proof.
    rewrite <- sine_eq. rewrite (proj1 (fourier_basis_inv sine_coeffs Hn (tab_length _ _))). intros i Hi. unfold sine_coeffs in Hi.
    destruct (Nat.lt_ge_cases i n) as [L|L]; [|exfalso; apply Hi, nth_overflow; now rewrite tab_length]. rewrite nth_tab in Hi by auto.
    destruct (Nat.eqb_spec i 2) as [E|_]; [left; auto|]. destruct (Nat.eqb_spec i (n - 2)) as [E|_]; [right; left; auto|]. now contradiction Hi.
  Qed.
End P1.

Lemma prob001_ok n : 0 < n -> exists P x, prob001 n = Some P /\ consistent P x /\ (4 < n -> at_most_nonzero 7 x) /\
  forall i, i < n -> nth i (p_b P) s0 = (4 * sin (4 * PI * (INR (i + 1) / INR n)) + (sign (INR (i + 1) / INR n - 3 / 10) - sign (72 / 100 - INR (i + 1) / INR n)), 0)%R.
Proof.
  intros Hn. set (x0 := trans (op_fourier_basis n) (cplx (sig_sine n))). set (x1 := times (@op_inv_heaviside Cs n true) (cplx (sig_jump n))).
  assert (Ls : length (cplx (sig_sine n)) = n) by (rewrite cplx_len; apply tab_length).
  assert (Lj : length (cplx (sig_jump n)) = n) by (rewrite cplx_len; apply tab_length).
  destruct (fourier_basis_adjoint Hn) as [_ [_ [_ [M _]]]]. assert (L0 : length x0 = n) by (apply M; exact Ls).
  destruct (@inv_heaviside_adjoint Cs n true) as [_ [_ [M1 _]]]. assert (L1 : length x1 = n) by (apply M1; exact Lj).
  assert (D : exists D, op_hcat (op_fourier_basis n) (op_heaviside n true) = Some D /\ om D = n /\ on D = n + n /\ times D (x0 ++ x1) = vadd (cplx (sig_sine n)) (cplx (sig_jump n))).
  { unfold op_hcat. cbn [op_fourier_basis op_heaviside mkop om on]. rewrite Nat.eqb_refl. eexists. split; [reflexivity|]. split; [reflexivity|]. split; [reflexivity|].
    cbn [times]. rewrite firstn_app, skipn_app, <- L0, firstn_all, Nat.sub_diag, skipn_all. cbn [firstn skipn]. rewrite app_nil_r. cbn [app]. rewrite L0. f_equal.
    - exact (proj2 (fourier_basis_inv (cplx (sig_sine n)) Hn Ls)).
    - exact (@inv_heaviside_inv Cs n true (cplx (sig_jump n)) Lj). }
  destruct D as [D [E [S1 [S2 T]]]]. unfold prob001. fold x0 x1. rewrite E. cbv zeta. eexists. exists (x0 ++ x1). split; [reflexivity|].
  destruct (identity_shape Cs n) as [I1 I2].
  assert (B : forall i, i < n -> nth i (vadd (cplx (sig_sine n)) (cplx (sig_jump n))) (@s0 Cs) = (4 * sin (4 * PI * (INR (i + 1) / INR n)) + (sign (INR (i + 1) / INR n - 3 / 10) - sign (72 / 100 - INR (i + 1) / INR n)), 0)%R).
  { intros i Hi. unfold vadd. rewrite nth_zipw with (da := s0) (db := s0) by lia. rewrite !cplx_nth. unfold sig_sine, sig_jump. rewrite !nth_tab by auto. apply C_eq; cbn; ring. }
  assert (LB : length (vadd (cplx (sig_sine n)) (cplx (sig_jump n))) = n) by (apply vadd_length; auto).
  split; [|split].
  - unfold consistent. cbn [p_x p_A p_Phi p_Psi p_b p_reconstruct p_y p_both]. rewrite I1, I2, S1, S2.
    split; [reflexivity|]. split; [reflexivity|]. split; [reflexivity|]. split; [reflexivity|].
    split; [rewrite app_length; lia|]. split; [exact LB|]. split; [intros v _; now rewrite identity_times|].
    split; [exact T|]. split.
    + rewrite T. apply list_eq_nth with (d := @s0 Cs); [apply map_length|]. intros i Hi. rewrite map_length, LB in Hi.
      rewrite (@nth_map_lt _ _ (@sre Cs) _ i s0 s0) by lia. rewrite (B i Hi). reflexivity.
    + split; [discriminate|]. intros _. left. apply identity_id.
  - intros H4. exists ([2; n - 2] ++ map (Nat.add (length x0)) (jumps n)). split.
    + rewrite app_length, map_length. pose proof (jumps_len n Hn). cbn [length]. lia.
    + apply supp_app; [exact (sine_supp n Hn H4)|exact (jump_supp n Hn)].
  - exact B.
Qed.

(** *** problems in an orthogonal wavelet basis *)
Lemma dwt_basis_recon dwt1 idwt1 ml n level T y : orthogonal_filter_bank dwt1 idwt1 -> 1 <= level <= Nat.log2_up n ->
  op_dwt dwt1 idwt1 ml n level true = Some T -> length y = n -> times T (trans T y) = y /\ om T = n /\ length (trans T y) = on T /\ jit_safe T = true.
Proof.
  intros (H1 & H2 & H3 & H4 & H5) Hl HT Hy. destruct (op_dwt_basis dwt1 idwt1 ml n level HT) as [T' [E' [E1 [E2 [E3 E4]]]]].
  rewrite E1, E2, E3, E4. split; [exact (@op_dwt_recon dwt1 idwt1 H1 H2 H3 H4 ml n level T' y Hl E' Hy)|].
  destruct (@op_dwt_adjoint dwt1 idwt1 H1 H2 H5 ml n level T' Hl E') as [F1 [F2 [F3 _]]]. split; [exact F2|]. split; [rewrite F1; now apply F3|].
  unfold op_dwt in HT. destruct (level <=? ml); [|discriminate]. injection HT as <-. reflexivity.
Qed.
Lemma prob002_ok dwt1 idwt1 ml n b : orthogonal_filter_bank dwt1 idwt1 -> 16 < n -> 5 <= ml -> length b = n ->
  exists P x, prob002 dwt1 idwt1 ml n b = Some P /\ consistent P x /\ p_b P = b.
Proof.
  intros HF Hn Hm Hb. assert (Hl : 1 <= 5 <= Nat.log2_up n).
  { split; [lia|]. destruct (Nat.le_gt_cases 5 (Nat.log2_up n)); auto. exfalso. assert (Nat.log2_up n <= 4) by lia. apply Nat.log2_up_le_pow2 in H0; [|lia]. simpl in H0. lia. }
  unfold prob002. destruct (op_dwt dwt1 idwt1 ml n 5 true) as [T|] eqn:E.
  - destruct (dwt_basis_recon dwt1 idwt1 ml n 5 T b HF Hl E Hb) as [R [S1 [S2 _]]]. eexists. exists (trans T b). split; [reflexivity|]. split; [|reflexivity].
    destruct (identity_shape Rs n) as [I1 I2]. unfold consistent. cbn [p_x p_A p_Phi p_Psi p_b p_reconstruct p_y p_both]. rewrite I1, I2, S1.
    split; [reflexivity|]. split; [reflexivity|]. split; [reflexivity|]. split; [reflexivity|]. split; [exact S2|]. split; [exact Hb|].
    split; [intros v _; now rewrite identity_times|]. split; [exact R|]. split; [reflexivity|]. split; [discriminate|]. intros _. left. apply identity_id.
  - exfalso. unfold op_dwt in E. destruct (Nat.leb_spec 5 ml); [discriminate|lia].
Qed.

(** *** the piecewise cubic signal *)
Definition nasc (l : list nat) : Prop := forall i j, i <= j -> j < length l -> nth i l 0 <= nth j l 0.
Lemma nasc_tl a l : nasc (a :: l) -> nasc l.
Proof. intros H i j Hij Hj. apply (H (S i) (S j)); simpl; lia. Qed.
Lemma set_slice_len a v y : a + length v <= length y -> length (set_slice a v y) = length y.
Proof. intros H. unfold set_slice. rewrite !app_length, firstn_length, skipn_length. lia. Qed.
Lemma set_slice_nth a v y i : a + length v <= length y -> i < length y ->
  nth i (set_slice a v y) 0%R = if (i <? a) then nth i y 0%R else if (i <? a + length v) then nth (i - a) v 0%R else nth i y 0%R.
Proof.
  intros H Hi. unfold set_slice. destruct (Nat.ltb_spec i a).
  - rewrite app_nth1 by (rewrite firstn_length; lia). now apply nth_firstn.
  - rewrite app_nth2 by (rewrite firstn_length; lia). rewrite firstn_length, Nat.min_l by lia. destruct (Nat.ltb_spec i (a + length v)).
    + rewrite app_nth1 by lia. reflexivity.
    + rewrite app_nth2 by lia. rewrite nth_skipn. f_equal. lia.
Qed.
Definition piece (a b : nat) (c : list R) : list R := tab (b - a) (fun j => cubic c (linspace3 (b - a) j)).
Lemma fill_len n idx : forall cs s, nasc idx -> (forall a, In a idx -> a <= n) -> length s = n -> length (fill_pieces idx cs s) = n.
Proof.
  induction idx as [|a idx IH]; intros cs s HA HB HL; [exact HL|]. destruct idx as [|b idx]; [exact HL|]. destruct cs as [|c cs]; [exact HL|].
  change (fill_pieces (a :: b :: idx) (c :: cs) s) with (fill_pieces (b :: idx) cs (set_slice a (piece a b c) s)). unfold piece. pose proof (HA 0 1 ltac:(lia) ltac:(simpl; lia)) as Hab. cbn [nth] in Hab. pose proof (HB b ltac:(right; now left)).
  apply IH; [eapply nasc_tl; eauto|intros; apply HB; now right|]. rewrite set_slice_len; auto. rewrite tab_length. lia.
Qed.
Lemma fill_low n idx : forall cs s i, nasc idx -> (forall a, In a idx -> a <= n) -> length s = n -> i < n -> i < nth 0 idx 0 -> nth i (fill_pieces idx cs s) 0%R = nth i s 0%R.
Proof.
  induction idx as [|a idx IH]; intros cs s i HA HB HL Hn Hi; [reflexivity|]. destruct idx as [|b idx]; [reflexivity|]. destruct cs as [|c cs]; [reflexivity|].
  change (fill_pieces (a :: b :: idx) (c :: cs) s) with (fill_pieces (b :: idx) cs (set_slice a (piece a b c) s)). unfold piece. pose proof (HA 0 1 ltac:(lia) ltac:(simpl; lia)) as Hab. cbn [nth] in Hab, Hi. pose proof (HB b ltac:(right; now left)).
  rewrite IH; auto.
  - rewrite set_slice_nth by (rewrite ?tab_length; lia). destruct (Nat.ltb_spec i a); [reflexivity|lia].
  - eapply nasc_tl; eauto.
  - intros; apply HB; now right.
  - rewrite set_slice_len; auto. rewrite tab_length. lia.
  - cbn [nth]. lia.
Qed.
Lemma fill_nth n idx : forall cs s i j, nasc idx -> (forall a, In a idx -> a <= n) -> length s = n -> S (length cs) = length idx -> j < length cs ->
  nth j idx 0 <= i < nth (S j) idx 0 ->
  nth i (fill_pieces idx cs s) 0%R = cubic (nth j cs []) (linspace3 (nth (S j) idx 0 - nth j idx 0) (i - nth j idx 0)).
Proof.
  induction idx as [|a idx IH]; intros cs s i j HA HB HL HC Hj Hi; [simpl in HC; lia|]. destruct idx as [|b idx]; [simpl in HC; lia|]. destruct cs as [|c cs]; [simpl in Hj; lia|].
  pose proof (HA 0 1 ltac:(lia) ltac:(simpl; lia)) as Hab. cbn [nth] in Hab. pose proof (HB b ltac:(right; now left)) as Hb.
  assert (Hin : i < n). { assert (nth (S j) (a :: b :: idx) 0 <= n); [|lia]. apply HB, nth_In. simpl in *. lia. }
  assert (HB' : forall x, In x (b :: idx) -> x <= n) by (intros; apply HB; now right).
  assert (HL' : length (set_slice a (piece a b c) s) = n) by (rewrite set_slice_len; auto; unfold piece; rewrite tab_length; lia).
  change (fill_pieces (a :: b :: idx) (c :: cs) s) with (fill_pieces (b :: idx) cs (set_slice a (piece a b c) s)).
  destruct j as [|j].
  - cbn [nth] in *. rewrite (fill_low n (b :: idx) cs _ i (nasc_tl _ _ HA) HB' HL' Hin) by (cbn [nth]; lia).
    unfold piece. rewrite set_slice_nth by (rewrite ?tab_length; lia). rewrite tab_length. destruct (Nat.ltb_spec i a); [lia|]. destruct (Nat.ltb_spec i (a + (b - a))); [|lia].
    rewrite nth_tab by lia. reflexivity.
  - change (nth (S j) (c :: cs) []) with (nth j cs []). change (nth (S (S j)) (a :: b :: idx) 0) with (nth (S j) (b :: idx) 0) in *. change (nth (S j) (a :: b :: idx) 0) with (nth j (b :: idx) 0) in *.
    apply IH; auto; [exact (nasc_tl _ _ HA)|simpl in HC, Hj |- *; lia].
Qed.
Lemma locate l : forall i, l <> [] -> nth 0 l 0 <= i < nth (length l - 1) l 0 -> exists j, S j < length l /\ nth j l 0 <= i < nth (S j) l 0.
Proof.
  induction l as [|a l IH]; intros i Hne Hi; [congruence|]. destruct l as [|b l]; [simpl in Hi; lia|].
  destruct (Nat.lt_ge_cases i b) as [L|L].
  - exists 0. simpl in *. lia.
  - destruct (IH i ltac:(discriminate)) as [j [Hj Hij]].
    + split; [exact L|]. replace (length (a :: b :: l) - 1) with (S (length (b :: l) - 1)) in Hi by (simpl; lia). apply Hi.
    + exists (S j). split; [simpl in *; lia|exact Hij].
Qed.
Lemma breaks_ok n u : (forall x, In x u -> (0 <= x <= 1)%R) ->
  nasc (breaks n u) /\ length (breaks n u) = length u + 2 /\ nth 0 (breaks n u) 0 = 0 /\ nth (length u + 1) (breaks n u) 0 = n.
Proof.
  intros Hu. set (l := rsort ((0%R :: u) ++ [1%R])).
  assert (LL : length l = length u + 2) by (unfold l; rewrite rsort_len, app_length; simpl; lia).
  pose proof (rsort_asc ((0%R :: u) ++ [1%R])) as HA. fold l in HA. pose proof (rsort_perm ((0%R :: u) ++ [1%R])) as HP. fold l in HP.
  assert (Hr : forall x, In x l -> (0 <= x <= 1)%R).
  { intros x Hx. apply (Permutation_in _ HP) in Hx. apply in_app_or in Hx as [[<-|Hx]|[<-|[]]]; try lra. auto. }
  assert (F0 : nth 0 l 0%R = 0%R).
  { assert (I0 : In 0%R l) by (apply (Permutation_in _ (Permutation_sym HP)); apply in_or_app; left; now left).
    destruct (In_nth _ _ 0%R I0) as [k [Hk E]]. pose proof (HA 0 k ltac:(lia) Hk) as Q. pose proof (Hr (nth 0 l 0%R) ltac:(apply nth_In; lia)). lra. }
  assert (F1 : nth (length u + 1) l 0%R = 1%R).
  { assert (I1 : In 1%R l) by (apply (Permutation_in _ (Permutation_sym HP)); apply in_or_app; right; now left).
    destruct (In_nth _ _ 0%R I1) as [k [Hk E]]. pose proof (HA k (length u + 1) ltac:(lia) ltac:(lia)) as Q. pose proof (Hr (nth (length u + 1) l 0%R) ltac:(apply nth_In; lia)). lra. }
  assert (N : forall k, k < length l -> nth k (breaks n u) 0 = Z.to_nat (py_round (nth k l 0%R * INR n))).
  { intros k Hk. unfold breaks. fold l. now rewrite (@nth_map_lt _ _ (fun p => Z.to_nat (py_round (p * INR n))) l k 0%R 0). }
  split; [|split; [|split]].
  - intros i j Hij Hj. assert (Hj' : j < length l) by (unfold breaks in Hj; now rewrite map_length in Hj). rewrite !N by lia.
    pose proof (rnd_mono (nth i l 0%R * INR n) (nth j l 0%R * INR n)) as Q. assert (nth i l 0 * INR n <= nth j l 0 * INR n)%R by (apply Rmult_le_compat_r; [apply pos_INR|apply HA; lia]).
    specialize (Q H). lia.
  - unfold breaks. rewrite map_length. exact LL.
  - rewrite N by lia. rewrite F0, Rmult_0_l. change 0%R with (INR 0). rewrite rnd_int. reflexivity.
  - rewrite N by lia. rewrite F1, Rmult_1_l, rnd_int. apply Nat2Z.id.
Qed.
Lemma breaks_ok' n u : (forall x, In x u -> (0 <= x <= 1)%R) ->
  nasc (breaks n u) /\ length (breaks n u) = length u + 2 /\ nth 0 (breaks n u) 0 = 0 /\ nth (length u + 1) (breaks n u) 0 = n /\
  exists l, Permutation l (0%R :: u ++ [1%R]) /\ ascending l /\
    forall i, i < length (breaks n u) -> (Rabs (INR (nth i (breaks n u) 0%nat) - nth i l 0 * INR n) <= 1 / 2)%R.
Proof.
  intros Hu. destruct (breaks_ok n u Hu) as [H1 [H2 [H3 H4]]]. repeat (split; [assumption|]). exists (rsort ((0%R :: u) ++ [1%R])).
  split; [apply rsort_perm|]. split; [apply rsort_asc|]. intros i Hi. unfold breaks in *. set (l := rsort _) in *. rewrite map_length in Hi.
  rewrite (@nth_map_lt _ _ (fun p => Z.to_nat (py_round (p * INR n))) l i 0%R 0) by auto.
  assert (Hr : (0 <= nth i l 0)%R). { assert (Q : In (nth i l 0%R) l) by (now apply nth_In). apply (Permutation_in _ (rsort_perm _)) in Q. apply in_app_or in Q as [[<-|Q]|[<-|[]]]; try lra. now apply Hu. }
  assert (0 <= py_round (nth i l 0%R * INR n))%Z. { pose proof (rnd_mono (INR 0) (nth i l 0%R * INR n)) as Q. rewrite rnd_int in Q. apply Q. apply Rmult_le_pos; [exact Hr|apply pos_INR]. }
  rewrite INR_IZR_INZ, Z2Nat.id by auto. apply py_round_near.
Qed.
Lemma poly_ok n u cs : (forall x, In x u -> (0 <= x <= 1)%R) -> length cs = length u + 1 ->
  length (piecewise_polynomial n u cs) = n /\
  forall i, i < n -> exists j, j < length cs /\ nth j (breaks n u) 0 <= i < nth (S j) (breaks n u) 0 /\
    nth i (piecewise_polynomial n u cs) 0%R = cubic (nth j cs []) (linspace3 (nth (S j) (breaks n u) 0 - nth j (breaks n u) 0) (i - nth j (breaks n u) 0)).
Proof.
  intros Hu Hc. destruct (breaks_ok n u Hu) as [HA [HL [H0 H1]]].
  assert (HB : forall a, In a (breaks n u) -> a <= n).
  { intros a Ha. destruct (In_nth _ _ 0 Ha) as [k [Hk <-]]. rewrite <- H1 at 2. apply HA; lia. }
  split; [apply fill_len; auto; apply repeat_length|]. intros i Hi.
  destruct (locate (breaks n u) i) as [j [Hj Hij]].
  - intros E. rewrite E in HL. simpl in HL. lia.
  - rewrite H0. replace (length (breaks n u) - 1) with (length u + 1) by lia. rewrite H1. lia.
  - exists j. split; [lia|]. split; [exact Hij|]. apply (fill_nth n); auto; try lia. apply repeat_length.
Qed.
Lemma prob006_ok dwt1 idwt1 ml m n level u cs G : orthogonal_filter_bank dwt1 idwt1 -> 1 <= level <= Nat.log2_up n -> level <= ml ->
  (forall x, In x u -> (0 <= x <= 1)%R) -> length cs = length u + 1 -> wf_mat (K:=Rs) m n G ->
  exists P x, prob006 dwt1 idwt1 ml m n level u cs G = Some P /\ consistent P x /\ p_y P = Some (piecewise_polynomial n u cs) /\ om (p_A P) = m.
Proof.
  intros HF Hl Hm Hu Hc HG. destruct (poly_ok n u cs Hu Hc) as [Ly _]. unfold prob006. cbv zeta. set (y := piecewise_polynomial n u cs) in *.
  destruct (op_dwt dwt1 idwt1 ml n level true) as [T|] eqn:E; [|exfalso; unfold op_dwt in E; destruct (Nat.leb_spec level ml); [discriminate|lia]].
  destruct (dwt_basis_recon dwt1 idwt1 ml n level T y HF Hl E Ly) as [R [S1 [S2 S3]]]. unfold op_jit. rewrite S3. unfold op_compose.
  cbn [gaussian_dict op_matrix on om]. rewrite S1, Nat.eqb_refl. eexists. exists (trans T y). split; [reflexivity|]. split; [|split; reflexivity].
  unfold consistent. cbn [p_x p_A p_Phi p_Psi p_b p_reconstruct p_y p_both om on times trans].
  split; [reflexivity|]. split; [reflexivity|]. split; [reflexivity|]. split; [reflexivity|]. split; [exact S2|].
  split; [cbn; unfold matvec; rewrite map_length; apply HG|]. split; [reflexivity|]. split; [now rewrite R|]. split; [reflexivity|].
  split; [intros z Ez; injection Ez as <-; split; [exact R|reflexivity]|]. discriminate.
Qed.
(** *** spikes *)
Lemma prob007_ok k0 m0 n0 scale g si G : draw (scaled scale n0) (scaled scale k0) si g -> wf_mat (K:=Rs) (scaled scale m0) (scaled scale n0) G ->
  exists P x, prob007 k0 m0 n0 scale g si G = Some P /\ consistent P x /\ supported_on si x /\ p_y P = Some x /\
    (forall p, p < length si -> nth p g 0%R <> 0%R -> nth (nth p si 0) x 0%R = 1%R \/ nth (nth p si 0) x 0%R = (-1)%R).
Proof.
  intros Hd HG. assert (Hd' : draw (scaled scale n0) (scaled scale k0) si (map sign g)).
  { destruct Hd as [D1 [D2 [D3 D4]]]. unfold draw. rewrite map_length. auto. }
  unfold prob007. cbv zeta. rewrite (spikes_some Rs _ _ _ _ Hd'). eexists. eexists. split; [reflexivity|].
  split; [apply (matrix_problem Rs); auto; apply (spikes_len Rs)|]. split; [apply spikes_supp|]. split; [reflexivity|].
  intros p Hp Hg. destruct Hd as [D1 [D2 [D3 D4]]]. pose proof (spike_values Rs _ si (map sign g) D1 D2 ltac:(rewrite map_length; lia) p Hp) as Q.
  cbn [s0 Rs] in Q. assert (W : nth p (map sign g) 0%R = sign (nth p g 0%R)) by (apply nth_map_lt; lia). rewrite (eq_trans Q W). unfold sign. destruct (Rltb_spec 0 (nth p g 0%R)); auto. destruct (Rltb_spec (nth p g 0%R) 0); auto. lra.
Qed.
Lemma prob008_ok k0 m0 n0 scale rg ig si G : draw (scaled scale n0) (scaled scale k0) si rg -> length ig = length rg -> wf_mat (K:=Rs) (scaled scale m0) (scaled scale n0) G ->
  exists P x, prob008 k0 m0 n0 scale rg ig si G = Some P /\ consistent P x /\ supported_on si x /\
    (forall p, p < length si -> nth p rg 0%R <> 0%R -> nth p ig 0%R <> 0%R ->
       exists a b, nth (nth p si 0) x (@s0 Cs) = (a, b) /\ (a = 1%R \/ a = (-1)%R) /\ (b = 1%R \/ b = (-1)%R)).
Proof.
  intros Hd Hl HG. set (vs := zipw (fun a b => (sign a, sign b)) rg ig).
  assert (Lv : length vs = length rg) by (unfold vs; rewrite zipw_length; lia).
  assert (Hd' : draw (scaled scale n0) (scaled scale k0) si vs).
  { destruct Hd as [D1 [D2 [D3 D4]]]. unfold draw. rewrite Lv. auto. }
  assert (HG' : wf_mat (K:=Cs) (scaled scale m0) (scaled scale n0) (map cplx G)).
  { destruct HG as [G1 G2]. split; [rewrite map_length; exact G1|]. intros r Hr. apply in_map_iff in Hr as [r' [<- Hr]]. rewrite cplx_len. now apply G2. }
  unfold prob008. cbv zeta. fold vs. rewrite (spikes_some Cs _ _ _ _ Hd'). eexists. eexists. split; [reflexivity|].
  split; [apply (matrix_problem Cs); auto; apply (spikes_len Cs)|]. split; [apply spikes_supp|].
  intros p Hp Hr Hi. destruct Hd as [D1 [D2 [D3 D4]]]. pose proof (spike_values Cs _ si vs D1 D2 (eq_trans Lv (eq_trans D4 (eq_sym D3))) p Hp) as Q. rewrite Q.
  unfold vs. rewrite nth_zipw with (da := 0%R) (db := 0%R) by lia. exists (sign (nth p rg 0%R)), (sign (nth p ig 0%R)). split; [reflexivity|].
  split; unfold sign; match goal with |- context[Rltb 0 ?a] => destruct (Rltb_spec 0 a); auto; destruct (Rltb_spec a 0); auto; lra end.
Qed.
Lemma prob011_ok k0 m0 n0 scale g si G : draw (scaled scale n0) (scaled scale k0) si g -> wf_mat (K:=Rs) (scaled scale m0) (scaled scale n0) G ->
  exists P x, prob011 k0 m0 n0 scale g si G = Some P /\ consistent P x /\ supported_on si x /\
    (forall p, p < length si -> nth (nth p si 0) x 0%R = nth p g 0%R).
Proof.
  intros Hd HG. unfold prob011. cbv zeta. rewrite (spikes_some Rs _ _ _ _ Hd). eexists. eexists. split; [reflexivity|].
  split; [apply (matrix_problem Rs); auto; apply (spikes_len Rs)|]. split; [apply spikes_supp|].
  intros p Hp. destruct Hd as [D1 [D2 [D3 D4]]]. exact (spike_values Rs _ si g D1 D2 (eq_trans D4 (eq_sym D3)) p Hp).
Qed.
Lemma prob_heaviside_ok nz n b : length b = n -> exists x, consistent (prob_heaviside nz n b) x /\ p_b (prob_heaviside nz n b) = b.
Proof.
  intros Hb. exists (times (@op_inv_heaviside Rs n nz) b). split; [|reflexivity].
  destruct (identity_shape Rs n) as [I1 I2]. destruct (@inv_heaviside_adjoint Rs n nz) as [_ [_ [M _]]].
  assert (S1 : om (@op_heaviside Rs n nz) = n /\ on (@op_heaviside Rs n nz) = n) by (unfold op_heaviside; destruct nz; split; reflexivity). destruct S1 as [S1 S2].
  unfold consistent, prob_heaviside. cbn [p_x p_A p_Phi p_Psi p_b p_reconstruct p_y p_both]. rewrite I1, I2, S1, S2.
  split; [reflexivity|]. split; [reflexivity|]. split; [reflexivity|]. split; [reflexivity|]. split; [apply M; exact Hb|]. split; [exact Hb|].
  split; [intros v _; now rewrite identity_times|]. split; [exact (@inv_heaviside_inv Rs n nz b Hb)|]. split; [reflexivity|]. split; [discriminate|]. intros _. left. apply identity_id.
Qed.
