(** The generated test problems are consistent and sparse. *)
From Coq Require Import List Arith ZArith Bool Lia Reals Lra Psatz.
From Verif Require Import Scalar Vec RVec LopSpec LopOpSpec LopModel LopLemmas LopProofs LopProofs2 FourierModel FourierProofs FourierProofs2
  BasisModel BasisProofs OptModel SortedL1Model ProblemModel ProblemSpec.
Import ListNotations.

Section K.
  Variable K : scalar.
  Notation vec := (list K).
  Add Ring Kr : (s_ring K).
  Lemma identity_id n : @acts_as_identity K (op_identity n n).
  Proof. unfold op_identity. rewrite Nat.eqb_refl. split; [reflexivity|]. intros v _. reflexivity. Qed.
  Lemma identity_shape n : om (@op_identity K n n) = n /\ on (@op_identity K n n) = n.
  Proof. unfold op_identity. rewrite Nat.eqb_refl. split; reflexivity. Qed.
  Lemma identity_times n (v : vec) : times (@op_identity K n n) v = v.
  Proof. unfold op_identity. now rewrite Nat.eqb_refl. Qed.
  Lemma vadd_swap (x y : vec) : vadd x y = vadd y x.
  Proof. revert y. induction x as [|a x IH]; intros [|b y]; auto. unfold vadd in *. cbn [zipw]. f_equal; [ring|apply IH]. Qed.
  Lemma spikes_some n k idx (vs : vec) : draw n k idx vs -> spikes K n k idx vs = Some (LopModel.scatter idx vs (vzero n)).
  Proof.
    intros [H1 [H2 [H3 _]]]. unfold spikes. destruct (Nat.leb_spec k n) as [|G]; auto. exfalso.
    assert (length idx <= length (seq 0 n)).
    { apply NoDup_incl_length; auto. intros i Hi. apply in_seq. specialize (H2 i Hi). lia. }
    rewrite seq_length in H. lia.
  Qed.
  Lemma spikes_len n idx (vs : vec) : length (LopModel.scatter idx vs (vzero n)) = n.
  Proof. rewrite scatter_length. apply repeat_length. Qed.
  Lemma nth_vzero n i : nth i (@vzero K n) s0 = s0.
  Proof. unfold vzero. revert i. induction n; intros [|i]; simpl; auto. Qed.
  Lemma spikes_supp n idx (vs : vec) : supported_on idx (LopModel.scatter idx vs (vzero n)).
  Proof.
    intros i Hi. destruct (in_dec Nat.eq_dec i idx) as [|G]; auto. exfalso. apply Hi. rewrite scatter_nth_notin by auto. apply nth_vzero.
  Qed.
  Lemma supp_map (f : K -> K) s (x : vec) : f s0 = s0 -> supported_on s x -> supported_on (K:=K) s (map f x).
  Proof.
    intros Hf H i Hi. apply H. intros E. apply Hi. destruct (Nat.lt_ge_cases i (length x)) as [L|L].
    - rewrite (@nth_map_lt _ _ f x i s0 s0 L), E. exact Hf.
    - apply nth_overflow. now rewrite map_length.
  Qed.
  Lemma supp_app s t (x y : vec) : supported_on s x -> supported_on t y -> supported_on (s ++ map (Nat.add (length x)) t) (x ++ y).
  Proof.
    intros Hs Ht i Hi. apply in_or_app. destruct (Nat.lt_ge_cases i (length x)) as [L|L].
    - left. apply Hs. now rewrite app_nth1 in Hi.
    - right. rewrite app_nth2 in Hi by lia. apply in_map_iff. exists (i - length x). split; [lia|]. now apply Ht.
  Qed.
  (** an identity beside a basis B: b = B c + s *)
  Lemma dirac_plus n (B : operator K) (c s : vec) : om B = n -> on B = n -> length c = n -> length s = n -> length (times B c) = n -> jit_safe B = true ->
    exists D D', op_hcat (op_identity n n) B = Some D /\ op_jit D = Some D' /\ om D' = n /\ on D' = n + n /\ times D' (s ++ c) = vadd (times B c) s.
  Proof.
    intros H1 H2 Hc Hs Hb Hj. unfold op_hcat. destruct (identity_shape n) as [E1 E2]. rewrite E1, H1, Nat.eqb_refl.
    assert (J : jit_safe (@op_identity K n n) = true) by (unfold op_identity; now rewrite Nat.eqb_refl).
    rewrite J, Hj, E2, H2. cbn [andb].
    eexists. eexists. split; [reflexivity|]. unfold op_jit. cbn [jit_safe]. split; [reflexivity|]. cbn [om on times].
    split; [reflexivity|]. split; [reflexivity|]. rewrite firstn_app, skipn_app, <- Hs, firstn_all, Nat.sub_diag, skipn_all. cbn [firstn skipn]. rewrite app_nil_r. cbn [app].
    rewrite identity_times. apply vadd_swap.
  Qed.
End K.

Lemma rnd_mono r s : (r <= s)%R -> (py_round r <= py_round s)%Z.
Proof.
  assert (B : forall r, (IZR (Int_part r) <= r < IZR (Int_part r) + 1)%R).
  { intros x. pose proof (base_Int_part x). lra. }
  intros H. pose proof (B r) as Br. pose proof (B s) as Bs.
  assert (M : (Int_part r <= Int_part s)%Z).
  { apply Z.lt_succ_r. apply lt_IZR. rewrite succ_IZR. lra. }
  unfold py_round. destruct (Z.eq_dec (Int_part r) (Int_part s)) as [E|E].
  - rewrite E in *. repeat match goal with |- context[Rlt_dec ?a ?b] => destruct (Rlt_dec a b) end; try lra; try lia; destruct (Z.even (Int_part s)); lia.
  - assert (M2 : (Int_part r + 1 <= Int_part s)%Z) by lia.
    repeat match goal with |- context[Rlt_dec ?a ?b] => destruct (Rlt_dec a b) end; repeat match goal with |- context[Z.even ?a] => destruct (Z.even a) end; lia.
Qed.
Lemma rnd_int (k : nat) : py_round (INR k) = Z.of_nat k.
Proof.
  assert (E : Int_part (INR k) = Z.of_nat k).
  { pose proof (base_Int_part (INR k)) as [B1 B2]. rewrite INR_IZR_INZ in *. apply Z.le_antisymm.
    - now apply le_IZR.
    - apply Z.lt_succ_r. apply lt_IZR. rewrite succ_IZR. lra. }
  unfold py_round. rewrite E, INR_IZR_INZ. destruct (Rlt_dec _ _); auto. lra.
Qed.
Lemma scaled_mono scale k n : (0 <= scale)%R -> k <= n -> scaled scale k <= scaled scale n.
Proof.
  intros Hs Hk. unfold scaled. assert (py_round (scale * INR k) <= py_round (scale * INR n))%Z.
  { apply rnd_mono. apply Rmult_le_compat_l; auto. now apply le_INR. }
  lia.
Qed.
Lemma scaled_one k : 1 <= k -> scaled 1 k = k.
Proof. intros H. unfold scaled. rewrite Rmult_1_l, rnd_int. lia. Qed.

Lemma spike_values (K : scalar) n idx (vs : list K) : NoDup idx -> (forall i, In i idx -> i < n) -> length vs = length idx ->
  forall p, p < length idx -> nth (nth p idx 0) (LopModel.scatter idx vs (vzero n)) s0 = nth p vs s0.
Proof. intros H1 H2 H3 p Hp. apply scatter_nth_in; auto. unfold vzero. rewrite repeat_length. exact H2. Qed.
Lemma stacked (K : scalar) n c k si (sv : list K) ci cv (f : K -> K) : f s0 = s0 -> draw n c ci cv -> draw n k si sv ->
  spikes_and_coefficients n si sv ci cv f (LopModel.scatter si sv (vzero n) ++ map f (LopModel.scatter ci cv (vzero n))).
Proof.
  intros Hf [C1 [C2 [C3 C4]]] [S1 [S2 [S3 S4]]]. pose proof (spikes_len K n si sv) as L. pose proof (spikes_len K n ci cv) as L'. split; [|split].
  - rewrite <- L at 1. apply supp_app; [apply spikes_supp|]. apply supp_map; [exact Hf|apply spikes_supp].
  - intros p Hp. rewrite app_nth1 by (rewrite L; apply S2, nth_In; exact Hp). apply spike_values; auto. congruence.
  - intros p Hp. rewrite app_nth2 by (rewrite L; lia). rewrite L. replace (n + nth p ci 0 - n) with (nth p ci 0) by lia.
    rewrite (@nth_map_lt _ _ f _ (nth p ci 0) s0 s0) by (rewrite L'; apply C2, nth_In; exact Hp). f_equal. apply spike_values; auto. congruence.
Qed.

Lemma prob003_ok c k n ci cv si sv : 0 < n -> draw n c ci cv -> draw n k si sv ->
  exists P x, prob003 c k n ci cv si sv = Some P /\ consistent P x /\ spikes_and_coefficients (K:=Rs) n si sv ci cv (fun a => (a * sqrt (INR n / 2))%R) x.
Proof.
  intros Hn Hc Hk. set (co := map (fun a => (a * sqrt (INR n / 2))%R) (LopModel.scatter (K:=Rs) ci cv (vzero n))).
  set (sp := LopModel.scatter (K:=Rs) si sv (vzero n)).
  assert (Lc : length co = n) by (unfold co; rewrite map_length; apply (spikes_len Rs)).
  assert (Ls : length sp = n) by apply (spikes_len Rs).
  destruct (dct_adjoint Hn) as [_ [_ [M _]]]. specialize (M co Lc).
  destruct (dirac_plus Rs n (op_cosine_basis n) co sp eq_refl eq_refl Lc Ls M eq_refl) as [D [D' [E1 [E2 [S1 [S2 T]]]]]].
  unfold prob003. rewrite E1, E2, (spikes_some Rs n c ci cv Hc), (spikes_some Rs n k si sv Hk). cbv zeta. fold co sp.
  eexists. exists (sp ++ co). split; [reflexivity|]. destruct (identity_shape Rs n) as [I1 I2]. split.
  - unfold consistent. cbn [p_x p_A p_Phi p_Psi p_b p_reconstruct p_y p_both]. rewrite I1, I2, S1, S2.
    split; [reflexivity|]. split; [reflexivity|]. split; [reflexivity|]. split; [reflexivity|].
    split; [exact (eq_trans (app_length sp co) (f_equal2 Nat.add Ls Lc))|]. split; [exact (@vadd_length _ n _ _ M Ls)|]. split; [intros v _; now rewrite identity_times|].
    split; [exact T|]. split; [reflexivity|]. split; [discriminate|]. intros _. left. apply identity_id.
  - exact (stacked Rs n c k si sv ci cv _ (Rmult_0_l _) Hc Hk).
Qed.
Lemma prob004_ok c k n ci cv si sv : 0 < n -> draw n c ci cv -> draw n k si sv ->
  exists P x, prob004 c k n ci cv si sv = Some P /\ consistent P x /\ spikes_and_coefficients (K:=Cs) n si sv ci cv (fun a => smul a (ofR (sqrt (INR n / 2)))) x.
Proof.
  intros Hn Hc Hk. set (co := map (fun a => smul a (ofR (sqrt (INR n / 2)))) (LopModel.scatter (K:=Cs) ci cv (vzero n))).
  set (sp := LopModel.scatter (K:=Cs) si sv (vzero n)).
  assert (Lc : length co = n) by (unfold co; rewrite map_length; apply (spikes_len Cs)).
  assert (Ls : length sp = n) by apply (spikes_len Cs).
  destruct (fourier_basis_adjoint Hn) as [_ [_ [M _]]]. specialize (M co Lc).
  destruct (dirac_plus Cs n (op_fourier_basis n) co sp eq_refl eq_refl Lc Ls M eq_refl) as [D [D' [E1 [E2 [S1 [S2 T]]]]]].
  unfold prob004. rewrite E1, E2, (spikes_some Cs n c ci cv Hc), (spikes_some Cs n k si sv Hk). cbv zeta. fold co sp.
  eexists. exists (sp ++ co). split; [reflexivity|]. destruct (identity_shape Cs n) as [I1 I2]. split.
  - unfold consistent. cbn [p_x p_A p_Phi p_Psi p_b p_reconstruct p_y p_both]. rewrite I1, I2, S1, S2.
    split; [reflexivity|]. split; [reflexivity|]. split; [reflexivity|]. split; [reflexivity|].
    split; [exact (eq_trans (app_length sp co) (f_equal2 Nat.add Ls Lc))|]. split; [exact (@vadd_length _ n _ _ M Ls)|]. split; [intros v _; now rewrite identity_times|].
    split; [exact T|]. split; [reflexivity|]. split; [intros y E; injection E as <-; split; [exact T|apply identity_times]|]. intros _. left. apply identity_id.
  - refine (stacked Cs n c k si sv ci cv _ _ Hc Hk). apply C_eq; cbn; ring.
Qed.
Lemma prob005_ok c k m n ci cv si sv G : 0 < n -> draw n c ci cv -> draw n k si sv -> wf_mat (K:=Rs) m n G ->
  exists P x, prob005 c k m n ci cv si sv G = Some P /\ consistent P x /\ spikes_and_coefficients (K:=Rs) n si sv ci cv (fun a => (a * sqrt (INR n / 2))%R) x /\ p_y P <> None /\ om (p_A P) = m.
Proof.
  intros Hn Hc Hk HG. set (co := map (fun a => (a * sqrt (INR n / 2))%R) (LopModel.scatter (K:=Rs) ci cv (vzero n))).
  set (sp := LopModel.scatter (K:=Rs) si sv (vzero n)).
  assert (Lc : length co = n) by (unfold co; rewrite map_length; apply (spikes_len Rs)).
  assert (Ls : length sp = n) by apply (spikes_len Rs).
  destruct (dct_adjoint Hn) as [_ [_ [M _]]]. specialize (M co Lc).
  destruct (dirac_plus Rs n (op_cosine_basis n) co sp eq_refl eq_refl Lc Ls M eq_refl) as [D [D' [E1 [E2 [S1 [S2 T]]]]]].
  unfold prob005. rewrite E1, E2, (spikes_some Rs n c ci cv Hc), (spikes_some Rs n k si sv Hk). cbv zeta. fold co sp.
  unfold op_compose. cbn [gaussian_dict op_matrix on]. rewrite S1, Nat.eqb_refl.
  eexists. exists (sp ++ co). split; [reflexivity|]. split; [|split].
  - unfold consistent. cbn [p_x p_A p_Phi p_Psi p_b p_reconstruct p_y p_both om on times]. rewrite S1, S2.
    split; [reflexivity|]. split; [reflexivity|]. split; [reflexivity|]. split; [reflexivity|].
    split; [exact (eq_trans (app_length sp co) (f_equal2 Nat.add Ls Lc))|]. split; [cbn; unfold matvec; rewrite map_length; apply HG|]. split; [reflexivity|].
    split; [now rewrite T|]. split; [reflexivity|]. split; [intros y E; injection E as <-; split; [exact T|reflexivity]|]. discriminate.
  - exact (stacked Rs n c k si sv ci cv _ (Rmult_0_l _) Hc Hk).
  - split; [discriminate|reflexivity].
Qed.

(** *** spikes measured by a matrix *)
Lemma matrix_problem (K : scalar) m n G (x : list K) y : wf_mat m n G -> length x = n -> (y = Some x \/ y = None) ->
  consistent (Problem (gaussian_dict K m n G) (op_identity n n) (gaussian_dict K m n G) (times (gaussian_dict K m n G) x) (fun x => x) (Some x) y false) x.
Proof.
  intros HG Hx Hy. destruct (identity_shape K n) as [I1 I2]. unfold consistent. cbn [p_x p_A p_Phi p_Psi p_b p_reconstruct p_y p_both]. rewrite I1, I2.
  split; [reflexivity|]. split; [reflexivity|]. split; [reflexivity|]. split; [reflexivity|]. split; [exact Hx|].
  split; [cbn; unfold matvec; rewrite map_length; apply HG|]. split; [intros v _; now rewrite identity_times|]. split; [reflexivity|].
  split; [now rewrite identity_times|]. split; [intros z E; destruct Hy as [->| ->]; [injection E as <-; split; reflexivity|discriminate]|].
  intros _. right. apply identity_id.
Qed.

Lemma py_round_near r : (Rabs (IZR (py_round r) - r) <= 1 / 2)%R /\ (Rabs (IZR (py_round r) - r) = (1 / 2)%R -> Z.even (py_round r) = true).
Proof.
  pose proof (base_Int_part r) as B. unfold py_round.
  destruct (Rlt_dec (r - IZR (Int_part r)) (1 / 2)); [|destruct (Rlt_dec (1 / 2) (r - IZR (Int_part r)))]; [| |destruct (Z.even (Int_part r)) eqn:E]; rewrite ?plus_IZR;
    try rewrite Z.even_add, ?E; unfold Rabs; repeat match goal with |- context[Rcase_abs ?a] => destruct (Rcase_abs a) end; split; try lra; auto.
Qed.
Lemma scaled_near scale k : (1 <= scale * INR k)%R -> (Rabs (INR (scaled scale k) - scale * INR k) <= 1 / 2)%R.
Proof.
  intros H. destruct (py_round_near (scale * INR k)) as [N _]. unfold scaled. set (z := py_round (scale * INR k)) in *.
  assert (1 <= z)%Z. { apply le_IZR. assert (P := rnd_mono (INR 1) (scale * INR k) H). rewrite rnd_int in P. apply IZR_le. exact P. }
  rewrite Nat.max_r by lia. rewrite INR_IZR_INZ, Z2Nat.id by lia. exact N.
Qed.
