(** Pointwise meanings, flags, instance-level facts and refutations. *)
From Coq Require Import List Arith Bool Lia Reals Lra Psatz.
From Verif Require Import Scalar Vec Loop LopSpec LopOpSpec LopModel LopModel2D LopModel3 LopLemmas LopProofs LopProofs2 LopProofs3 LopProofs4.
Import ListNotations.
Set Implicit Arguments.

Section P5.
  Variable K : scalar.
  Add Field KfieldP5 : (s_field K).
  Local Open Scope scal_scope.
  Notation vec := (list K).
  Notation "x @ i" := (nth i x s0) (at level 5, i at level 4).

  Lemma matrix_meaning m n (A : list vec) b x i : wf_mat m n A -> length x = n -> i < m ->
    (times (op_matrix m n A b) x)@i = Sum n (fun j => (nth i A [])@j * x@j).
  Proof.
    intros [Hm Hr] Hx Hi. cbn [op_matrix times]. unfold matvec.
    rewrite nth_map_lt with (da := []) by lia. apply dotu_Sum; auto. apply Hr, nth_In. lia.
  Qed.
  Lemma diagonal_meaning (d x : vec) i : length x = length d -> (times (op_diagonal d) x)@i = d@i * x@i.
  Proof. intros. cbn [op_diagonal times mkop]. now rewrite vmul_nth by lia. Qed.
  Lemma scalar_mult_meaning c n (x : vec) i : (times (op_scalar_mult c n) x)@i = c * x@i.
  Proof. apply vscale_nth. Qed.
  Lemma zero_meaning n m (x : vec) i : (times (op_zero n m) x)@i = s0.
  Proof. apply vzero_nth. Qed.
  Lemma flipud_meaning n (x : vec) i : length x = n -> i < n -> (times (op_flipud n) x)@i = x@(n - 1 - i).
  Proof.
    intros Hx Hi. cbn [op_flipud times mkop]. rewrite rev_nth by lia. f_equal. lia.
  Qed.
  Lemma sum_meaning n (x : vec) : length x = n -> times (op_sum n) x = [Sum n (fun j => x@j)].
  Proof. intros <-. cbn [op_sum times mkop]. now rewrite lsum_Sum. Qed.
  Lemma pad_zeros_meaning n b a (x : vec) i : length x = n -> i < b + n + a ->
    (times (op_pad_zeros n b a) x)@i = if (b <=? i) && (i <? b + n) then x@(i - b) else s0.
  Proof.
    intros Hx Hi. cbn [op_pad_zeros times]. rewrite jpad_nth. bcase; try lia; auto.
    apply nth_over. lia.
  Qed.
  Lemma symmetrize_meaning n (x : vec) i : length x = n -> i < 2 * n ->
    (times (op_symmetrize n) x)@i = if i <? n then x@(n - 1 - i) else x@(i - n).
  Proof.
    intros Hx Hi. cbn [op_symmetrize times mkop]. rewrite app_nth, rev_length. rewrite Hx.
    bcase; auto. rewrite rev_nth by lia. f_equal. lia.
  Qed.
  Lemma restriction_meaning n I (x : vec) i : i < length I ->
    (times (op_restriction n I) x)@i = x@(nth i I 0).
  Proof.
    intros Hi. cbn [op_restriction times mkop]. unfold gather. now rewrite nth_map_lt with (da := 0).
  Qed.
  Lemma cumsum_meaning n (x : vec) i : length x = n -> i < n ->
    (times (op_cumsum n) x)@i = Sum (S i) (fun j => x@j).
  Proof. intros Hx Hi. apply cumsum_nth. lia. Qed.
  Lemma diff_meaning n (x : vec) i : length x = n -> i < n ->
    (times (op_diff n) x)@i = if i =? 0 then x@0 else x@i - x@(i - 1).
  Proof.
    intros Hx Hi. cbn [op_diff op_inv_heaviside times mkop]. rewrite jdiff_pre_nth by lia.
    bcase; auto. subst i. ring.
  Qed.
  Lemma identity_meaning n m (x : vec) i : length x = n -> i < m ->
    (times (op_identity n m) x)@i = if i <? n then x@i else s0.
  Proof.
    intros Hx Hi. unfold op_identity. destruct (Nat.eqb_spec n m).
    - cbn [times mkop]. bcase; auto; lia.
    - destruct (Nat.ltb_spec m n); cbn [times mkop].
      + rewrite firstn_nth. bcase; auto; lia.
      + rewrite jpad_nth. bcase; try lia; rewrite Nat.sub_0_r; auto. apply nth_over. lia.
  Qed.

  (** *** algebra *)
  Definition same_shape (A B : operator K) := om A = om B /\ on A = on B.

  Lemma add_meaning (A B C : operator K) x i : adj A -> adj B -> op_add A B = Some C -> length x = on A ->
    om C = om A /\ on C = on A /\ (times C x)@i = (times A x)@i + (times B x)@i.
  Proof.
    intros [A1 _] [B1 _]. unfold op_add. destruct (Nat.eqb_spec (om A) (om B)) as [E1|], (Nat.eqb_spec (on A) (on B)) as [E2|]; try discriminate.
    intros [= <-] Hx. cbn [times om on]. repeat split; auto. rewrite vadd_nth; auto.
    rewrite A1, B1; auto. congruence.
  Qed.
  Lemma sub_meaning (A B C : operator K) x i : adj A -> adj B -> op_sub A B = Some C -> length x = on A ->
    om C = om A /\ on C = on A /\ (times C x)@i = (times A x)@i - (times B x)@i.
  Proof.
    intros [A1 _] [B1 _]. unfold op_sub. destruct (Nat.eqb_spec (om A) (om B)) as [E1|], (Nat.eqb_spec (on A) (on B)) as [E2|]; try discriminate.
    intros [= <-] Hx. cbn [times om on]. repeat split; auto. rewrite vsub_nth; auto.
    rewrite A1, B1; auto. congruence.
  Qed.
  Lemma add_rejects (A B : operator K) : op_add A B = None <-> ~ same_shape A B.
  Proof.
    unfold op_add, same_shape. destruct (Nat.eqb_spec (om A) (om B)), (Nat.eqb_spec (on A) (on B)); simpl; split; intros; try discriminate; tauto.
  Qed.
  Lemma sub_rejects (A B : operator K) : op_sub A B = None <-> ~ same_shape A B.
  Proof.
    unfold op_sub, same_shape. destruct (Nat.eqb_spec (om A) (om B)), (Nat.eqb_spec (on A) (on B)); simpl; split; intros; try discriminate; tauto.
  Qed.
  Lemma compose_meaning (A B C : operator K) x : op_compose A B = Some C ->
    om C = om A /\ on C = on B /\ times C x = times A (times B x) /\ (forall y, trans C y = trans B (trans A y)).
  Proof. unfold op_compose. destruct (on A =? om B); [|discriminate]. intros [= <-]. auto. Qed.
  Lemma compose_rejects (A B : operator K) : op_compose A B = None <-> on A <> om B.
  Proof. unfold op_compose. destruct (Nat.eqb_spec (on A) (om B)); split; intros; try discriminate; auto. contradiction. Qed.
  Lemma power_rejects (A : operator K) p : op_power A p = None <-> om A <> on A.
  Proof. unfold op_power. destruct (Nat.eqb_spec (om A) (on A)); split; intros; try discriminate; auto. contradiction. Qed.
  Lemma hcat_rejects (A B : operator K) : op_hcat A B = None <-> om A <> om B.
  Proof. unfold op_hcat. destruct (Nat.eqb_spec (om A) (om B)); split; intros; try discriminate; auto. contradiction. Qed.
  Lemma hcat_meaning (A B C : operator K) x z i : adj A -> adj B -> op_hcat A B = Some C -> length x = on A -> length z = on B ->
    om C = om A /\ on C = (on A + on B)%nat /\ (times C (x ++ z))@i = (times A x)@i + (times B z)@i.
  Proof.
    intros [A1 _] [B1 _]. unfold op_hcat. destruct (Nat.eqb_spec (om A) (om B)) as [E1|]; try discriminate.
    intros [= <-] Hx Hz. cbn [times om on]. repeat split; auto.
    rewrite <- Hx, firstn_app, skipn_app, firstn_all, skipn_all, Nat.sub_diag. simpl. rewrite app_nil_r.
    rewrite vadd_nth; auto. rewrite A1, B1; auto.
  Qed.
  Lemma power_0 (A B : operator K) x : op_power A 0 = Some B -> times B x = x.
  Proof. unfold op_power. destruct (om A =? on A); [|discriminate]. now intros [= <-]. Qed.
  Lemma power_S (A B C : operator K) p x : op_power A p = Some B -> op_power A (S p) = Some C ->
    times C x = times A (times B x).
  Proof.
    unfold op_power. destruct (om A =? on A); [|discriminate]. intros [= <-] [= <-].
    cbn [times]. simpl. apply apply_n_comm.
  Qed.
  Lemma partial_meaning (A : operator K) picks perm x i : i < length picks ->
    (times (op_partial A picks perm) x)@i =
    (times A (match perm with None => x | Some pi => gather x pi end))@(nth i picks 0).
  Proof.
    intros Hi. destruct perm; cbn [op_partial times]; unfold gather at 1; now rewrite nth_map_lt with (da := 0).
  Qed.
  Lemma neg_meaning (A : operator K) x i : (times (op_neg A) x)@i = - (times A x)@i.
  Proof. apply vopp_nth. Qed.
  Lemma scale_meaning (A : operator K) c b x i : (times (op_scale A c b) x)@i = c * (times A x)@i.
  Proof. apply vscale_nth. Qed.
  Lemma column_meaning (A : operator K) i : op_column A i = times A (vbasis (on A) i).
  Proof. unfold op_column. now rewrite set_at_zero_basis. Qed.
  Lemma bd_meaning_aux (ops : list (operator K)) : forall xs,
    Forall2 (fun A x => length x = on A) ops xs ->
    bd_times ops (concat xs) = concat (zipw (fun A x => times A x) ops xs).
  Proof.
    induction ops as [|A ops IH]; intros xs H; inversion H; subst; simpl; auto.
    rewrite firstn_app, skipn_app. rewrite <- H2, firstn_all, skipn_all, Nat.sub_diag. simpl.
    rewrite app_nil_r. now rewrite IH.
  Qed.
  Lemma block_diag_meaning (ops : list (operator K)) C xs : op_block_diag ops = Some C ->
    Forall2 (fun A x => length x = on A) ops xs ->
    times C (concat xs) = concat (zipw (fun A x => times A x) ops xs).
  Proof.
    unfold op_block_diag. destruct (2 <=? length ops); [|discriminate]. intros [= <-]. apply bd_meaning_aux.
  Qed.

  (** *** gram / frame *)
  Lemma gram_energy (A : operator K) x : adj A -> length x = on A ->
    inner x (times (op_gram A) x) = inner (times A x) (times A x).
  Proof. intros [A1 [A2 A3]] Hx. cbn [op_gram times]. symmetry. apply A3; auto. Qed.
  Lemma frame_energy (A : operator K) y : adj A -> length y = om A ->
    inner y (times (op_frame A) y) = inner (trans A y) (trans A y).
  Proof.
    intros HA Hy. apply adjoint_adjoint in HA. apply (gram_energy y HA). exact Hy.
  Qed.

  (** *** flags *)
  (** the constructions that pass the flags on *)
  Lemma flags_unary (A : operator K) (f : operator K -> operator K) :
    In f [@op_neg K; @op_adjoint K; @op_transpose K; @op_gram K; @op_frame K] ->
    jit_safe (f A) = jit_safe A /\ matrix_safe (f A) = matrix_safe A.
  Proof.
    simpl. intros [<-|[<-|[<-|[<-|[<-|[]]]]]]; auto.
    unfold op_transpose. destruct (real A); auto.
  Qed.
  Lemma flags_binary (A B C : operator K) (f : operator K -> operator K -> option (operator K)) :
    In f [@op_add K; @op_sub K; @op_hcat K] -> f A B = Some C ->
    jit_safe C = jit_safe A && jit_safe B /\ matrix_safe C = matrix_safe A && matrix_safe B /\
    real C = real A && real B.
  Proof.
    simpl. intros [<-|[<-|[<-|[]]]]; unfold op_add, op_sub, op_hcat;
    repeat match goal with |- context [?a =? ?b] => destruct (a =? b) end; simpl; try discriminate; intros [= <-]; auto.
  Qed.
End P5.

Local Open Scope R_scope.

(** gram and frame are positive semidefinite over R and over C *)
Lemma gram_psd_R (A : operator Rs) x : adj A -> length x = on A -> 0 <= @inner Rs x (times (op_gram A) x).
Proof. intros. rewrite gram_energy by auto. apply inner_pos_R. Qed.
Lemma frame_psd_R (A : operator Rs) x : adj A -> length x = om A -> 0 <= @inner Rs x (times (op_frame A) x).
Proof. intros. rewrite frame_energy by auto. apply inner_pos_R. Qed.
Lemma gram_psd_C (A : operator Cs) x : adj A -> length x = on A ->
  0 <= fst (@inner Cs x (times (op_gram A) x)) /\ snd (@inner Cs x (times (op_gram A) x)) = 0.
Proof. intros. rewrite gram_energy by auto. apply inner_pos_C. Qed.
Lemma frame_psd_C (A : operator Cs) x : adj A -> length x = om A ->
  0 <= fst (@inner Cs x (times (op_frame A) x)) /\ snd (@inner Cs x (times (op_frame A) x)) = 0.
Proof. intros. rewrite frame_energy by auto. apply inner_pos_C. Qed.

(** dot: an adjoint pair over the reals, and over C for the real inner product
    with real data *)
Lemma dot_adjoint_R (v : list Rs) : has_adjoint (op_dot v false) 1 (length v).
Proof.
  split; [reflexivity|split; [reflexivity|]]. cbn [op_dot times trans mkop]. split; [|split].
  - intros x _. reflexivity.
  - intros y _. now rewrite vscale_length.
  - intros x y Hx Hy. destruct y as [|y0 [|? ?]]; try discriminate. unfold jfirst. cbn [nth].
    rewrite inner_scale_r. simpl (inner [_] [_]).
    rewrite (inner_sym Rs v x). simpl. ring.
Qed.
Lemma dot_adjoint_R' (v : list Rs) : has_adjoint (op_dot v true) (length v) 1.
Proof.
  destruct (dot_adjoint_R v) as [_ [_ H]]. split; [reflexivity|split; [reflexivity|]].
  apply is_adjoint_sym in H. exact H.
Qed.
Lemma dot_real_adjoint_C (v : list Cs) (x : list Cs) (c : R) : length x = length v ->
  fst (@inner Cs (times (op_dot v false) x) [(c, 0)]) = fst (@inner Cs x (trans (op_dot v false) [(c, 0)])).
Proof.
  intros Hx. cbn [op_dot times trans mkop]. unfold jfirst. cbn [nth]. rewrite inner_scale_r.
  rewrite (inner_sym Cs v x). destruct (@inner Cs v x) as [p q]. simpl. ring.
Qed.

(** *** refutations *)
Lemma Rs_neq (a b : R) : a - b <> 0 -> a <> b. Proof. lra. Qed.

(** repeated indices: trans of restriction(1, [0,0]) keeps only the last entry *)
Lemma restriction_dup_refuted : exists n I, (forall i, In i I -> i < n)%nat /\
  ~ has_adjoint (@op_restriction Rs n I) (length I) n.
Proof.
  exists 1%nat, [0; 0]%nat. split.
  - simpl. intros i [<-|[<-|[]]]; lia.
  - intros [_ [_ [_ [_ H]]]]. specialize (H [1] [1; 0] eq_refl eq_refl). simpl in H. lra.
Qed.
Lemma partial_dup_refuted : exists (A : operator Rs) picks, adj A /\ (forall i, In i picks -> i < om A)%nat /\
  ~ adj (op_partial A picks None).
Proof.
  exists (op_identity 1 1), [0; 0]%nat. split; [|split].
  - apply (identity_adjoint Rs 1 1).
  - simpl. intros i [<-|[<-|[]]]; lia.
  - intros [_ [_ H]]. specialize (H [1] [1; 0] eq_refl eq_refl). simpl in H. lra.
Qed.

(** centered derivative: trans ignores dx *)
Lemma centered_dx_refuted : exists n d, (3 <= n)%nat /\ d <> 0 /\
  ~ has_adjoint (@op_first_derivative Rs n d Centered) n n.
Proof.
  exists 3%nat, 2. split; [lia|]. split; [lra|].
  intros [_ [_ [_ [_ H]]]]. specialize (H [0; 0; 1] [0; 1; 0] eq_refl eq_refl).
  cbv [op_first_derivative times trans mkop der_cen der_cen_adj] in H. simpl in H. unfold half in H. simpl in H.
  cbv [vdivs map] in H. simpl in H. lra.
Qed.

(** tv2D *)
Lemma tv2_refuted : exists (X Y : list (list Cs)),
  @wf_mat Cs 2%nat 1%nat X /\ @wf_mat Cs 2%nat 1%nat Y /\
  @inner2 Cs (tv2_times 2 1 TvRegular X) Y <> @inner2 Cs X (tv2_trans 2 1 TvRegular Y).
Proof.
  exists [[(0,0)];[(1,0)]], [[(1,0)];[(0,0)]].
  split; [|split].
  - split; [reflexivity|]. intros r [<-|[<-|[]]]; reflexivity.
  - split; [reflexivity|]. intros r [<-|[<-|[]]]; reflexivity.
  - intros H. apply (f_equal snd) in H. revert H.
    cbv -[Rplus Rminus Rmult Ropp Rdiv Rinv IZR]. lra.
Qed.

(** complex 2-D filter: trans does not conjugate *)
Lemma conv2_complex_refuted : exists (h X Y : list (list Cs)),
  @wf_mat Cs 1%nat 1%nat h /\ @wf_mat Cs 1%nat 1%nat X /\ @wf_mat Cs 1%nat 1%nat Y /\
  inner2 (conv2_times 1%nat 1%nat h 1%nat 1%nat 0%nat 0%nat X) Y <> inner2 X (conv2_trans 1%nat 1%nat h 1%nat 1%nat 0%nat 0%nat Y).
Proof.
  exists [[(0,1)]], [[(1,0)]], [[(1,0)]].
  assert (W : forall z : Cs, @wf_mat Cs 1%nat 1%nat [[z]]) by (intros z; split; [reflexivity|intros r [<-|[]]; reflexivity]).
  split; [apply W|split; [apply W|split; [apply W|]]].
  intros H. apply (f_equal snd) in H. revert H. cbv -[Rplus Rminus Rmult Ropp Rdiv Rinv IZR]. lra.
Qed.

(** a filter longer than the signal: fir_filter(n) returns length m *)
Lemma fir_long_refuted : exists n (h x : list Rs), (n < length h)%nat /\ length x = n /\
  length (times (op_fir_filter n h) x) <> om (op_fir_filter n h).
Proof. exists 1%nat, [1; 1; 1], [1]. repeat split; try (simpl; lia). Qed.

(** second derivative for n = 1 does not have the advertised shape *)
Lemma second_derivative_short_refuted : exists (x : list Rs),
  length x = 1%nat /\ length (times (op_second_derivative 1 (1 : Rs)) x) <> om (@op_second_derivative Rs 1 1).
Proof. exists [1]. split; auto. discriminate. Qed.

(** linear flag: -real(n) advertises linear = True *)
Lemma linear_flag_refuted : exists (A : operator Cs), linear A = true /\ ~ is_linear (on A) (times A) /\
  A = op_neg (op_real 1).
Proof.
  exists (op_neg (op_real 1)). split; [reflexivity|split; [|reflexivity]].
  intros [_ H]. specialize (H (0,1) [(1,0)] eq_refl). apply (f_equal (fun l => snd (nth 0 l (0,0)))) in H.
  revert H. cbv -[Rplus Rminus Rmult Ropp Rdiv Rinv IZR]. lra.
Qed.
(** compose advertises matrix_safe although a factor is not *)
Lemma compose_flags_refuted : exists (A B C : operator Rs), op_compose A B = Some C /\
  matrix_safe A = false /\ matrix_safe C = true.
Proof. exists (op_pad_zeros 1 1 1), (op_identity 1 1). eexists. split; [reflexivity|]. auto. Qed.
Lemma compose_jit_refuted : exists (A B C : operator Rs), op_compose A B = Some C /\
  jit_safe A = false /\ jit_safe C = true.
Proof.
  exists (Op (fun x => x) (fun x => x) 1 1 true false true true), (op_identity 1 1). eexists.
  split; [reflexivity|]. auto.
Qed.
Lemma block_diag_flags_refuted : exists (A B C : operator Cs), op_block_diag [A; B] = Some C /\
  real A = false /\ real C = true.
Proof.
  exists (@op_matrix Cs 1 1 [[(0,1)]] false), (@op_identity Cs 1 1). eexists. split; [reflexivity|]. auto.
Qed.
(** real flag: i * I advertises real = True, so transpose returns the adjoint,
    which is not the transpose *)
Lemma transpose_refuted : exists (A : operator Cs), adj A /\ real A = true /\
  ~ is_transpose (om A) (on A) (times A) (times (op_transpose A)).
Proof.
  exists (op_scalar_mult (Ci : Cs) 1). split; [apply scalar_mult_adjoint|split; [reflexivity|]].
  intros [_ [_ H]]. specialize (H [(1,0)] [(1,0)] eq_refl eq_refl). apply (f_equal snd) in H.
  revert H. cbv -[Rplus Rminus Rmult Ropp Rdiv Rinv IZR]. lra.
Qed.

Section P5b.
  Variable K : scalar.
  Add Field KfieldP5b : (s_field K).
  Local Open Scope scal_scope.
  Notation vec := (list K).
  Notation "x @ i" := (nth i x s0) (at level 5, i at level 4).
  Local Open Scope nat_scope.
  Local Open Scope scal_scope.

  Lemma conv_full_entry (x h : vec) k : k < length x + length h - 1 ->
    (conv_full x h)@k = Sum (length x) (fun j => if (j <=? k)%nat then x@j * h@(k - j) else s0).
  Proof. intros H. unfold conv_full. now rewrite nth_tab. Qed.

  Lemma convolve_entries n (h : vec) offset T x k :
    op_convolve n h offset = Some T -> length x = n -> k < n ->
    (times T x)@k = Sum n (fun j => if (j <=? offset + k)%nat then x@j * h@(offset + k - j) else s0).
  Proof.
    intros HT Hx Hk. rewrite (@convolve_meaning K n h offset T x HT Hx). rewrite slice_nth.
    assert (offset < length h).
    { unfold op_convolve in HT. destruct (Nat.ltb_spec 0 n), (Nat.ltb_spec offset (length h)); try discriminate; auto. }
    destruct (Nat.ltb_spec k n); [|lia]. rewrite conv_full_entry by lia. now rewrite Hx.
  Qed.
  Lemma fir_filter_entries n (h : vec) x k : 0 < length h <= n -> length x = n -> k < n ->
    (times (op_fir_filter n h) x)@k =
    Sum n (fun j => let t := (length h - 1 - length h / 2 + k)%nat in
                  if (j <=? t)%nat then x@j * h@(t - j) else s0).
  Proof.
    intros Hh Hx Hk. cbn [op_fir_filter times mkop]. unfold conv_same.
    destruct (Nat.ltb_spec (length x) (length h)); [lia|]. rewrite slice_nth.
    destruct (Nat.ltb_spec k (length x)); [|lia].
    assert (length h - 1 - length h / 2 <= length h - 1)%nat by lia.
    rewrite conv_full_entry by lia. now rewrite Hx.
  Qed.
  Lemma running_average_entries n l (x : vec) k : 0 < l <= n -> length x = n -> k < n ->
    (times (op_running_average n l) x)@k =
    (s1 / ofR (INR l)) *
       (Sum n (fun j => if ((j <=? k + (l - 1 - l / 2)) && (k <=? j + l / 2))%nat then x@j else s0)).
  Proof.
    intros Hl Hx Hk.
    pose proof (@fir_filter_entries n (repeat (s1 / ofR (INR l)) l) x k) as E.
    rewrite repeat_length in E. specialize (E Hl Hx Hk).
    cbn [op_fir_filter op_running_average times mkop] in *. rewrite E. rewrite <- Sum_mul_l.
    apply Sum_ext. intros j Hj. cbv zeta.
    assert (Hd : (2 * (l / 2) <= l)%nat) by (apply Nat.mul_div_le; lia).
    assert (Hd2 : (l < 2 * (l / 2) + 2)%nat).
    { pose proof (Nat.div_mod l 2 ltac:(lia)). pose proof (Nat.mod_upper_bound l 2 ltac:(lia)). lia. }
    set (q := (l / 2)%nat) in *. clearbody q.
    bcase; try lia; try ring.
    - rewrite nth_repeat by lia. ring.
    - rewrite (nth_overflow (repeat _ _)) by (rewrite repeat_length; lia). ring.
  Qed.

  Lemma windowed_full m (T W : operator K) overlap :
    adj T -> op_windowed m T overlap = Some W ->
    exists nb, let off := (om T - overlap)%nat in
    overlap < om T /\ om W = m /\ on W = (nb * on T)%nat /\
    (m <= om T + (nb - 1) * off)%nat /\ (1 < nb -> (om T + (nb - 2) * off < m)%nat) /\
    adj W /\
    (forall x k, length x = on W -> k < m ->
      (times W x)@k = Sum nb (fun i =>
        if (i * off <=? k)%nat then (times T (firstn (on T) (skipn (i * on T) x)))@(k - i * off) else s0)).
  Proof.
    intros HT HW. destruct (@windowed_spec K m T W overlap HT HW) as [H1 [H2 [H3 [H4 H5]]]].
    exists (win_blocks m (om T) (om T - overlap)). cbv zeta.
    split; [auto|]. split; [auto|]. split; [auto|].
    split; [apply win_cover; lia|]. split; [apply win_minimal; lia|]. split; [exact H4|exact H5].
  Qed.
  Lemma windowed_rejects m (T : operator K) overlap : op_windowed m T overlap = None <-> om T <= overlap.
  Proof.
    unfold op_windowed. destruct (Nat.ltb_spec overlap (om T)); split; intros; try discriminate; auto; lia.
  Qed.
  Lemma to_matrix_rejects (A : operator K) : to_matrix_cols A = None <-> linear A = false.
  Proof. unfold to_matrix_cols. destruct (linear A); split; intros; try discriminate; auto. Qed.
End P5b.
