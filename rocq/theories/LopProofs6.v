(** Entries of the derivative, long filter and 2-D total variation operators; linear flags; complex dot tests. *)
From Coq Require Import List Arith Bool Lia Reals Lra Psatz.
From Verif Require Import Scalar Vec Loop LopSpec LopOpSpec LopModel LopModel2D LopModel3 LopLemmas LopProofs LopProofs2 LopProofs3 LopProofs4 LopProofs5.
Import ListNotations.
Set Implicit Arguments.

Section P6.
  Variable K : scalar.
  Add Field KfieldP6 : (s_field K).
  Local Open Scope scal_scope.
  Notation vec := (list K).
  Notation "x @ i" := (nth i x s0) (at level 5, i at level 4).

  Lemma fwd_entries n d (x : vec) i : d <> 0%R -> length x = n -> i < n ->
    (times (op_first_derivative n (ofR d) Forward) x)@i = if S i =? n then s0 else (x@(S i) - x@i) / ofR d.
  Proof.
    intros Hd Hx Hi. pose proof (ofR_neq0 K d Hd) as HdK. cbn [op_first_derivative times mkop]. unfold der_fwd. rewrite vdivs_nth, (@diff_last_nth K x i n Hx Hi) by auto. bcase; auto. field. auto.
  Qed.
  Lemma bwd_entries n d (x : vec) i : d <> 0%R -> length x = n -> i < n ->
    (times (op_first_derivative n (ofR d) Backward) x)@i = if i =? 0 then s0 else (x@i - x@(i - 1)) / ofR d.
  Proof.
    intros Hd Hx Hi. pose proof (ofR_neq0 K d Hd) as HdK. cbn [op_first_derivative times mkop]. unfold der_bwd. rewrite vdivs_nth, (@diff_first_nth K x i n Hx Hi) by auto. bcase; auto. field. auto.
  Qed.
  Lemma cen_entries n d (x : vec) i : d <> 0%R -> length x = n -> 2 <= n -> i < n ->
    (times (op_first_derivative n (ofR d) Centered) x)@i = if (i =? 0) || (S i =? n) then s0 else (x@(S i) - x@(i - 1)) / ofR (2 * d).
  Proof.
    intros Hd Hx Hn Hi. pose proof (ofR_neq0 K d Hd) as HdK. assert (H2 := ofR_neq0 K 2 ltac:(lra)). cbn [op_first_derivative times mkop]. rewrite (@der_cen_nth K x (ofR d) n i) by auto.
    assert (E : ofR 2 * half = (s1 : K)) by (unfold half; rewrite <- ofR_mul; replace (2 * (1 / 2))%R with 1%R by field; apply ofR_1).
    assert (Eh : half = s1 / (ofR 2 : K)). { transitivity (ofR 2 * half / (ofR 2 : K)); [field; auto|now rewrite E]. }
    rewrite Eh, ofR_mul. destruct (Nat.eqb_spec i 0), (Nat.eqb_spec (S i) n), (Nat.ltb_spec 0 i), (Nat.ltb_spec (S i) n); try lia; cbn [orb andb]; try reflexivity. field. auto.
  Qed.
  Lemma second_entries n d (x : vec) i : d <> 0%R -> length x = n -> 3 <= n -> i < n ->
    (times (op_second_derivative n (ofR d)) x)@i = if (i =? 0) || (S i =? n) then s0 else (x@(S i) - ofR 2 * x@i + x@(i - 1)) / ofR (d * d).
  Proof.
    intros Hd Hx Hn Hi. pose proof (ofR_neq0 K d Hd) as HdK. cbn [op_second_derivative times mkop]. rewrite jpad_nth. unfold conv_valid. rewrite slice_nth. change (length (der2_filter (ofR d))) with 3.
    destruct (Nat.eqb_spec i 0); [subst i; reflexivity|]. cbn [orb]. destruct (Nat.ltb_spec i 1); [lia|].
    destruct (Nat.eqb_spec (S i) n); destruct (Nat.ltb_spec (i - 1) (length x + 1 - 3)); try lia; auto.
    assert (O : forall l, Sum n (fun j => if l + j =? S i then x@j * (der2_filter (ofR d))@l else s0) = if l <=? S i then x@(S i - l) * (der2_filter (ofR d))@l else s0).
    { intros l. rewrite (Sum_ext K _ (fun j => if j + l =? S i then x@j * (der2_filter (ofR d))@l else s0)) by (intros; now rewrite Nat.add_comm).
      rewrite (@Sum_pick K n l (S i) (fun j => x@j * (der2_filter (ofR d))@l)). bcase; auto; lia. }
    rewrite conv_full_nth by (cbn [der2_filter length]; lia). change (length (der2_filter (ofR d))) with 3. replace (3 - 1 + (i - 1))%nat with (S i) by lia. rewrite Hx, Sum_exchange. cbn [Sum]. rewrite !O.
    destruct (Nat.leb_spec 0 (S i)); [|lia]. destruct (Nat.leb_spec 1 (S i)); [|lia]. destruct (Nat.leb_spec 2 (S i)); [|lia].
    replace (S i - 0)%nat with (S i) by lia. replace (S i - 1)%nat with i by lia. replace (S i - 2)%nat with (i - 1)%nat by lia. cbn [der2_filter nth]. rewrite ofR_mul. replace (-2)%R with (- (2))%R by lra. rewrite ofR_opp. field. auto.
  Qed.
  (** the filter longer than the signal: the other argument is centred and the output is as long as the filter *)
  Lemma fir_long n (h : vec) x : length x = n -> 0 < n < length h ->
    length (times (op_fir_filter n h) x) = length h /\
    forall k, k < length h -> (times (op_fir_filter n h) x)@k = Sum (length h) (fun j => let t := (n - 1 - n / 2 + k)%nat in if (j <=? t)%nat then h@j * x@(t - j) else s0).
  Proof.
    intros Hx Hn. cbn [op_fir_filter times mkop]. unfold conv_same. destruct (Nat.ltb_spec (length x) (length h)); [|lia]. split.
    - rewrite slice_length. unfold conv_full. rewrite tab_length. lia.
    - intros k Hk. rewrite slice_nth. destruct (Nat.ltb_spec k (length h)); [|lia]. rewrite conv_full_entry by lia. now rewrite Hx.
  Qed.

  Lemma linear_built m n p q M c v w I J b1 b2 tvk dk (T A : operator K) :
    In A [op_matrix m n M b1; op_real_matrix m n M; op_diagonal v; op_scalar_mult c n; op_zero n m; op_flipud n; op_sum n; op_pad_zeros n p q; op_symmetrize n;
          op_restriction n I; op_heaviside n b1; op_inv_heaviside n b1; op_identity n m; op_dot v b1; op_running_average n m; op_fir_filter n w; op_tv n tvk;
          op_first_derivative n c dk; op_second_derivative n c;
          op_neg T; op_scale T c b2; op_adjoint T; op_transpose T; op_partial T I J; op_gram T; op_frame T] -> linear A = true.
  Proof.
    intros H. repeat (destruct H as [<-|H]; [try reflexivity|]); [..|destruct H];
      try (destruct b1; reflexivity); try (destruct dk; reflexivity); try (destruct J; reflexivity).
    - unfold op_identity. destruct (n =? m); [reflexivity|destruct (m <? n); reflexivity].
    - unfold op_transpose. destruct (real T); reflexivity.
  Qed.
  Lemma linear_built2 m n p v ops (T U A : operator K) :
    In (Some A) [op_power T p; op_add T U; op_sub T U; op_compose T U; op_hcat T U; op_block_diag ops; op_windowed m T p; op_convolve n v p] -> linear A = true.
  Proof.
    intros H. repeat (destruct H as [H|H]; [|]); [..|destruct H]; revert H; unfold op_power, op_add, op_sub, op_compose, op_hcat, op_block_diag, op_windowed, op_convolve.
    all: match goal with |- context [if ?c then _ else _] => destruct c end; intros H; try discriminate; injection H as <-; reflexivity.
  Qed.
End P6.
Lemma real_not_linear n : 0 < n -> linear (@op_real Cs n) = false /\ ~ is_linear (on (@op_real Cs n)) (times (@op_real Cs n)).
Proof.
  intros Hn. split; [reflexivity|]. intros [_ H]. specialize (H (Ci : Cs) (repeat (1%R, 0%R) n) (repeat_length _ _)). destruct n as [|n]; [lia|]. apply (f_equal (fun l => hd (0%R, 0%R) l)) in H. cbn in H. apply (f_equal snd) in H. cbn in H. lra.
Qed.

Section Tv2.
  Notation Z0 := ((0%R, 0%R) : Cx).
  Lemma tv2_entries M N k X i j : wf_mat (K := Cs) M N X -> i < M -> j < N ->
    let nx := fun n t (a z w : Cx) => if S t =? n then match k with TvRegular => a | TvDirichlet => Z0 | TvCircular => z end else w in
    get2 (tv2_times M N k X) i j =
    @sadd Cs (@ssub Cs (nx N j (get2 X i j) (get2 X i 0) (get2 X i (S j))) (get2 X i j))
             (@smul Cs Ci (@ssub Cs (nx M i (get2 X i j) (get2 X 0 j) (get2 X (S i) j)) (get2 X i j))).
  Proof.
    intros [HX1 HX2] Hi Hj nx. unfold tv2_times, tv2_comb. unfold get2 at 1.
    assert (Lr : length (along_rows (tv_fwd k) X) = M) by (unfold along_rows; now rewrite map_length).
    assert (Lc : length (along_cols M N (tv_fwd k) X) = M) by (unfold along_cols, tab2; now rewrite tab_length).
    rewrite nth_zipw with (da := []) (db := []) by lia.
    assert (Li : length (nth i X []) = N) by (apply HX2, nth_In; lia).
    assert (Er : nth i (along_rows (tv_fwd k) X) [] = tv_fwd k (nth i X [])).
    { unfold along_rows. rewrite nth_indep with (d' := tv_fwd k []) by (rewrite map_length; lia). apply map_nth. }
    assert (Ec : nth i (along_cols M N (tv_fwd k) X) [] = tab N (fun j => nth i (tv_fwd k (tab M (fun a => get2 X a j))) s0)).
    { unfold along_cols, tab2. rewrite nth_tab by auto. apply tab_ext. intros l Hl. now rewrite nth_tab. }
    rewrite Er, Ec. rewrite vadd_nth by (rewrite vscale_length, tab_length, tv_fwd_length; auto). rewrite vscale_nth, nth_tab by auto.
    rewrite (@tv_fwd_nth Cs k N _ j) by auto. rewrite (@tv_fwd_nth Cs k M _ i) by (rewrite ?tab_length; auto). unfold nx.
    rewrite (@nth_tab Cs M (fun a => get2 X a j) i) by auto. rewrite (@nth_tab Cs M (fun a => get2 X a j) 0) by lia.
    destruct (Nat.eqb_spec (S i) M); [reflexivity|]. rewrite (@nth_tab Cs M (fun a => get2 X a j) (S i)) by lia. reflexivity.
  Qed.
End Tv2.

Local Open Scope R_scope.
Lemma gap_self a tol : 0 < tol -> a <> - (/ 10 ^ 15) / 2 -> gap_test a a tol = true.
Proof.
  intros Ht Hn. apply gap_test_spec; auto. destruct (Rtotal_order (a + a + / 10 ^ 15) 0) as [L|[E|G]]; [now left| |].
  - exfalso. apply Hn. lra.
  - right. split; auto. rewrite Rminus_diag_eq by reflexivity. rewrite Rabs_R0. nra.
Qed.
Lemma dot_test_complex_accepts (A : operator Cs) u v tol : adj A -> 0 < tol -> length u = on A -> length v = om A ->
  fst (@inner Cs (times A u) v) <> - (/ 10 ^ 15) / 2 -> snd (@inner Cs (times A u) v) <> - (/ 10 ^ 15) / 2 ->
  dot_test_complex A u v tol = true /\ rdot_test_complex A u v tol = true.
Proof.
  intros [_ [_ H]] Ht Hu Hv H1 H2. unfold dot_test_complex, rdot_test_complex. rewrite <- H by auto. now rewrite !gap_self.
Qed.
Lemma dot_test_complex_sound (A : operator Cs) u v tol : 0 < tol ->
  let a := @inner Cs (times A u) v in let b := @inner Cs u (trans A v) in
  (0 < fst a + fst b + / 10 ^ 15 -> rdot_test_complex A u v tol = true -> Rabs (fst a - fst b) < tol * ((fst a + fst b + / 10 ^ 15) / 2)) /\
  (0 < fst a + fst b + / 10 ^ 15 -> 0 < snd a + snd b + / 10 ^ 15 -> dot_test_complex A u v tol = true ->
   Rabs (fst a - fst b) < tol * ((fst a + fst b + / 10 ^ 15) / 2) /\ Rabs (snd a - snd b) < tol * ((snd a + snd b + / 10 ^ 15) / 2)).
Proof.
  intros Ht a b. split.
  - intros Hp H. apply gap_test_spec in H; auto. destruct H as [H|[_ H]]; [unfold a, b in *; lra|exact H].
  - intros P1 P2 H. apply andb_true_iff in H as [H1 H2]. apply gap_test_spec in H1, H2; auto. destruct H1 as [H1|[_ H1]]; [unfold a, b in *; lra|]. destruct H2 as [H2|[_ H2]]; [unfold a, b in *; lra|]. now split.
Qed.
