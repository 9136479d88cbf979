(** More property theorems about the linear operators: what the derivative, long filter and 2-D total
    variation operators compute (C06-C08), the linear flag (C15) and the complex dot tests (C16). *)
From Coq Require Import List Arith Bool Lia Reals Lra.
From Verif Require Import Scalar Vec Loop LopSpec LopModel LopModel2D LopModel3 LopOpSpec LopLemmas LopProofs LopProofs2 LopProofs5 LopProofs6.
Import ListNotations.
Notation "x @ i" := (nth i x s0) (at level 5, i at level 4).

(** ** C06: the differences, zero where a neighbour is missing *)
Theorem C06_first_entries (K : scalar) n d (x : list K) i : d <> 0%R -> length x = n -> i < n ->
  (times (op_first_derivative n (ofR d) Forward) x)@i = (if S i =? n then s0 else sdiv (ssub x@(S i) x@i) (ofR d)) /\
  (times (op_first_derivative n (ofR d) Backward) x)@i = (if i =? 0 then s0 else sdiv (ssub x@i x@(i - 1)) (ofR d)) /\
  (2 <= n -> (times (op_first_derivative n (ofR d) Centered) x)@i =
             if (i =? 0) || (S i =? n) then s0 else sdiv (ssub x@(S i) x@(i - 1)) (ofR (2 * d))).
Proof. exact (fun Hd Hx Hi => conj (@fwd_entries K n d x i Hd Hx Hi) (conj (@bwd_entries K n d x i Hd Hx Hi) (fun Hn => @cen_entries K n d x i Hd Hx Hn Hi))). Qed.
Print Assumptions C06_first_entries.
Theorem C06_second_entries (K : scalar) n d (x : list K) i : d <> 0%R -> length x = n -> 3 <= n -> i < n ->
  (times (op_second_derivative n (ofR d)) x)@i =
  if (i =? 0) || (S i =? n) then s0 else sdiv (sadd (ssub x@(S i) (smul (ofR 2) x@i)) x@(i - 1)) (ofR (d * d)).
Proof. exact (@second_entries K n d x i). Qed.
Print Assumptions C06_second_entries.

(** ** C07: the 2-D operator computes (differences along rows) + 1j (differences along columns) *)
Theorem C07_tv2D_entries M N k X i j : wf_mat (K := Cs) M N X -> i < M -> j < N ->
  let nx := fun n t (a z w : Cx) => if S t =? n then match k with TvRegular => a | TvDirichlet => (0%R, 0%R) | TvCircular => z end else w in
  get2 (tv2_times M N k X) i j =
  @sadd Cs (@ssub Cs (nx N j (get2 X i j) (get2 X i 0) (get2 X i (S j))) (get2 X i j))
           (@smul Cs (0%R, 1%R) (@ssub Cs (nx M i (get2 X i j) (get2 X 0 j) (get2 X (S i) j)) (get2 X i j))).
Proof. exact (@tv2_entries M N k X i j). Qed.
Print Assumptions C07_tv2D_entries.

(** its trans computes (1-D adjoint along the row) + 1j (1-D adjoint along the column); C07_tv says what the 1-D adjoint is *)
Theorem C07_tv2D_trans_entries M N k X i j : wf_mat (K := Cs) M N X -> i < M -> j < N ->
  get2 (tv2_trans M N k X) i j =
  @sadd Cs (nth j (trans (op_tv N k) (nth i X [])) (0%R, 0%R))
           (@smul Cs (0%R, 1%R) (nth i (trans (op_tv M k) (tab M (fun a => get2 X a j))) (0%R, 0%R))).
Proof.
  intros [HX1 HX2] Hi Hj. unfold tv2_trans, tv2_comb. unfold get2 at 1.
  assert (Lr : length (along_rows (tv_adj k) X) = M) by (unfold along_rows; now rewrite map_length).
  assert (Lc : length (along_cols M N (tv_adj k) X) = M) by (unfold along_cols, tab2; now rewrite tab_length).
  rewrite nth_zipw with (da := []) (db := []) by lia.
  assert (Li : length (nth i X []) = N) by (apply HX2, nth_In; lia).
  assert (Er : nth i (along_rows (tv_adj k) X) [] = tv_adj k (nth i X [])).
  { unfold along_rows. rewrite nth_indep with (d' := tv_adj k []) by (rewrite map_length; lia). apply map_nth. }
  assert (Ec : nth i (along_cols M N (tv_adj k) X) [] = tab N (fun j => nth i (tv_adj k (tab M (fun a => get2 X a j))) s0)).
  { unfold along_cols, tab2. rewrite nth_tab by auto. apply tab_ext. intros l Hl. now rewrite nth_tab. }
  rewrite Er, Ec. rewrite vadd_nth by (rewrite vscale_length, tab_length, tv_adj_length; auto). rewrite vscale_nth, nth_tab by auto.
  reflexivity.
Qed.
Print Assumptions C07_tv2D_trans_entries.

(** ** C08: a filter longer than the signal gives an output as long as the filter, with the signal centred *)
Theorem C08_fir_filter_long (K : scalar) n (h : list K) x : length x = n -> 0 < n < length h ->
  length (times (op_fir_filter n h) x) = length h /\
  forall k, k < length h -> (times (op_fir_filter n h) x)@k =
    Sum (length h) (fun j => let t := n - 1 - n / 2 + k in if j <=? t then smul h@j x@(t - j) else s0).
Proof. exact (@fir_long K n h x). Qed.
Print Assumptions C08_fir_filter_long.

(** ** C15: every operator of the library other than the real part declares itself linear ... *)
Theorem C15_linear_flag (K : scalar) m n p q M c v w I J b1 b2 tvk dk (T A : operator K) :
  In A [op_matrix m n M b1; op_real_matrix m n M; op_diagonal v; op_scalar_mult c n; op_zero n m; op_flipud n; op_sum n; op_pad_zeros n p q; op_symmetrize n;
        op_restriction n I; op_heaviside n b1; op_inv_heaviside n b1; op_identity n m; op_dot v b1; op_running_average n m; op_fir_filter n w; op_tv n tvk;
        op_first_derivative n c dk; op_second_derivative n c;
        op_neg T; op_scale T c b2; op_adjoint T; op_transpose T; op_partial T I J; op_gram T; op_frame T] -> linear A = true.
Proof. exact (@linear_built K m n p q M c v w I J b1 b2 tvk dk T A). Qed.
Print Assumptions C15_linear_flag.
Theorem C15_linear_flag_checked (K : scalar) m n p v ops (T U A : operator K) :
  In (Some A) [op_power T p; op_add T U; op_sub T U; op_compose T U; op_hcat T U; op_block_diag ops; op_windowed m T p; op_convolve n v p] -> linear A = true.
Proof. exact (@linear_built2 K m n p v ops T U A). Qed.
Print Assumptions C15_linear_flag_checked.
(** ... and the real part, which is not linear over the complex numbers, declares that it is not *)
Theorem C15_real_part_flag n : 0 < n -> linear (@op_real Cs n) = false /\ ~ is_linear (on (@op_real Cs n)) (times (@op_real Cs n)).
Proof. exact (@real_not_linear n). Qed.
Print Assumptions C15_real_part_flag.
(** a windowed operator declares itself safe for jit and for matrices whatever the transform it repeats declares *)
Theorem C15_windowed_flags_refuted : exists T W : operator Rs,
  op_windowed 7 T 1 = Some W /\ jit_safe T = false /\ matrix_safe T = false /\ jit_safe W = true /\ matrix_safe W = true.
Proof. exists (Op (fun x => x) (fun x => x) 4 4 true false false true). eexists. repeat split. Qed.
Print Assumptions C15_windowed_flags_refuted.

(** ** C16: complex data *)
Theorem C16_dot_test_complex_accepts (A : operator Cs) u v tol : adj A -> (0 < tol)%R -> length u = on A -> length v = om A ->
  (fst (@inner Cs (times A u) v) <> - (/ 10 ^ 15) / 2)%R -> (snd (@inner Cs (times A u) v) <> - (/ 10 ^ 15) / 2)%R ->
  dot_test_complex A u v tol = true /\ rdot_test_complex A u v tol = true.
Proof. exact (@dot_test_complex_accepts A u v tol). Qed.
Print Assumptions C16_dot_test_complex_accepts.
Theorem C16_dot_test_complex_sound_partial (A : operator Cs) u v tol : (0 < tol)%R ->
  let a := @inner Cs (times A u) v in let b := @inner Cs u (trans A v) in
  (0 < fst a + fst b + / 10 ^ 15 -> rdot_test_complex A u v tol = true -> Rabs (fst a - fst b) < tol * ((fst a + fst b + / 10 ^ 15) / 2))%R /\
  (0 < fst a + fst b + / 10 ^ 15 -> 0 < snd a + snd b + / 10 ^ 15 -> dot_test_complex A u v tol = true ->
   Rabs (fst a - fst b) < tol * ((fst a + fst b + / 10 ^ 15) / 2) /\ Rabs (snd a - snd b) < tol * ((snd a + snd b + / 10 ^ 15) / 2))%R.
Proof. exact (@dot_test_complex_sound A u v tol). Qed.
Print Assumptions C16_dot_test_complex_sound_partial.
Example C16_complex_ex : adj (@op_scalar_mult Cs (0, 1)%R 1) /\
  (fst (@inner Cs (times (@op_scalar_mult Cs (0, 1)%R 1) [(1, 0)%R]) [(1, 1)%R]) = 1 /\
   snd (@inner Cs (times (@op_scalar_mult Cs (0, 1)%R 1) [(1, 0)%R]) [(1, 1)%R]) = - (1))%R.
Proof. split; [apply scalar_mult_adjoint|]. cbv -[Rplus Rminus Rmult Ropp Rdiv Rinv IZR]. split; ring. Qed.
