(** Property theorems about the linear operators (C01-C10, C14-C17, C58).
    K ranges over fields with a conjugation that contain the reals; the two
    instances that matter are Rs (the reals) and Cs (the complex numbers). *)
From Coq Require Import List Arith Bool Lia Reals Lra.
From Verif Require Import Scalar Vec Loop LopSpec LopModel LopModel2D LopModel3 LopOpSpec LopLemmas
  LopProofs LopProofs2 LopProofs3 LopProofs4 LopProofs5.
Import ListNotations.
Notation "x @ i" := (nth i x s0) (at level 5, i at level 4).

(** ** C01 *)
Theorem C01_real_matrix (K : scalar) m n (A : list (list K)) :
  wf_mat m n A -> (forall r, In r A -> is_real_vec r) -> has_adjoint (op_real_matrix m n A) m n.
Proof. exact (@real_matrix_adjoint K m n A). Qed.
Print Assumptions C01_real_matrix.
Theorem C01_matrix (K : scalar) m n (A : list (list K)) isreal :
  wf_mat m n A -> has_adjoint (op_matrix m n A isreal) m n.
Proof. exact (@matrix_adjoint K m n A isreal). Qed.
Print Assumptions C01_matrix.
Example C01_matrix_ex : wf_mat (K:=Cs) 2 1 [[(0,1)];[(2,0)]]%R.
Proof. split; [reflexivity|]. intros r [<-|[<-|[]]]; reflexivity. Qed.
Theorem C01_diagonal (K : scalar) (d : list K) : has_adjoint (op_diagonal d) (length d) (length d).
Proof. exact (@diagonal_adjoint K d). Qed.
Print Assumptions C01_diagonal.
Theorem C01_scalar_mult (K : scalar) (alpha : K) n : has_adjoint (op_scalar_mult alpha n) n n.
Proof. exact (@scalar_mult_adjoint K alpha n). Qed.
Print Assumptions C01_scalar_mult.
Theorem C01_identity (K : scalar) n m : has_adjoint (@op_identity K n m) m n.
Proof. exact (@identity_adjoint K n m). Qed.
Print Assumptions C01_identity.
Theorem C01_zero (K : scalar) n m : has_adjoint (@op_zero K n m) m n.
Proof. exact (@zero_adjoint K n m). Qed.
Print Assumptions C01_zero.
Theorem C01_flipud (K : scalar) n : has_adjoint (@op_flipud K n) n n.
Proof. exact (@flipud_adjoint K n). Qed.
Print Assumptions C01_flipud.
Theorem C01_sum (K : scalar) n : has_adjoint (@op_sum K n) 1 n.
Proof. exact (@sum_adjoint K n). Qed.
Print Assumptions C01_sum.
Theorem C01_pad_zeros (K : scalar) n before after :
  has_adjoint (@op_pad_zeros K n before after) (before + n + after) n.
Proof. exact (@pad_zeros_adjoint K n before after). Qed.
Print Assumptions C01_pad_zeros.
Theorem C01_symmetrize (K : scalar) n : has_adjoint (@op_symmetrize K n) (2 * n) n.
Proof. exact (@symmetrize_adjoint K n). Qed.
Print Assumptions C01_symmetrize.
(** cumsum on the empty vector reads y[-1], hence 0 < n *)
Theorem C01_cumsum (K : scalar) n normalized : 0 < n -> has_adjoint (@op_heaviside K n normalized) n n.
Proof. exact (@heaviside_adjoint K n normalized). Qed.
Print Assumptions C01_cumsum.
Theorem C01_diff (K : scalar) n normalized : has_adjoint (@op_inv_heaviside K n normalized) n n.
Proof. exact (@inv_heaviside_adjoint K n normalized). Qed.
Print Assumptions C01_diff.
Theorem C01_dot_real (v : list Rs) :
  has_adjoint (op_dot v false) 1 (length v) /\ has_adjoint (op_dot v true) (length v) 1.
Proof. exact (conj (dot_adjoint_R v) (dot_adjoint_R' v)). Qed.
Print Assumptions C01_dot_real.
(** over complex vectors [dot] is the adjoint pair of the real inner product
    Re<.,.> with real data, which is what its documentation promises *)
Theorem C01_dot_complex (v x : list Cs) (c : R) : length x = length v ->
  fst (inner (times (op_dot v false) x) [(c, 0%R)]) = fst (inner x (trans (op_dot v false) [(c, 0%R)])).
Proof. exact (@dot_real_adjoint_C v x c). Qed.
Print Assumptions C01_dot_complex.

(** ** C02 *)
Theorem C02_neg (K : scalar) (A : operator K) : adj A -> adj (op_neg A).
Proof. exact (@neg_adjoint K A). Qed.
Print Assumptions C02_neg.
Theorem C02_scale (K : scalar) (A : operator K) alpha py_complex : adj A -> adj (op_scale A alpha py_complex).
Proof. exact (@scale_adjoint K A alpha py_complex). Qed.
Print Assumptions C02_scale.
Theorem C02_adjoint (K : scalar) (A : operator K) : adj A -> adj (op_adjoint A).
Proof. exact (@adjoint_adjoint K A). Qed.
Print Assumptions C02_adjoint.
Theorem C02_transpose (K : scalar) (A : operator K) : adj A -> adj (op_transpose A).
Proof. exact (@transpose_adjoint K A). Qed.
Print Assumptions C02_transpose.
Theorem C02_power (K : scalar) (A B : operator K) p : adj A -> op_power A p = Some B -> adj B.
Proof. exact (@power_adjoint K A p B). Qed.
Print Assumptions C02_power.
Theorem C02_partial_op (K : scalar) (A : operator K) picks perm :
  adj A -> NoDup picks -> (forall i, In i picks -> i < om A) ->
  match perm with
  | None => True
  | Some pi => NoDup pi /\ length pi = on A /\ forall i, In i pi -> i < on A
  end ->
  adj (op_partial A picks perm).
Proof. exact (@partial_adjoint K A picks perm). Qed.
Print Assumptions C02_partial_op.
Example C02_partial_op_ex : adj (@op_identity Rs 3 3) /\ NoDup [2; 0] /\ (forall i, In i [2; 0] -> i < 3) /\
  (NoDup [1; 2; 0] /\ length [1; 2; 0] = 3 /\ forall i, In i [1; 2; 0] -> i < 3).
Proof.
  split; [apply (identity_adjoint Rs 3 3)|].
  split; [repeat constructor; simpl; intuition lia|]. split; [simpl; intuition lia|].
  split; [repeat constructor; simpl; intuition lia|]. split; [reflexivity|simpl; intuition lia].
Qed.
Theorem C02_add (K : scalar) (A B C : operator K) : adj A -> adj B -> op_add A B = Some C -> adj C.
Proof. exact (@add_adjoint K A B C). Qed.
Print Assumptions C02_add.
Theorem C02_sub (K : scalar) (A B C : operator K) : adj A -> adj B -> op_sub A B = Some C -> adj C.
Proof. exact (@sub_adjoint K A B C). Qed.
Print Assumptions C02_sub.
Theorem C02_compose (K : scalar) (A B C : operator K) : adj A -> adj B -> op_compose A B = Some C -> adj C.
Proof. exact (@compose_adjoint K A B C). Qed.
Print Assumptions C02_compose.
Theorem C02_hcat (K : scalar) (A B C : operator K) : adj A -> adj B -> op_hcat A B = Some C -> adj C.
Proof. exact (@hcat_adjoint K A B C). Qed.
Print Assumptions C02_hcat.
Theorem C02_gram (K : scalar) (A : operator K) : adj A -> adj (op_gram A).
Proof. exact (@gram_adjoint K A). Qed.
Print Assumptions C02_gram.
Theorem C02_frame (K : scalar) (A : operator K) : adj A -> adj (op_frame A).
Proof. exact (@frame_adjoint K A). Qed.
Print Assumptions C02_frame.
Theorem C02_block_diag (K : scalar) (ops : list (operator K)) C :
  Forall adj ops -> op_block_diag ops = Some C -> adj C.
Proof. exact (@block_diag_adjoint K ops C). Qed.
Print Assumptions C02_block_diag.
(** all the hypotheses of this section are met, e.g. by A = B = the 2x2 cumulative sum *)
Example C02_ex : exists A B C D E F : operator Rs,
  adj A /\ adj B /\ op_add A B = Some C /\ op_compose A B = Some D /\ op_hcat A B = Some E /\
  op_block_diag [A; B] = Some F.
Proof.
  exists (op_cumsum 2), (op_diff 2). do 4 eexists.
  split; [apply (heaviside_adjoint Rs false (n:=2)); lia|].
  split; [apply (inv_heaviside_adjoint Rs 2 false)|]. repeat split.
Qed.

(** ** C03 *)
Theorem C03_neg (K : scalar) (A : operator K) x i : (times (op_neg A) x)@i = sopp (times A x)@i.
Proof. exact (neg_meaning A x i). Qed.
Print Assumptions C03_neg.
Theorem C03_scale (K : scalar) (A : operator K) c b x i : (times (op_scale A c b) x)@i = smul c (times A x)@i.
Proof. exact (scale_meaning A c b x i). Qed.
Print Assumptions C03_scale.
Theorem C03_add (K : scalar) (A B C : operator K) x i : adj A -> adj B -> op_add A B = Some C -> length x = on A ->
  om C = om A /\ on C = on A /\ (times C x)@i = sadd (times A x)@i (times B x)@i.
Proof. exact (@add_meaning K A B C x i). Qed.
Print Assumptions C03_add.
Theorem C03_sub (K : scalar) (A B C : operator K) x i : adj A -> adj B -> op_sub A B = Some C -> length x = on A ->
  om C = om A /\ on C = on A /\ (times C x)@i = ssub (times A x)@i (times B x)@i.
Proof. exact (@sub_meaning K A B C x i). Qed.
Print Assumptions C03_sub.
Theorem C03_compose (K : scalar) (A B C : operator K) x : op_compose A B = Some C ->
  om C = om A /\ on C = on B /\ times C x = times A (times B x) /\ (forall y, trans C y = trans B (trans A y)).
Proof. exact (@compose_meaning K A B C x). Qed.
Print Assumptions C03_compose.
Theorem C03_hcat (K : scalar) (A B C : operator K) x z i : adj A -> adj B -> op_hcat A B = Some C ->
  length x = on A -> length z = on B ->
  om C = om A /\ on C = on A + on B /\ (times C (x ++ z))@i = sadd (times A x)@i (times B z)@i.
Proof. exact (@hcat_meaning K A B C x z i). Qed.
Print Assumptions C03_hcat.
Theorem C03_power_zero (K : scalar) (A B : operator K) x : op_power A 0 = Some B -> times B x = x.
Proof. exact (@power_0 K A B x). Qed.
Print Assumptions C03_power_zero.
Theorem C03_power_succ (K : scalar) (A B C : operator K) p x :
  op_power A p = Some B -> op_power A (S p) = Some C -> times C x = times A (times B x).
Proof. exact (@power_S K A B C p x). Qed.
Print Assumptions C03_power_succ.
Theorem C03_partial_op (K : scalar) (A : operator K) picks perm x i : i < length picks ->
  (times (op_partial A picks perm) x)@i =
  (times A (match perm with None => x | Some pi => map (fun j => x@j) pi end))@(nth i picks 0).
Proof. exact (@partial_meaning K A picks perm x i). Qed.
Print Assumptions C03_partial_op.
Theorem C03_block_diag (K : scalar) (ops : list (operator K)) C xs : op_block_diag ops = Some C ->
  Forall2 (fun A x => length x = on A) ops xs ->
  times C (concat xs) = concat (zipw (fun A x => times A x) ops xs).
Proof. exact (@block_diag_meaning K ops C xs). Qed.
Print Assumptions C03_block_diag.
Theorem C03_column (K : scalar) (A : operator K) i : op_column A i = times A (vbasis (on A) i).
Proof. exact (column_meaning A i). Qed.
Print Assumptions C03_column.
Theorem C03_rejections (K : scalar) (A B : operator K) p :
  (op_add A B = None <-> ~ (om A = om B /\ on A = on B)) /\
  (op_sub A B = None <-> ~ (om A = om B /\ on A = on B)) /\
  (op_compose A B = None <-> on A <> om B) /\
  (op_hcat A B = None <-> om A <> om B) /\
  (op_power A p = None <-> om A <> on A).
Proof.
  exact (conj (add_rejects A B) (conj (sub_rejects A B) (conj (compose_rejects A B)
        (conj (hcat_rejects A B) (power_rejects A p))))).
Qed.
Print Assumptions C03_rejections.

(** ** C04 *)
Theorem C04_adjoint_involution (K : scalar) (A : operator K) :
  times (op_adjoint (op_adjoint A)) = times A /\ trans (op_adjoint (op_adjoint A)) = trans A /\
  om (op_adjoint (op_adjoint A)) = om A /\ on (op_adjoint (op_adjoint A)) = on A.
Proof. exact (conj eq_refl (conj eq_refl (conj eq_refl eq_refl))). Qed.
Print Assumptions C04_adjoint_involution.
Theorem C04_gram_energy (K : scalar) (A : operator K) x : adj A -> length x = on A ->
  inner x (times (op_gram A) x) = inner (times A x) (times A x).
Proof. exact (@gram_energy K A x). Qed.
Print Assumptions C04_gram_energy.
Theorem C04_frame_energy (K : scalar) (A : operator K) y : adj A -> length y = om A ->
  inner y (times (op_frame A) y) = inner (trans A y) (trans A y).
Proof. exact (@frame_energy K A y). Qed.
Print Assumptions C04_frame_energy.
Theorem C04_psd_real (A : operator Rs) : adj A ->
  (forall x, length x = on A -> 0 <= inner x (times (op_gram A) x))%R /\
  (forall y, length y = om A -> 0 <= inner y (times (op_frame A) y))%R.
Proof. exact (fun H => conj (fun x => @gram_psd_R A x H) (fun y => @frame_psd_R A y H)). Qed.
Print Assumptions C04_psd_real.
Theorem C04_psd_complex (A : operator Cs) : adj A ->
  (forall x, length x = on A -> 0 <= fst (inner x (times (op_gram A) x)) /\ snd (inner x (times (op_gram A) x)) = 0)%R /\
  (forall y, length y = om A -> 0 <= fst (inner y (times (op_frame A) y)) /\ snd (inner y (times (op_frame A) y)) = 0)%R.
Proof. exact (fun H => conj (fun x => @gram_psd_C A x H) (fun y => @frame_psd_C A y H)). Qed.
Print Assumptions C04_psd_complex.

(** ** C05 *)
Theorem C05_diff_cumsum (K : scalar) n normalized (x : list K) : length x = n ->
  times (op_inv_heaviside n normalized) (times (op_heaviside n normalized) x) = x.
Proof. exact (@heaviside_inv K n normalized x). Qed.
Print Assumptions C05_diff_cumsum.
Theorem C05_cumsum_diff (K : scalar) n normalized (x : list K) : length x = n ->
  times (op_heaviside n normalized) (times (op_inv_heaviside n normalized) x) = x.
Proof. exact (@inv_heaviside_inv K n normalized x). Qed.
Print Assumptions C05_cumsum_diff.
Theorem C05_diff_entries (K : scalar) n (x : list K) i : length x = n -> i < n ->
  (times (op_diff n) x)@i = if i =? 0 then x@0 else ssub x@i x@(i - 1).
Proof. exact (@diff_meaning K n x i). Qed.
Print Assumptions C05_diff_entries.

(** ** C06 *)
Theorem C06_forward (K : scalar) n d : 0 < n -> d <> 0%R -> has_adjoint (@op_first_derivative K n (ofR d) Forward) n n.
Proof. exact (@first_derivative_fwd_adjoint K n d). Qed.
Print Assumptions C06_forward.
Theorem C06_backward (K : scalar) n d : 0 < n -> d <> 0%R -> has_adjoint (@op_first_derivative K n (ofR d) Backward) n n.
Proof. exact (@first_derivative_bwd_adjoint K n d). Qed.
Print Assumptions C06_backward.
(** The full statement (every dx <> 0) is false: C06_centered_refuted.  What is
    missing from the partial theorem is every dx other than 1. *)
Theorem C06_centered_partial (K : scalar) n : 2 <= n -> has_adjoint (@op_first_derivative K n (ofR 1) Centered) n n.
Proof. exact (@first_derivative_cen_adjoint_unit K n). Qed.
Print Assumptions C06_centered_partial.
Theorem C06_centered_refuted : exists n d, 3 <= n /\ d <> 0%R /\
  ~ has_adjoint (@op_first_derivative Rs n d Centered) n n.
Proof. exact centered_dx_refuted. Qed.
Print Assumptions C06_centered_refuted.
Theorem C06_second (K : scalar) n d : 3 <= n -> d <> 0%R -> has_adjoint (@op_second_derivative K n (ofR d)) n n.
Proof. exact (@second_derivative_adjoint K n d). Qed.
Print Assumptions C06_second.
Theorem C06_second_short_refuted : exists x : list Rs,
  length x = 1 /\ length (times (@op_second_derivative Rs 1 1%R) x) <> om (@op_second_derivative Rs 1 1%R).
Proof. exact second_derivative_short_refuted. Qed.
Print Assumptions C06_second_short_refuted.

(** ** C07 *)
Theorem C07_tv (K : scalar) n k : 0 < n -> has_adjoint (@op_tv K n k) n n.
Proof. exact (@tv_adjoint K n k). Qed.
Print Assumptions C07_tv.
Theorem C07_tv_entries (K : scalar) k n (x : list K) i : length x = n -> i < n ->
  (times (op_tv n k) x)@i =
  ssub (if S i =? n then match k with TvRegular => x@i | TvDirichlet => s0 | TvCircular => x@0 end
        else x@(S i)) x@i.
Proof. exact (@tv_fwd_nth K k n x i). Qed.
Print Assumptions C07_tv_entries.
Theorem C07_tv2D_refuted : exists X Y : list (list Cs), wf_mat 2 1 X /\ wf_mat 2 1 Y /\
  inner2 (tv2_times 2 1 TvRegular X) Y <> inner2 X (tv2_trans 2 1 TvRegular Y).
Proof. exact tv2_refuted. Qed.
Print Assumptions C07_tv2D_refuted.

(** ** C08 *)
Theorem C08_convolve_adjoint (K : scalar) n (h : list K) offset T :
  op_convolve n h offset = Some T -> has_adjoint T n n.
Proof. exact (@convolve_adjoint K n h offset T). Qed.
Print Assumptions C08_convolve_adjoint.
(** entry k of the output is entry offset+k of the full convolution *)
Theorem C08_convolve_entries (K : scalar) n (h : list K) offset T x k :
  op_convolve n h offset = Some T -> length x = n -> k < n ->
  (times T x)@k = Sum n (fun j => if j <=? offset + k then smul x@j h@(offset + k - j) else s0).
Proof. exact (@convolve_entries K n h offset T x k). Qed.
Print Assumptions C08_convolve_entries.
Theorem C08_convolve_rejects (K : scalar) n (h : list K) offset :
  op_convolve n h offset = None <-> (n = 0 \/ length h <= offset).
Proof. exact (@convolve_rejects K n h offset). Qed.
Print Assumptions C08_convolve_rejects.
Theorem C08_fir_filter_adjoint (K : scalar) n (h : list K) : 0 < length h <= n -> has_adjoint (op_fir_filter n h) n n.
Proof. exact (@fir_filter_adjoint K n h). Qed.
Print Assumptions C08_fir_filter_adjoint.
Theorem C08_fir_filter_entries (K : scalar) n (h : list K) x k : 0 < length h <= n -> length x = n -> k < n ->
  (times (op_fir_filter n h) x)@k =
  Sum n (fun j => let t := length h - 1 - length h / 2 + k in
                  if j <=? t then smul x@j h@(t - j) else s0).
Proof. exact (@fir_filter_entries K n h x k). Qed.
Print Assumptions C08_fir_filter_entries.
Theorem C08_running_average_adjoint (K : scalar) n l : 0 < l <= n -> has_adjoint (@op_running_average K n l) n n.
Proof. exact (@running_average_adjoint K n l). Qed.
Print Assumptions C08_running_average_adjoint.
(** each output is 1/l times the sum of the samples in a window of l positions around k *)
Theorem C08_running_average_entries (K : scalar) n l (x : list K) k : 0 < l <= n -> length x = n -> k < n ->
  (times (op_running_average n l) x)@k =
  smul (sdiv s1 (ofR (INR l)))
       (Sum n (fun j => if (j <=? k + (l - 1 - l / 2)) && (k <=? j + l / 2) then x@j else s0)).
Proof. exact (@running_average_entries K n l x k). Qed.
Print Assumptions C08_running_average_entries.
Theorem C08_fir_filter_long_refuted : exists n (h x : list Rs), n < length h /\ length x = n /\
  length (times (op_fir_filter n h) x) <> om (op_fir_filter n h).
Proof. exact fir_long_refuted. Qed.
Print Assumptions C08_fir_filter_long_refuted.
(** 2-D convolution: adjoint for real filters only (the full statement, any
    filter, is false: C08_convolve2D_complex_refuted) *)
Theorem C08_convolve2D_adjoint_partial (K : scalar) M N (h : list (list K)) mh mw o0 o1 :
  wf_mat mh mw h -> o0 < mh -> o1 < mw -> (forall i j, star (get2 h i j) = get2 h i j) ->
  is_adjoint2 (@inner2 K) M N (conv2_times M N h mh mw o0 o1) (conv2_trans M N h mh mw o0 o1).
Proof. exact (@conv2_adjoint K M N h mh mw o0 o1). Qed.
Print Assumptions C08_convolve2D_adjoint_partial.
Theorem C08_convolve2D_entries (K : scalar) M N (h : list (list K)) mh mw o0 o1 X k l :
  wf_mat mh mw h -> wf_mat M N X -> 0 < mh -> 0 < mw -> k < M -> l < N ->
  get2 (conv2_times M N h mh mw o0 o1 X) k l =
  Sum M (fun a => Sum N (fun b =>
    if (a <=? o0 + k) && (b <=? o1 + l) then smul (get2 h (o0 + k - a) (o1 + l - b)) (get2 X a b) else s0)).
Proof. exact (@conv2_meaning K M N h mh mw o0 o1 X k l). Qed.
Print Assumptions C08_convolve2D_entries.
Theorem C08_convolve2D_complex_refuted : exists h X Y : list (list Cs),
  wf_mat 1 1 h /\ wf_mat 1 1 X /\ wf_mat 1 1 Y /\
  inner2 (conv2_times 1 1 h 1 1 0 0 X) Y <> inner2 X (conv2_trans 1 1 h 1 1 0 0 Y).
Proof. exact conv2_complex_refuted. Qed.
Print Assumptions C08_convolve2D_complex_refuted.

(** ** C09 *)
(** full statement (any indices) is false: C09_repeated_refuted *)
Theorem C09_restriction_partial (K : scalar) n I : NoDup I -> (forall i, In i I -> i < n) ->
  has_adjoint (@op_restriction K n I) (length I) n.
Proof. exact (@restriction_adjoint K n I). Qed.
Print Assumptions C09_restriction_partial.
Example C09_restriction_ex : NoDup [3; 1] /\ forall i, In i [3; 1] -> i < 4.
Proof. split; [repeat constructor; simpl; intuition lia|simpl; intuition lia]. Qed.
Theorem C09_restriction_entries (K : scalar) n I (x : list K) i : i < length I ->
  (times (op_restriction n I) x)@i = x@(nth i I 0).
Proof. exact (@restriction_meaning K n I x i). Qed.
Print Assumptions C09_restriction_entries.
Theorem C09_repeated_refuted : exists n I, (forall i, In i I -> i < n) /\
  ~ has_adjoint (@op_restriction Rs n I) (length I) n.
Proof. exact restriction_dup_refuted. Qed.
Print Assumptions C09_repeated_refuted.
Theorem C09_partial_op_repeated_refuted : exists (A : operator Rs) picks, adj A /\ (forall i, In i picks -> i < om A) /\
  ~ adj (op_partial A picks None).
Proof. exact partial_dup_refuted. Qed.
Print Assumptions C09_partial_op_repeated_refuted.

(** ** C10 *)
Theorem C10_windowed (K : scalar) m (T W : operator K) overlap :
  adj T -> op_windowed m T overlap = Some W ->
  exists nb, let off := om T - overlap in
  overlap < om T /\ om W = m /\ on W = nb * on T /\
  m <= om T + (nb - 1) * off /\ (1 < nb -> om T + (nb - 2) * off < m) /\
  adj W /\
  (forall x k, length x = on W -> k < m ->
    (times W x)@k = Sum nb (fun i =>
      if i * off <=? k then (times T (firstn (on T) (skipn (i * on T) x)))@(k - i * off) else s0)).
Proof. exact (@windowed_full K m T W overlap). Qed.
Print Assumptions C10_windowed.
Theorem C10_windowed_rejects (K : scalar) m (T : operator K) overlap :
  op_windowed m T overlap = None <-> om T <= overlap.
Proof. exact (@windowed_rejects K m T overlap). Qed.
Print Assumptions C10_windowed_rejects.
Example C10_windowed_ex : exists W, op_windowed 7 (@op_cumsum Rs 4) 1 = Some W /\ om W = 7 /\ on W = 8 /\ adj (@op_cumsum Rs 4).
Proof.
  eexists. split; [reflexivity|]. split; [reflexivity|]. split; [reflexivity|].
  apply (heaviside_adjoint Rs false (n:=4)); lia.
Qed.

(** ** C14 *)
Theorem C14_to_matrix (K : scalar) (A : operator K) cols :
  maps_dim (om A) (on A) (times A) -> is_linear (on A) (times A) -> to_matrix_cols A = Some cols ->
  length cols = on A /\
  (forall j, j < on A -> nth j cols [] = times A (vbasis (on A) j)) /\
  (forall x i, length x = on A -> i < om A ->
     (times A x)@i = Sum (on A) (fun j => smul (nth j cols [])@i x@j)).
Proof. exact (@to_matrix_spec K A cols). Qed.
Print Assumptions C14_to_matrix.
Theorem C14_to_adjoint_matrix (K : scalar) (A : operator K) M MH :
  maps_dim (om A) (on A) (times A) -> maps_dim (on A) (om A) (trans A) ->
  is_linear (on A) (times A) -> is_linear (om A) (trans A) ->
  to_matrix_cols A = Some M -> to_adjoint_matrix_cols A = Some MH ->
  (adj A <-> forall i j, i < om A -> j < on A -> (nth i MH [])@j = star ((nth j M [])@i)).
Proof. exact (@to_adjoint_matrix_spec K A M MH). Qed.
Print Assumptions C14_to_adjoint_matrix.
Theorem C14_rejects_nonlinear (K : scalar) (A : operator K) : to_matrix_cols A = None <-> linear A = false.
Proof. exact (@to_matrix_rejects K A). Qed.
Print Assumptions C14_rejects_nonlinear.

(** ** C15 *)
(** every operator that is an adjoint pair is linear, whatever flags it carries *)
Theorem C15_adjoint_pair_linear (K : scalar) (A : operator K) : adj A -> is_linear (on A) (times A).
Proof. exact (@adjoint_linear K (om A) (on A) (times A) (trans A)). Qed.
Print Assumptions C15_adjoint_pair_linear.
Theorem C15_flags_unary_partial (K : scalar) (A : operator K) (f : operator K -> operator K) :
  In f [@op_neg K; @op_adjoint K; @op_transpose K; @op_gram K; @op_frame K] ->
  jit_safe (f A) = jit_safe A /\ matrix_safe (f A) = matrix_safe A.
Proof. exact (@flags_unary K A f). Qed.
Print Assumptions C15_flags_unary_partial.
Theorem C15_flags_binary_partial (K : scalar) (A B C : operator K) (f : operator K -> operator K -> option (operator K)) :
  In f [@op_add K; @op_sub K; @op_hcat K] -> f A B = Some C ->
  jit_safe C = jit_safe A && jit_safe B /\ matrix_safe C = matrix_safe A && matrix_safe B /\
  real C = real A && real B.
Proof. exact (@flags_binary K A B C f). Qed.
Print Assumptions C15_flags_binary_partial.
Theorem C15_linear_flag_refuted : exists A : operator Cs,
  linear A = true /\ ~ is_linear (on A) (times A) /\ A = op_neg (op_real 1).
Proof. exact linear_flag_refuted. Qed.
Print Assumptions C15_linear_flag_refuted.
Theorem C15_compose_matrix_safe_refuted : exists A B C : operator Rs,
  op_compose A B = Some C /\ matrix_safe A = false /\ matrix_safe C = true.
Proof. exact compose_flags_refuted. Qed.
Print Assumptions C15_compose_matrix_safe_refuted.
Theorem C15_compose_jit_safe_refuted : exists A B C : operator Rs,
  op_compose A B = Some C /\ jit_safe A = false /\ jit_safe C = true.
Proof. exact compose_jit_refuted. Qed.
Print Assumptions C15_compose_jit_safe_refuted.
Theorem C15_block_diag_real_refuted : exists A B C : operator Cs,
  op_block_diag [A; B] = Some C /\ real A = false /\ real C = true.
Proof. exact block_diag_flags_refuted. Qed.
Print Assumptions C15_block_diag_real_refuted.
(** the transpose is correct whenever the real flag is truthful ... *)
Theorem C15_transpose_partial (K : scalar) (A : operator K) :
  adj A -> (real A = true -> is_real_map (on A) (times A)) ->
  is_transpose (om A) (on A) (times A) (times (op_transpose A)) /\
  om (op_transpose A) = on A /\ on (op_transpose A) = om A.
Proof. exact (@transpose_correct K A). Qed.
Print Assumptions C15_transpose_partial.
(** ... and it is wrong for i*I, which advertises real = True *)
Theorem C15_transpose_refuted : exists A : operator Cs, adj A /\ real A = true /\
  ~ is_transpose (om A) (on A) (times A) (times (op_transpose A)).
Proof. exact transpose_refuted. Qed.
Print Assumptions C15_transpose_refuted.

(** ** C16 *)
Theorem C16_dot_test_accepts (A : operator Rs) u v tol : adj A -> (0 < tol)%R ->
  length u = on A -> length v = om A -> inner (times A u) v <> (- (/ 10 ^ 15) / 2)%R ->
  dot_test_real A u v tol = true.
Proof. exact (@dot_test_accepts A u v tol). Qed.
Print Assumptions C16_dot_test_accepts.
(** soundness needs a positive sum of the two inner products; without that
    restriction it is false: C16_dot_test_refuted *)
Theorem C16_dot_test_sound_partial (A : operator Rs) u v tol : (0 < tol)%R ->
  (0 < @inner Rs (times A u) v + @inner Rs u (trans A v) + / 10 ^ 15)%R ->
  dot_test_real A u v tol = true ->
  (Rabs (@inner Rs (times A u) v - @inner Rs u (trans A v)) <
    tol * ((@inner Rs (times A u) v + @inner Rs u (trans A v) + / 10 ^ 15) / 2))%R.
Proof. exact (@dot_test_sound A u v tol). Qed.
Print Assumptions C16_dot_test_sound_partial.
Theorem C16_dot_test_refuted : exists (A : operator Rs) u v,
  length u = on A /\ length v = om A /\ dot_test_real A u v (/ 10 ^ 6)%R = true /\
  (Rabs (@inner Rs (times A u) v - @inner Rs u (trans A v)) = 4)%R.
Proof. exact dot_test_unsound. Qed.
Print Assumptions C16_dot_test_refuted.

(** ** C17 *)
Theorem C17_normest_real (A : operator Rs) b max_iters tol L e :
  adj A -> length b = on A -> 1 <= max_iters -> (tol < 2)%R -> (0 <= L)%R ->
  (forall x, length x = on A -> l2norm (K:=Rs) Rabs (times A x) <= L * l2norm (K:=Rs) Rabs x)%R ->
  normest (K:=Rs) Rabs A b max_iters tol = Done e -> (0 <= e <= L)%R.
Proof. exact (@normest_le Rs Rabs Rs_self Rs_scale A b max_iters tol L e). Qed.
Print Assumptions C17_normest_real.
Theorem C17_normest_complex (A : operator Cs) b max_iters tol L e :
  adj A -> length b = on A -> 1 <= max_iters -> (tol < 2)%R -> (0 <= L)%R ->
  (forall x, length x = on A -> l2norm (K:=Cs) Cabs (times A x) <= L * l2norm (K:=Cs) Cabs x)%R ->
  normest (K:=Cs) Cabs A b max_iters tol = Done e -> (0 <= e <= L)%R.
Proof. exact (@normest_le Cs Cabs Cs_self Cs_scale A b max_iters tol L e). Qed.
Print Assumptions C17_normest_complex.
Theorem C17_normest_terminates (A : operator Rs) b max_iters tol :
  normest (K:=Rs) Rabs A b max_iters tol <> Fuel.
Proof. exact (@normest_no_fuel Rs Rabs A b max_iters tol). Qed.
Print Assumptions C17_normest_terminates.
(** max_iters = 0 returns the sentinel 1e10 whatever the operator *)
Theorem C17_normest_zero_iters_refuted :
  normest (K:=Rs) Rabs (op_zero 1 1) [1%R] 0 (/2)%R = Done (sqrt (10 ^ 20)).
Proof. exact normest_zero_iters. Qed.
Print Assumptions C17_normest_zero_iters_refuted.
(** the zero operator makes the iteration divide 0 by 0 *)
Theorem C17_normest_zero_operator_refuted :
  normest (K:=Rs) Rabs (op_zero 1 1) [1%R] 100 (/ 10 ^ 6)%R = Fail.
Proof. exact normest_zero_op. Qed.
Print Assumptions C17_normest_zero_operator_refuted.

(** ** C58 *)
Theorem C58_matrix (K : scalar) m n (A : list (list K)) b x i : wf_mat m n A -> length x = n -> i < m ->
  (times (op_matrix m n A b) x)@i = Sum n (fun j => smul (nth i A [])@j x@j).
Proof. exact (@matrix_meaning K m n A b x i). Qed.
Print Assumptions C58_matrix.
Theorem C58_diagonal (K : scalar) (d x : list K) i : length x = length d ->
  (times (op_diagonal d) x)@i = smul d@i x@i.
Proof. exact (@diagonal_meaning K d x i). Qed.
Print Assumptions C58_diagonal.
Theorem C58_flipud (K : scalar) n (x : list K) i : length x = n -> i < n ->
  (times (op_flipud n) x)@i = x@(n - 1 - i).
Proof. exact (@flipud_meaning K n x i). Qed.
Print Assumptions C58_flipud.
Theorem C58_sum (K : scalar) n (x : list K) : length x = n -> times (op_sum n) x = [Sum n (fun j => x@j)].
Proof. exact (@sum_meaning K n x). Qed.
Print Assumptions C58_sum.
Theorem C58_pad_zeros (K : scalar) n b a (x : list K) i : length x = n -> i < b + n + a ->
  (times (op_pad_zeros n b a) x)@i = if (b <=? i) && (i <? b + n) then x@(i - b) else s0.
Proof. exact (@pad_zeros_meaning K n b a x i). Qed.
Print Assumptions C58_pad_zeros.
Theorem C58_symmetrize (K : scalar) n (x : list K) i : length x = n -> i < 2 * n ->
  (times (op_symmetrize n) x)@i = if i <? n then x@(n - 1 - i) else x@(i - n).
Proof. exact (@symmetrize_meaning K n x i). Qed.
Print Assumptions C58_symmetrize.
Theorem C58_cumsum (K : scalar) n (x : list K) i : length x = n -> i < n ->
  (times (op_cumsum n) x)@i = Sum (S i) (fun j => x@j).
Proof. exact (@cumsum_meaning K n x i). Qed.
Print Assumptions C58_cumsum.
Theorem C58_identity (K : scalar) n m (x : list K) i : length x = n -> i < m ->
  (times (op_identity n m) x)@i = if i <? n then x@i else s0.
Proof. exact (@identity_meaning K n m x i). Qed.
Print Assumptions C58_identity.
Theorem C58_scalar_mult (K : scalar) c n (x : list K) i : (times (op_scalar_mult c n) x)@i = smul c x@i.
Proof. exact (@scalar_mult_meaning K c n x i). Qed.
Print Assumptions C58_scalar_mult.
Theorem C58_zero (K : scalar) n m (x : list K) : times (op_zero n m) x = repeat s0 m.
Proof. exact eq_refl. Qed.
Print Assumptions C58_zero.
