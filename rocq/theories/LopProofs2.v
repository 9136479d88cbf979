(** Derivatives, total variation, convolution, filters, windows, dense form. *)
From Coq Require Import List Arith Bool Lia Reals Lra.
From Verif Require Import Scalar Vec LopSpec LopOpSpec LopModel LopLemmas LopProofs.
Import ListNotations.
Set Implicit Arguments.

Section P2.
  Variable K : scalar.
  Add Field KfieldP2 : (s_field K).
  Local Open Scope scal_scope.
  Notation vec := (list K).
  Notation "x @ i" := (nth i x s0) (at level 5, i at level 4).

  Lemma Sum_delta n k (f : nat -> K) :
    Sum n (fun j => if j =? k then f j else s0) = if k <? n then f k else s0.
  Proof.
    rewrite (Sum_ext K _ (fun j => if j + 0 =? k then f j else s0)).
    2:{ intros; now rewrite Nat.add_0_r. }
    rewrite Sum_pick, Nat.sub_0_r. simpl. reflexivity.
  Qed.

  Lemma star_div_ofR (a : K) d : d <> 0%R -> star (a / ofR d) = star a / ofR d.
  Proof.
    intros H. rewrite !(Fdiv_def (s_field K)), star_mul, star_inv, ofR_star; auto.
    now apply ofR_neq0.
  Qed.

  Lemma vdivs_length (x : vec) c : length (vdivs x c) = length x.
  Proof. unfold vdivs. len. Qed.
  Lemma vdivs_nth (x : vec) c i : c <> s0 -> (vdivs x c)@i = x@i / c.
  Proof.
    intros Hc. destruct (Nat.lt_ge_cases i (length x)).
    - unfold vdivs. now rewrite nth_map_lt with (da:=s0).
    - rewrite !nth_over; [field; auto|lia|rewrite vdivs_length; lia].
  Qed.

  Lemma zero_last_length (x : vec) : length (zero_last x) = length x.
  Proof. apply set_at_length. Qed.
  Lemma zero_first_length (x : vec) : length (zero_first x) = length x.
  Proof. apply set_at_length. Qed.
  Lemma zero_last_nth (x : vec) j : 0 < length x ->
    (zero_last x)@j = if S j =? length x then s0 else x@j.
  Proof. intros H. unfold zero_last. rewrite set_at_nth. bcase; auto; lia. Qed.
  Lemma zero_first_nth (x : vec) j : 0 < length x ->
    (zero_first x)@j = if j =? 0 then s0 else x@j.
  Proof. intros H. unfold zero_first. rewrite set_at_nth. bcase; auto; lia. Qed.

  (** difference kernels *)
  Definition k_fwd (n i j : nat) : K :=
    if S i =? n then s0 else if j =? S i then s1 else if j =? i then - (@s1 K) else s0.
  Definition k_bwd (i j : nat) : K :=
    if i =? 0 then s0 else if j =? i then s1 else if S j =? i then - (@s1 K) else s0.

  Lemma k_fwd_row n (x : vec) i : length x = n -> i < n ->
    Sum n (fun j => k_fwd n i j * x@j) = (if S i =? n then s0 else x@(S i) - x@i).
  Proof.
    intros Hx Hi. unfold k_fwd. destruct (Nat.eqb_spec (S i) n).
    - apply Sum_0'. intros; ring.
    - rewrite (Sum_ext K _ (fun j => (if j =? S i then x@j else s0) - (if j =? i then x@j else s0))).
      2:{ intros j Hj. bcase; try lia; ring. }
      rewrite Sum_sub, !Sum_delta. bcase; try lia; reflexivity.
  Qed.
  Lemma k_fwd_col n (y : vec) j : length y = n -> j < n ->
    Sum n (fun i => star (k_fwd n i j) * y@i) =
    (if j =? 0 then s0 else y@(j - 1)) - (if S j =? n then s0 else y@j).
  Proof.
    intros Hy Hj. unfold k_fwd.
    rewrite (Sum_ext K _ (fun i => (if i + 1 =? j then y@i else s0) - (if i =? j then (if S i =? n then s0 else y@i) else s0))).
    2:{ intros i Hi. bcase; try lia; rewrite ?star_opp, ?star_1, ?star_0; ring. }
    rewrite Sum_sub, Sum_delta, Sum_pick. bcase; try lia; reflexivity.
  Qed.
  Lemma k_bwd_row n (x : vec) i : length x = n -> i < n ->
    Sum n (fun j => k_bwd i j * x@j) = (if i =? 0 then s0 else x@i - x@(i - 1)).
  Proof.
    intros Hx Hi. unfold k_bwd. destruct (Nat.eqb_spec i 0).
    - apply Sum_0'. intros; ring.
    - rewrite (Sum_ext K _ (fun j => (if j =? i then x@j else s0) - (if j + 1 =? i then x@j else s0))).
      2:{ intros j Hj. bcase; try lia; ring. }
      rewrite Sum_sub, Sum_delta, Sum_pick. bcase; try lia; reflexivity.
  Qed.
  Lemma k_bwd_col n (y : vec) j : length y = n -> j < n ->
    Sum n (fun i => star (k_bwd i j) * y@i) =
    (if j =? 0 then s0 else y@j) - (if S j =? n then s0 else y@(S j)).
  Proof.
    intros Hy Hj. unfold k_bwd.
    rewrite (Sum_ext K _ (fun i => (if i =? j then (if i =? 0 then s0 else y@i) else s0) - (if i =? S j then y@i else s0))).
    2:{ intros i Hi. bcase; try lia; rewrite ?star_opp, ?star_1, ?star_0; ring. }
    rewrite Sum_sub, !Sum_delta. bcase; try lia; reflexivity.
  Qed.

  Lemma last_nth_eq (x : vec) i : S i = length x -> jlast x = x@i.
  Proof. intros H. unfold jlast. f_equal. lia. Qed.

  (** pointwise meaning *)
  Lemma diff_last_nth (x : vec) i n : length x = n -> i < n ->
    (jdiff (x ++ [jlast x]))@i = if S i =? n then s0 else x@(S i) - x@i.
  Proof.
    intros Hx Hi. rewrite jdiff_post_nth by lia. rewrite Hx. bcase; auto.
    rewrite (@last_nth_eq x i) by lia. ring.
  Qed.
  Lemma diff_first_nth (x : vec) i n : length x = n -> i < n ->
    (jdiff (jfirst x :: x))@i = if i =? 0 then s0 else x@i - x@(i - 1).
  Proof.
    intros Hx Hi. rewrite jdiff_pre_nth by lia. bcase; auto.
    subst i. unfold jfirst. ring.
  Qed.
  Lemma fwd_adj_nth (y : vec) j n : length y = n -> j < n ->
    (jdiff (s0 :: vopp (zero_last y)))@j =
    (if j =? 0 then s0 else y@(j - 1)) - (if S j =? n then s0 else y@j).
  Proof.
    intros Hy Hj. rewrite jdiff_pre_nth by (rewrite vopp_length, zero_last_length; lia).
    rewrite !vopp_nth, !zero_last_nth by lia. rewrite Hy. bcase; try lia; ring.
  Qed.
  Lemma bwd_adj_nth (y : vec) j n : length y = n -> j < n ->
    (jdiff (vopp (zero_first y) ++ [s0]))@j =
    (if j =? 0 then s0 else y@j) - (if S j =? n then s0 else y@(S j)).
  Proof.
    intros Hy Hj. rewrite jdiff_post_nth by (rewrite vopp_length, zero_first_length; lia).
    rewrite vopp_length, zero_first_length, Hy, !vopp_nth, !zero_first_nth by lia.
    bcase; try lia; ring.
  Qed.

  Lemma first_derivative_fwd_adjoint n d : 0 < n -> d <> 0%R ->
    has_adjoint (@op_first_derivative K n (ofR d) Forward) n n.
  Proof.
    intros Hn Hd. pose proof (ofR_neq0 K d Hd) as HdK.
    split; [reflexivity|split; [reflexivity|]].
    apply adjoint_by_kernel with (a := fun i j => k_fwd n i j / ofR d); cbn [op_first_derivative times trans mkop].
    - intros x Hx. unfold der_fwd. now rewrite vdivs_length, jdiff_post_length.
    - intros y Hy. unfold der_fwd_adj. now rewrite vdivs_length, jdiff_pre_length, vopp_length, zero_last_length.
    - intros x i Hx Hi. unfold der_fwd. rewrite vdivs_nth, (diff_last_nth _ Hx Hi) by auto.
      rewrite <- (k_fwd_row x Hx Hi). rewrite (Fdiv_def (s_field K)), <- Sum_mul_r.
      apply Sum_ext. intros j Hj. field. auto.
    - intros y j Hy Hj. unfold der_fwd_adj. rewrite vdivs_nth, (fwd_adj_nth _ Hy Hj) by auto.
      rewrite <- (k_fwd_col y Hy Hj). rewrite (Fdiv_def (s_field K)), <- Sum_mul_r.
      apply Sum_ext. intros i Hi. rewrite star_div_ofR by auto. field. auto.
  Qed.

  Lemma first_derivative_bwd_adjoint n d : 0 < n -> d <> 0%R ->
    has_adjoint (@op_first_derivative K n (ofR d) Backward) n n.
  Proof.
    intros Hn Hd. pose proof (ofR_neq0 K d Hd) as HdK.
    split; [reflexivity|split; [reflexivity|]].
    apply adjoint_by_kernel with (a := fun i j => k_bwd i j / ofR d); cbn [op_first_derivative times trans mkop].
    - intros x Hx. unfold der_bwd. now rewrite vdivs_length, jdiff_pre_length.
    - intros y Hy. unfold der_bwd_adj. now rewrite vdivs_length, jdiff_post_length, vopp_length, zero_first_length.
    - intros x i Hx Hi. unfold der_bwd. rewrite vdivs_nth, (diff_first_nth _ Hx Hi) by auto.
      rewrite <- (k_bwd_row x Hx Hi). rewrite (Fdiv_def (s_field K)), <- Sum_mul_r.
      apply Sum_ext. intros j Hj. field. auto.
    - intros y j Hy Hj. unfold der_bwd_adj. rewrite vdivs_nth, (bwd_adj_nth _ Hy Hj) by auto.
      rewrite <- (k_bwd_col y Hy Hj). rewrite (Fdiv_def (s_field K)), <- Sum_mul_r.
      apply Sum_ext. intros i Hi. rewrite star_div_ofR by auto. field. auto.
  Qed.

  (** centered: pointwise *)
  Lemma der_cen_length (x : vec) dx n : length x = n -> 2 <= n -> length (der_cen x dx) = n.
  Proof.
    intros Hx Hn. unfold der_cen. rewrite jpad_length, vdivs_length.
    rewrite (vsub_length K) with (n := (n - 2)%nat); [lia| |]; rewrite vscale_length; len.
  Qed.
  Lemma der_cen_nth (x : vec) dx n i : dx <> s0 -> length x = n -> 2 <= n -> i < n ->
    (der_cen x dx)@i = if (0 <? i) && (S i <? n) then half * (x@(S i) - x@(i - 1)) / dx else s0.
  Proof.
    intros Hdx Hx Hn Hi. unfold der_cen. rewrite jpad_nth, vdivs_nth by auto.
    destruct (Nat.ltb_spec i 1).
    - bcase; try lia; reflexivity.
    - rewrite vsub_nth by (rewrite !vscale_length; len).
      rewrite !vscale_nth, skipn_nth, firstn_nth. rewrite Hx.
      bcase; try lia.
      + replace (2 + (i - 1))%nat with (S i) by lia. field; auto.
      + rewrite (@nth_over K x (2 + (i - 1))) by lia. field; auto.
  Qed.
  Lemma der_cen_adj_length (y : vec) dx n : length y = n -> 2 <= n -> length (der_cen_adj y dx) = n.
  Proof.
    intros Hy Hn. unfold der_cen_adj.
    assert (Hm : length (slice 1 (length y - 2) y) = (n - 2)%nat) by (rewrite slice_length; lia).
    assert (H0 : length (add_slice 0 (vscale (- half) (slice 1 (length y - 2) y)) (vzero (length y))) = n).
    { rewrite add_slice_length; rewrite ?vscale_length, ?vzero_length; lia. }
    rewrite add_slice_length; auto. rewrite vscale_length. lia.
  Qed.
  Lemma der_cen_adj_nth (y : vec) dx n j : length y = n -> 2 <= n -> j < n ->
    (der_cen_adj y dx)@j =
    half * ((if 2 <=? j then y@(j - 1) else s0) - (if S (S j) <? n then y@(S j) else s0)).
  Proof.
    intros Hy Hn Hj. unfold der_cen_adj.
    assert (Hm : length (slice 1 (length y - 2) y) = (n - 2)%nat) by (rewrite slice_length; lia).
    assert (H0 : length (add_slice 0 (vscale (- half) (slice 1 (length y - 2) y)) (vzero (length y))) = n).
    { rewrite add_slice_length; rewrite ?vscale_length, ?vzero_length; lia. }
    rewrite add_slice_nth by (rewrite vscale_length; lia).
    rewrite add_slice_nth by (rewrite vscale_length, vzero_length; lia).
    rewrite vzero_nth, !vscale_nth, !slice_nth, Hy.
    replace (1 + (j - 0))%nat with (S j) by lia. rewrite (Nat.sub_0_r j).
    bcase; try lia; try ring.
    - replace (1 + (j - 2))%nat with (j - 1)%nat by lia. ring.
    - replace (1 + (j - 2))%nat with (j - 1)%nat by lia. ring.
  Qed.

  Lemma half_star : star (@half K) = half. Proof. apply ofR_star. Qed.

  Lemma first_derivative_cen_adjoint_unit n : 2 <= n ->
    has_adjoint (@op_first_derivative K n (ofR 1) Centered) n n.
  Proof.
    intros Hn. assert (H1 : @ofR K 1 <> s0) by (apply ofR_neq0; lra).
    split; [reflexivity|split; [reflexivity|]].
    apply adjoint_by_kernel with (a := fun i j =>
      if (0 <? i) && (S i <? n) then (if j =? S i then half else if S j =? i then - (@half K) else s0) else s0);
      cbn [op_first_derivative times trans mkop].
    - intros x Hx. now apply der_cen_length.
    - intros y Hy. now apply der_cen_adj_length.
    - intros x i Hx Hi. rewrite (@der_cen_nth x (ofR 1) n i) by auto.
      destruct ((0 <? i) && (S i <? n)) eqn:E.
      + rewrite (Sum_ext K _ (fun j => (if j =? S i then half * x@j else s0) - (if j + 1 =? i then half * x@j else s0))).
        2:{ intros j Hj. bcase; try lia; ring. }
        rewrite Sum_sub, Sum_delta, Sum_pick.
        apply andb_prop in E. destruct E as [E1 E2]. apply Nat.ltb_lt in E1, E2.
        bcase; try lia. rewrite ofR_1. field. intro E; apply (F_1_neq_0 (s_field K)); auto.
      + symmetry. apply Sum_0'. intros; ring.
    - intros y j Hy Hj. rewrite (@der_cen_adj_nth y (ofR 1) n j) by auto.
      rewrite (Sum_ext K _ (fun i => (if i + 1 =? S j + 0 then s0 else s0) + ((if i + 1 =? j then (if 0 <? i then half * y@i else s0) else s0)
           - (if i =? S j then (if S i <? n then half * y@i else s0) else s0)))).
      2:{ intros i Hi. bcase; try lia; rewrite ?star_opp, ?star_0, ?half_star; ring. }
      rewrite Sum_add, Sum_sub, Sum_delta, !Sum_pick. bcase; try lia; ring.
  Qed.

  (** second derivative *)
  Lemma der2_filter_star d i : d <> 0%R -> star ((@der2_filter K (ofR d))@i) = (@der2_filter K (ofR d))@i.
  Proof.
    intros Hd. unfold der2_filter. destruct i as [|[|[|i]]]; cbn [nth].
    - rewrite !star_div_ofR, star_1; auto.
    - rewrite !star_div_ofR, ofR_star; auto.
    - rewrite !star_div_ofR, star_1; auto.
    - destruct i; apply star_0.
  Qed.
  Lemma der2_filter_sym (dx : K) : (der2_filter dx)@2 = (der2_filter dx)@0.
  Proof. reflexivity. Qed.

  Lemma conv_valid_length (x h : vec) : 0 < length h <= length x ->
    length (conv_valid x h) = (length x + 1 - length h)%nat.
  Proof. intros H. unfold conv_valid. rewrite slice_length, conv_full_length. lia. Qed.

  Lemma Sum_ends n (g : nat -> K) : 2 <= n -> g 0 = s0 -> g (n - 1)%nat = s0 ->
    Sum n g = Sum (n - 2) (fun i => g (S i)).
  Proof.
    intros Hn H0 H1. destruct n as [|[|n]]; try lia.
    rewrite Sum_S_l. cbn [Sum]. rewrite H0.
    replace (S (S n) - 1)%nat with (S n) in H1 by lia. rewrite H1.
    replace (S (S n) - 2)%nat with n by lia. ring.
  Qed.

  Lemma second_derivative_adjoint n d : 3 <= n -> d <> 0%R ->
    has_adjoint (@op_second_derivative K n (ofR d)) n n.
  Proof.
    intros Hn Hd. set (f := @der2_filter K (ofR d)).
    assert (Hf : length f = 3) by reflexivity.
    split; [reflexivity|split; [reflexivity|]].
    apply adjoint_by_kernel with (a := fun i j =>
      if (0 <? i) && (S i <? n) then Sum 3 (fun k => if k + j =? S i then f@k else s0) else s0);
      cbn [op_second_derivative times trans mkop]; fold f.
    - intros x Hx. rewrite jpad_length, conv_valid_length by (rewrite Hf; lia). rewrite Hf. lia.
    - intros y Hy. rewrite conv_full_length, slice_length, Hf. lia.
    - intros x i Hx Hi. rewrite jpad_nth. unfold conv_valid. rewrite slice_nth, Hf.
      destruct (Nat.ltb_spec i 1).
      + symmetry. apply Sum_0'. intros j Hj. bcase; try lia. ring.
      + destruct (Nat.ltb_spec (i - 1) (length x + 1 - 3)).
        * rewrite conv_full_nth by (rewrite Hf; lia). rewrite Hf, Hx.
          apply Sum_ext. intros j Hj.
          replace (3 - 1 + (i - 1))%nat with (S i) by lia. 
          assert (E : ((0 <? i) && (S i <? n)) = true) by (bcase; auto; lia). rewrite E.
          rewrite <- Sum_mul_r.
          apply Sum_ext. intros k Hk. bcase; ring.
        * symmetry. apply Sum_0'. intros j Hj. bcase; try lia. ring.
    - intros y j Hy Hj. rewrite conv_full_nth by (rewrite slice_length, Hf; lia).
      rewrite Hf, slice_length, Hy. replace (Nat.min (n - 2) (n - 1)) with (n - 2)%nat by lia.
      rewrite (@Sum_ends n (fun i => star (if (0 <? i) && (S i <? n) then Sum 3 (fun k => if k + j =? S i then f@k else s0) else s0) * y@i)).
      + apply Sum_ext. intros i Hi.
        assert (E : ((0 <? S i) && (S (S i) <? n)) = true) by (bcase; auto; lia). rewrite E.
        rewrite star_Sum, <- Sum_mul_r. rewrite (Sum_rev K 3). apply Sum_ext. intros k Hk.
        rewrite slice_nth.
        assert (Es : f@(3 - 1 - k) = f@k).
        { destruct k as [|[|[|k]]]; try lia; reflexivity. }
        rewrite Es. destruct (Nat.ltb_spec i (n - 2)); try lia.
        destruct (Nat.eqb_spec (3 - 1 - k + i) j); destruct (Nat.eqb_spec (k + j) (S (S i))); try lia.
        * unfold f. rewrite der2_filter_star by auto. simpl (1 + i)%nat. ring.
        * rewrite star_0. ring.
      + lia.
      + assert (E : ((0 <? 0) && (1 <? n)) = false) by reflexivity. rewrite E, star_0. ring.
      + assert (E : ((0 <? n - 1) && (S (n - 1) <? n)) = false) by (bcase; auto; lia).
        rewrite E, star_0. ring.
  Qed.

  (** *** total variation *)
  Lemma tv_fwd_length k (x : vec) : length (tv_fwd k x) = length x.
  Proof. destruct k; apply jdiff_post_length. Qed.
  Lemma tv_adj_length k (x : vec) : length (tv_adj k x) = length x.
  Proof.
    destruct k; simpl.
    - now rewrite jdiff_pre_length, vopp_length, zero_last_length.
    - apply vsub_length; auto. rewrite firstn_length. simpl. lia.
    - apply vsub_length; auto. rewrite firstn_length. simpl. lia.
  Qed.

  Definition k_tv (k : tv_kind) (n i j : nat) : K :=
    match k with
    | TvRegular => k_fwd n i j
    | TvDirichlet => (if j =? S i then s1 else s0) - (if j =? i then s1 else s0)
    | TvCircular => (if j =? (if S i =? n then 0 else S i) then s1 else s0) - (if j =? i then s1 else s0)
    end.

  (** boundary value appended to x, then successive differences *)
  Lemma tv_fwd_nth k n (x : vec) i : length x = n -> i < n ->
    (tv_fwd k x)@i = (if S i =? n then match k with TvRegular => x@i | TvDirichlet => s0 | TvCircular => x@0 end
                      else x@(S i)) - x@i.
  Proof.
    intros Hx Hi. destruct k; cbn [tv_fwd]; rewrite jdiff_post_nth by lia; rewrite Hx; bcase; auto.
    now rewrite (@last_nth_eq x i) by lia.
  Qed.

  Lemma tv_adjoint n k : 0 < n -> has_adjoint (@op_tv K n k) n n.
  Proof.
    intros Hn. split; [reflexivity|split; [reflexivity|]].
    apply adjoint_by_kernel with (a := k_tv k n); cbn [op_tv times trans mkop].
    - intros x Hx. now rewrite tv_fwd_length.
    - intros y Hy. now rewrite tv_adj_length.
    - intros x i Hx Hi. rewrite (@tv_fwd_nth k n) by auto. destruct k; cbn [k_tv].
      + rewrite k_fwd_row by auto. bcase; ring.
      + rewrite (Sum_ext K _ (fun j => (if j =? S i then x@j else s0) - (if j =? i then x@j else s0))).
        2:{ intros j Hj. bcase; try lia; ring. }
        rewrite Sum_sub, !Sum_delta. bcase; try lia; reflexivity.
      + rewrite (Sum_ext K _ (fun j => (if j =? (if S i =? n then 0 else S i) then x@j else s0) - (if j =? i then x@j else s0))).
        2:{ intros j Hj. destruct (Nat.eqb_spec (S i) n); bcase; try lia; ring. }
        rewrite Sum_sub, !Sum_delta. destruct (Nat.eqb_spec (S i) n); bcase; try lia; reflexivity.
    - intros y j Hy Hj. destruct k; cbn [k_tv].
      + cbn [tv_adj]. rewrite (fwd_adj_nth y Hy Hj). now rewrite k_fwd_col.
      + cbn [tv_adj]. rewrite vsub_nth by (rewrite firstn_length; simpl; lia).
        rewrite firstn_nth, Hy.
        rewrite (Sum_ext K _ (fun i => (if i + 1 =? j then y@i else s0) - (if i =? j then y@i else s0))).
        2:{ intros i Hi. rewrite star_sub. bcase; try lia; rewrite ?star_1, ?star_0; ring. }
        rewrite Sum_sub, Sum_delta, Sum_pick.
        destruct j as [|j]; cbn [nth].
        * bcase; try lia; reflexivity.
        * bcase; try lia. now replace (S j - 1)%nat with j by lia.
      + cbn [tv_adj]. rewrite vsub_nth by (rewrite firstn_length; simpl; lia).
        rewrite firstn_nth, Hy.
        rewrite (Sum_ext K _ (fun i => ((if i + 1 =? j then y@i else s0) + (if i + 1 =? n then (if j =? 0 then y@i else s0) else s0)) - (if i =? j then y@i else s0))).
        2:{ intros i Hi. rewrite star_sub. destruct (Nat.eqb_spec (S i) n);
            bcase; try lia; rewrite ?star_1, ?star_0; ring. }
        rewrite Sum_sub, Sum_add, Sum_delta, !Sum_pick.
        destruct j as [|j]; cbn [nth].
        * unfold jlast. rewrite Hy. bcase; try lia; ring.
        * bcase; try lia. replace (S j - 1)%nat with j by lia. ring.
  Qed.

  (** *** convolution *)
  Definition k_conv (h : vec) (off i j : nat) : K :=
    Sum (length h) (fun k => if k + j =? off + i then h@k else s0).

  Lemma convolve_adjoint n h off T : @op_convolve K n h off = Some T -> has_adjoint T n n.
  Proof.
    unfold op_convolve. destruct (Nat.ltb_spec 0 n) as [Hn|]; [|discriminate].
    destruct (Nat.ltb_spec off (length h)) as [Ho|]; [|discriminate]. simpl. intros [= <-].
    split; [reflexivity|split; [reflexivity|]].
    apply adjoint_by_kernel with (a := k_conv h off); cbn [times trans mkop].
    - intros x Hx. rewrite slice_length, xcorr_padded_length, rev_length. lia.
    - intros y Hy. rewrite slice_length, xcorr_padded_length, vstar_length. lia.
    - intros x i Hx Hi. rewrite slice_nth. destruct (Nat.ltb_spec i n); try lia.
      rewrite xcorr_padded_nth by (rewrite rev_length; lia). rewrite Hx.
      apply Sum_ext. intros j Hj. unfold k_conv. rewrite rev_length, <- Sum_mul_r.
      rewrite Sum_rev. apply Sum_ext. intros k Hk.
      replace (length h - 1 - (length h - 1 - k))%nat with k by lia.
      rewrite rev_nth by lia. replace (length h - S (length h - 1 - k))%nat with k by lia.
      bcase; ring.
    - intros y j Hy Hj. rewrite slice_nth. destruct (Nat.ltb_spec j n); try lia.
      rewrite xcorr_padded_nth by (rewrite vstar_length; lia). rewrite Hy, vstar_length.
      apply Sum_ext. intros i Hi. unfold k_conv. rewrite star_Sum, <- Sum_mul_r.
      apply Sum_ext. intros k Hk. rewrite vstar_nth.
      bcase; try lia; rewrite ?star_0; ring.
  Qed.

  (** convolve(n,h,offset).times(x) is the slice of the full convolution. *)
  Lemma convolve_meaning n h off T x : @op_convolve K n h off = Some T -> length x = n ->
    times T x = slice off n (conv_full x h).
  Proof.
    unfold op_convolve. destruct (Nat.ltb_spec 0 n) as [Hn|]; [|discriminate].
    destruct (Nat.ltb_spec off (length h)) as [Ho|]; [|discriminate]. simpl. intros [= <-] Hx.
    cbn [times mkop]. f_equal. apply list_eq_nth with (d:=s0).
    - rewrite xcorr_padded_length, conv_full_length, rev_length. lia.
    - rewrite xcorr_padded_length, rev_length. intros t Ht.
      rewrite xcorr_padded_nth by (now rewrite rev_length). rewrite conv_full_nth by auto.
      apply Sum_ext. intros j Hj. rewrite rev_length.
      rewrite Sum_rev. apply Sum_ext. intros k Hk.
      replace (length h - 1 - (length h - 1 - k))%nat with k by lia.
      rewrite rev_nth by lia. replace (length h - S (length h - 1 - k))%nat with k by lia.
      reflexivity.
  Qed.

  Lemma convolve_rejects n (h : vec) off :
    op_convolve n h off = None <-> (n = 0 \/ length h <= off).
  Proof.
    unfold op_convolve. destruct (Nat.ltb_spec 0 n), (Nat.ltb_spec off (length h)); simpl; split;
      intros; try discriminate; try lia; auto.
  Qed.

  Lemma same_adjoint n (h g : vec) : 0 < length h <= n ->
    length g = length h -> (forall k, k < length h -> g@k = star (h@(length h - 1 - k))) ->
    is_adjoint n n (fun x => conv_same x h) (fun y => slice (length h / 2) n (conv_full y g)).
  Proof.
    intros Hm Hg Hgk. set (m := length h) in *.
    assert (Hd : m / 2 <= m - 1).
    { assert (2 * (m / 2) <= m) by (apply Nat.mul_div_le; lia). lia. }
    apply adjoint_by_kernel with (a := k_conv h (m - 1 - m / 2)).
    - intros x Hx. unfold conv_same. fold m. destruct (Nat.ltb_spec (length x) m); [lia|].
      rewrite slice_length, conv_full_length. fold m. lia.
    - intros y Hy. rewrite slice_length, conv_full_length. lia.
    - intros x i Hx Hi. unfold conv_same. fold m. destruct (Nat.ltb_spec (length x) m); [lia|].
      rewrite slice_nth. destruct (Nat.ltb_spec i (length x)); [|lia].
      rewrite conv_full_nth by (fold m; lia). rewrite Hx. apply Sum_ext. intros j Hj.
      unfold k_conv. rewrite <- Sum_mul_r. apply Sum_ext. intros k Hk. bcase; ring.
    - intros y j Hy Hj. rewrite slice_nth. destruct (Nat.ltb_spec j n); [|lia].
      rewrite conv_full_nth by lia. rewrite Hy. apply Sum_ext. intros i Hi.
      unfold k_conv. rewrite star_Sum, <- Sum_mul_r. rewrite Hg. fold m.
      rewrite Sum_rev. apply Sum_ext. intros k Hk. rewrite Hgk by lia.
      replace (m - 1 - (m - 1 - k))%nat with k by lia.
      bcase; try lia; rewrite ?star_0; ring.
  Qed.

  Lemma fir_filter_adjoint n h : 0 < length h <= n -> has_adjoint (@op_fir_filter K n h) n n.
  Proof.
    intros H. split; [reflexivity|split; [reflexivity|]]. cbn [op_fir_filter times trans mkop].
    apply same_adjoint; auto.
    - rewrite vstar_length. len.
    - intros k Hk. rewrite vstar_nth, rev_nth by lia.
      now replace (length h - S k)%nat with (length h - 1 - k)%nat by lia.
  Qed.

  Lemma running_average_adjoint n l : 0 < l <= n -> has_adjoint (@op_running_average K n l) n n.
  Proof.
    intros H. split; [reflexivity|split; [reflexivity|]]. cbn [op_running_average times trans mkop].
    pose proof (@same_adjoint n (repeat (s1 / ofR (INR l)) l) (repeat (s1 / ofR (INR l)) l)) as S.
    rewrite repeat_length in S. apply S; auto. intros k Hk. rewrite !nth_repeat by lia.
    assert (INR l <> 0%R) by (apply not_0_INR; lia).
    rewrite star_div_ofR, star_1; auto.
  Qed.

  (** *** windows *)
  Lemma win_cover m w off : 0 < w -> 0 < off -> off <= w ->
    m <= w + (win_blocks m w off - 1) * off.
  Proof.
    intros Hw Ho Hle. unfold win_blocks. destruct (Nat.leb_spec m w); [lia|].
    set (q := ((m - w + off - 1) / off)%nat).
    assert (m - w + off - 1 = off * q + (m - w + off - 1) mod off)%nat by (apply Nat.div_mod; lia).
    assert ((m - w + off - 1) mod off < off) by (apply Nat.mod_upper_bound; lia).
    replace (q + 1 - 1)%nat with q by lia. nia.
  Qed.

  Lemma win_blocks_pos m w off : 0 < win_blocks m w off.
  Proof. unfold win_blocks. bcase; lia. Qed.

  (** no superfluous block: with one block fewer the signal is not covered *)
  Lemma win_minimal m w off : 0 < off -> 1 < win_blocks m w off ->
    w + (win_blocks m w off - 2) * off < m.
  Proof.
    intros Ho. unfold win_blocks. destruct (Nat.leb_spec m w); [lia|]. intros H1.
    set (q := ((m - w + off - 1) / off)%nat) in *.
    assert (m - w + off - 1 = off * q + (m - w + off - 1) mod off)%nat by (apply Nat.div_mod; lia).
    replace (q + 1 - 2)%nat with (q - 1)%nat by lia. nia.
  Qed.

  Definition acc_windows (T : operator K) off (x : vec) (is : list nat) (y : vec) : vec :=
    fold_left (fun y i => add_slice (i * off) (times T (slice (i * on T) (on T) x)) y) is y.

  Lemma acc_windows_spec (T : operator K) off x L yl :
    is_adjoint (om T) (on T) (times T) (trans T) ->
    (forall i, In i L -> i * off + om T <= yl) ->
    (forall i, In i L -> (i + 1) * on T <= length x) ->
    forall y, length y = yl ->
    length (acc_windows T off x L y) = yl /\
    (forall k, (acc_windows T off x L y)@k = y@k +
       lsum (map (fun i => if (i * off <=? k) then (times T (slice (i * on T) (on T) x))@(k - i * off) else s0) L)) /\
    (forall z, length z = yl -> inner (acc_windows T off x L y) z = inner y z +
       lsum (map (fun i => inner (times T (slice (i * on T) (on T) x)) (slice (i * off) (om T) z)) L)).
  Proof.
    intros [T1 _] HL HX. unfold acc_windows. induction L as [|i L IH]; intros y Hy; simpl.
    - repeat split; auto; intros; ring.
    - assert (Hti : length (times T (slice (i * on T) (on T) x)) = om T).
      { apply T1. rewrite slice_length. specialize (HX i (or_introl eq_refl)). lia. }
      assert (Hi : i * off + om T <= length y) by (rewrite Hy; apply HL; now left).
      assert (Ha : length (add_slice (i * off) (times T (slice (i * on T) (on T) x)) y) = yl).
      { rewrite add_slice_length; lia. }
      destruct (IH (fun j H => HL j (or_intror H)) (fun j H => HX j (or_intror H)) _ Ha) as [I1 [I2 I3]].
      split; [exact I1|split].
      + intros k. rewrite I2. rewrite add_slice_nth by lia. ring.
      + intros z Hz. rewrite I3 by auto. rewrite inner_add_slice by lia. rewrite Hti. ring.
  Qed.

  Lemma skipn_skipn' a b (x : vec) : skipn a (skipn b x) = skipn (b + a) x.
  Proof.
    revert x; induction b as [|b IH]; intros x; [reflexivity|].
    destruct x; simpl; [apply skipn_nil|apply IH].
  Qed.

  Lemma inner_flat_blocks (T : operator K) (g : nat -> vec) nb : forall s (x : vec),
    length x = (nb * on T)%nat -> (forall i, length (g i) = on T) ->
    lsum (map (fun i => inner (slice ((i - s) * on T) (on T) x) (g i)) (seq s nb))
    = inner x (flat_map g (seq s nb)).
  Proof.
    induction nb as [|nb IH]; intros s x Hx Hg.
    - simpl. now rewrite inner_nil_r.
    - cbn [seq flat_map map lsum].
      transitivity (inner (firstn (on T) x ++ skipn (on T) x) (g s ++ flat_map g (seq (S s) nb)));
        [|now rewrite firstn_skipn].
      rewrite inner_app by (rewrite Hg, firstn_length; lia).
      f_equal.
      + replace (s - s)%nat with 0 by lia. reflexivity.
      + rewrite <- (IH (S s) (skipn (on T) x)) by (auto; rewrite skipn_length; lia).
        f_equal. apply map_ext_in. intros i Hi. apply in_seq in Hi. f_equal.
        unfold slice. rewrite skipn_skipn'. f_equal. f_equal. nia.
  Qed.

  Lemma flat_map_length_const (g : nat -> vec) c l : (forall i, In i l -> length (g i) = c) ->
    length (flat_map g l) = (length l * c)%nat.
  Proof.
    induction l as [|a l IH]; intros H; simpl; [reflexivity|].
    rewrite app_length, IH, (H a); auto; [now left|]. intros; apply H; now right.
  Qed.

  Lemma windowed_spec m (T W : operator K) overlap :
    adj T -> op_windowed m T overlap = Some W ->
    overlap < om T /\
    om W = m /\ on W = (win_blocks m (om T) (om T - overlap) * on T)%nat /\
    is_adjoint (om W) (on W) (times W) (trans W) /\
    (forall x k, length x = on W -> k < m ->
      (times W x)@k =
      Sum (win_blocks m (om T) (om T - overlap)) (fun i =>
        if (i * (om T - overlap) <=? k)
        then (times T (slice (i * on T) (on T) x))@(k - i * (om T - overlap)) else s0)).
  Proof.
    intros HT. unfold op_windowed. destruct (Nat.ltb_spec overlap (om T)) as [Hov|]; [|discriminate].
    set (off := (om T - overlap)%nat). set (nb := win_blocks m (om T) off).
    intros [= <-]. split; [exact Hov|]. cbn [om on times trans].
    split; [reflexivity|]. split; [reflexivity|].
    assert (Hoff : 0 < off) by (unfold off; lia).
    assert (Hcov : m <= om T + (nb - 1) * off) by (apply win_cover; unfold off; lia).
    assert (Hnb : 0 < nb) by apply win_blocks_pos.
    set (yl := (om T + (nb - 1) * off)%nat) in *.
    assert (HL : forall i, In i (seq 0 nb) -> i * off + om T <= yl).
    { intros i Hi. apply in_seq in Hi. unfold yl. nia. }
    assert (HX : forall x : vec, length x = (nb * on T)%nat ->
               forall i, In i (seq 0 nb) -> (i + 1) * on T <= length x).
    { intros x Hx i Hi. apply in_seq in Hi. rewrite Hx. nia. }
    assert (HS : forall x : vec, length x = (nb * on T)%nat -> _) by
      (intros x Hx; exact (@acc_windows_spec T off x (seq 0 nb) yl HT HL (HX x Hx) (vzero yl) (vzero_length K yl))).
    assert (Hpad : forall y : vec, length y = m -> forall i, In i (seq 0 nb) ->
      slice (i * off) (om T) (y ++ vzero (om T + yl - m)) = slice (i * off) (om T) (y ++ vzero (yl - m))).
    { intros y Hy i Hi. specialize (HL i Hi). apply list_eq_nth with (d:=s0).
      - rewrite !slice_length, !app_length, !vzero_length. lia.
      - intros k Hk. rewrite !slice_nth, !app_nth, !vzero_nth. reflexivity. }
    destruct HT as [T1 [T2 T3]].
    split; [split; [|split]|].
    - intros x Hx. destruct (HS x Hx) as [L1 _]. unfold win_times. fold yl.
      fold (acc_windows T off x (seq 0 nb) (vzero yl)). rewrite firstn_length, L1. lia.
    - intros y Hy. unfold win_trans. fold yl.
      rewrite (@flat_map_length_const _ (on T)); [now rewrite seq_length|].
      intros i Hi. apply T2. rewrite slice_length, app_length, vzero_length. specialize (HL i Hi). lia.
    - intros x y Hx Hy. destruct (HS x Hx) as [L1 [_ L3]].
      unfold win_times, win_trans. fold yl. fold (acc_windows T off x (seq 0 nb) (vzero yl)).
      set (z := acc_windows T off x (seq 0 nb) (vzero yl)) in *.
      assert (Hyz : length (y ++ @vzero K (yl - m)) = yl) by (rewrite app_length, vzero_length; lia).
      transitivity (inner z (y ++ vzero (yl - m))).
      { rewrite <- (firstn_skipn m z) at 2. rewrite inner_app by (rewrite firstn_length; lia).
        rewrite inner_zero_r. ring. }
      rewrite L3 by auto. rewrite inner_zero_l.
      set (g := fun i => if (i <? nb)%nat then trans T (slice (i * off) (om T) (y ++ vzero (om T + yl - m))) else vzero (on T)).
      assert (Hg : forall i, length (g i) = on T).
      { intros i. unfold g. destruct (Nat.ltb_spec i nb); [|apply vzero_length]. apply T2.
        rewrite slice_length, app_length, vzero_length.
        assert (i * off + om T <= yl) by (apply HL; apply in_seq; lia). lia. }
      assert (Eg : flat_map (fun i => trans T (slice (i * off) (om T) (y ++ vzero (om T + yl - m)))) (seq 0 nb)
                   = flat_map g (seq 0 nb)).
      { rewrite !flat_map_concat_map. f_equal. apply map_ext_in. intros i Hi. apply in_seq in Hi.
        unfold g. destruct (Nat.ltb_spec i nb); [reflexivity|lia]. }
      rewrite Eg. rewrite <- (inner_flat_blocks T g nb 0 x Hx Hg).
      transitivity (lsum (map (fun i => inner (times T (slice (i * on T) (on T) x)) (slice (i * off) (om T) (y ++ vzero (yl - m)))) (seq 0 nb))); [ring|].
      f_equal. apply map_ext_in. intros i Hi. rewrite <- (Hpad y Hy i Hi).
      rewrite Nat.sub_0_r. pose proof (HX x Hx i Hi) as HXi. pose proof (HL i Hi) as HLi.
      rewrite T3.
      + f_equal. unfold g. apply in_seq in Hi. destruct (Nat.ltb_spec i nb); [reflexivity|lia].
      + rewrite slice_length. lia.
      + rewrite slice_length, app_length, vzero_length. lia.
    - intros x k Hx Hk. destruct (HS x Hx) as [L1 [L2 _]].
      unfold win_times. fold yl. fold (acc_windows T off x (seq 0 nb) (vzero yl)).
      rewrite firstn_nth. destruct (Nat.ltb_spec k m); [|lia]. rewrite L2, vzero_nth.
      rewrite <- lsum_tab. unfold tab. ring.
  Qed.

  (** *** linearity follows from the adjoint identity *)
  Lemma adjoint_linear m n f g : @is_adjoint K m n f g -> is_linear n f.
  Proof.
    intros [F1 [F2 F3]]. split.
    - intros x y Hx Hy. apply (@inner_ext K m).
      + apply F1. now apply vadd_length.
      + apply vadd_length; auto.
      + intros z Hz.
        rewrite (inner_sym K (f (vadd x y)) z), F3 by (auto; now apply vadd_length).
        rewrite inner_add_l by congruence. rewrite inner_add_r by (now rewrite !F1).
        rewrite star_add, <- !F3, <- !inner_sym by auto. reflexivity.
    - intros c x Hx. apply (@inner_ext K m).
      + apply F1. now rewrite vscale_length.
      + rewrite vscale_length. auto.
      + intros z Hz.
        rewrite (inner_sym K (f (vscale c x)) z), F3 by (auto; now rewrite vscale_length).
        rewrite inner_scale_l, inner_scale_r.
        rewrite star_mul, star_star, <- F3, <- inner_sym by auto. reflexivity.
  Qed.

  Lemma is_adjoint_sym m n f g : @is_adjoint K m n f g -> is_adjoint n m g f.
  Proof.
    intros [F1 [F2 F3]]. split; [|split]; auto.
    intros x y Hx Hy. rewrite (inner_sym K y), <- F3, <- inner_sym by auto. reflexivity.
  Qed.

  (** *** dense form *)
  (** every vector is the combination of the standard basis with its entries *)
  Lemma linear_entry m n f x i : @maps_dim K m n f -> is_linear n f -> length x = n -> i < m ->
    (f x)@i = Sum n (fun j => (f (vbasis n j))@i * x@j).
  Proof.
    intros Hd [H1 H2] Hx Hi.
    assert (P : forall k, k <= n ->
      (f (tab n (fun j => if j <? k then x@j else s0)))@i = Sum k (fun j => (f (vbasis n j))@i * x@j)).
    { induction k as [|k IH]; intros Hk.
      - assert (E : tab n (fun j => if j <? 0 then x@j else s0) = vscale s0 (vzero n)).
        { apply list_eq_nth with (d:=s0); [now rewrite tab_length, vscale_length, vzero_length|].
          rewrite tab_length. intros j Hj. rewrite nth_tab, vscale_nth, vzero_nth by auto. simpl. ring. }
        rewrite E, H2 by apply vzero_length. rewrite vscale_nth. simpl. ring.
      - cbn [Sum]. rewrite <- IH by lia.
        assert (E : tab n (fun j => if j <? S k then x@j else s0) =
                    vadd (tab n (fun j => if j <? k then x@j else s0)) (vscale x@k (vbasis n k))).
        { apply list_eq_nth with (d:=s0).
          - rewrite tab_length. symmetry. apply vadd_length; [apply tab_length|]. now rewrite vscale_length, vbasis_length.
          - rewrite tab_length. intros j Hj.
            rewrite vadd_nth by (rewrite tab_length, vscale_length, vbasis_length; auto).
            rewrite vscale_nth, vbasis_nth, !nth_tab by auto. bcase; try lia; subst; try ring. }
        rewrite E, H1 by (rewrite ?tab_length, ?vscale_length, ?vbasis_length; auto).
        rewrite H2 by apply vbasis_length.
        rewrite vadd_nth.
        + rewrite vscale_nth. ring.
        + rewrite vscale_length, !Hd; auto using tab_length, vbasis_length. }
    rewrite <- (P n) by lia. f_equal. f_equal.
    rewrite <- (tab_nth x s0) at 1. rewrite Hx. apply tab_ext. intros j Hj.
    destruct (Nat.ltb_spec j n); [reflexivity|lia].
  Qed.
End P2.
