(** Adjoint identities for the operators of LopModel. *)
From Coq Require Import List Arith Bool Lia Reals Lra.
From Verif Require Import Scalar Vec LopSpec LopModel LopOpSpec LopLemmas.
Import ListNotations.
Set Implicit Arguments.

Section P.
  Variable K : scalar.
  Add Field KfieldP : (s_field K).
  Local Open Scope scal_scope.
  Notation vec := (list K).
  Notation "x @ i" := (nth i x s0) (at level 5, i at level 4).

  (** kernel form of has_adjoint *)
  Lemma adjoint_by_kernel m n (f g : vec -> vec) (a : nat -> nat -> K) :
    (forall x, length x = n -> length (f x) = m) ->
    (forall y, length y = m -> length (g y) = n) ->
    (forall x i, length x = n -> i < m -> (f x)@i = Sum n (fun j => a i j * x@j)) ->
    (forall y j, length y = m -> j < n -> (g y)@j = Sum m (fun i => star (a i j) * y@i)) ->
    is_adjoint m n f g.
  Proof.
    intros H1 H2 H3 H4. split; [|split]; auto.
    intros x y Hx Hy. apply (@adjoint_kernel K m n a); auto.
  Qed.

  Lemma vstar_dotu (x y : vec) : star (dotu x y) = dotu (vstar x) (vstar y).
  Proof.
    revert y; induction x as [|a x IH]; intros [|b y]; simpl; try apply star_0.
    rewrite star_add, star_mul, IH. reflexivity.
  Qed.

  Lemma real_matrix_adjoint m n (A : list vec) :
    wf_mat m n A -> (forall r, In r A -> is_real_vec r) ->
    has_adjoint (op_real_matrix m n A) m n.
  Proof.
    intros [Hm Hr] Hreal. split; [reflexivity|split; [reflexivity|]]. simpl.
    split; [|split].
    - intros x _. unfold matvec. len.
    - intros y _. now apply vecmat_length.
    - intros x y Hx Hy. rewrite inner_dotu.
      assert (E : vstar (matvec A x) = matvec A (vstar x)).
      { unfold matvec, vstar at 1. rewrite map_map. apply map_ext_in. intros r Hin.
        rewrite vstar_dotu. f_equal. unfold vstar. transitivity (map (fun a => a) r).
        - apply map_ext_in. intros a Ha. now apply (Hreal r).
        - apply map_id. }
      rewrite E, (@dotu_vecmat K n); auto; [now rewrite inner_dotu|congruence|now rewrite vstar_length].
  Qed.

  Lemma matrix_adjoint m n (A : list vec) b :
    wf_mat m n A -> has_adjoint (op_matrix m n A b) m n.
  Proof.
    intros [Hm Hr]. split; [reflexivity|split; [reflexivity|]]. simpl. split; [|split].
    - intros x _. unfold matvec. len.
    - intros y _. rewrite vstar_length. now apply vecmat_length.
    - intros x y Hx Hy. rewrite inner_sym.
      rewrite inner_dotu, dotu_sym.
      rewrite (@dotu_vecmat K n); auto; [|rewrite vstar_length; congruence].
      rewrite vstar_dotu. now rewrite inner_dotu.
  Qed.

  Lemma diagonal_adjoint (d : vec) : has_adjoint (op_diagonal d) (length d) (length d).
  Proof.
    split; [reflexivity|split; [reflexivity|]]. simpl. split; [|split].
    - intros x Hx. now apply vmul_length.
    - intros x Hx. apply vmul_length; auto. now rewrite vstar_length.
    - intros x y Hx Hy. remember (length d) as n eqn:Hd.
      rewrite (@inner_Sum K n), (@inner_Sum K n); auto.
      + apply Sum_ext. intros i Hi. rewrite !vmul_nth by (rewrite ?vstar_length; congruence).
        rewrite vstar_nth, star_mul. ring.
      + apply vmul_length; auto. now rewrite vstar_length.
      + now apply vmul_length.
  Qed.

  Lemma scalar_mult_adjoint (alpha : K) n : has_adjoint (op_scalar_mult alpha n) n n.
  Proof.
    split; [reflexivity|split; [reflexivity|]]. simpl. split; [|split].
    - intros x Hx. now rewrite vscale_length.
    - intros x Hx. now rewrite vscale_length.
    - intros x y Hx Hy. now rewrite inner_scale_l, inner_scale_r.
  Qed.

  Lemma zero_adjoint n m : has_adjoint (@op_zero K n m) m n.
  Proof.
    split; [reflexivity|split; [reflexivity|]]. simpl. split; [|split].
    - intros x Hx. apply vzero_length.
    - intros x Hx. apply vzero_length.
    - intros x y Hx Hy. now rewrite inner_zero_l, inner_zero_r.
  Qed.

  Lemma flipud_adjoint n : has_adjoint (@op_flipud K n) n n.
  Proof.
    split; [reflexivity|split; [reflexivity|]]. simpl. split; [|split].
    - intros x Hx. now len.
    - intros x Hx. now len.
    - intros x y Hx Hy. rewrite <- (rev_involutive y) at 1. rewrite inner_rev; auto.
      len.
  Qed.

  Lemma repeat_flat (x : vec) n : length x = 1 -> flat_map (fun a => repeat a n) x = repeat x@0 n.
  Proof.
    destruct x as [|a [|b x]]; simpl; try discriminate. intros _. apply app_nil_r.
  Qed.

  Lemma inner_repeat_r (x : vec) (c : K) : inner x (repeat c (length x)) = star (lsum x) * c.
  Proof.
    induction x as [|a x IH]; simpl; [rewrite star_0; ring|].
    rewrite IH, star_add. ring.
  Qed.

  Lemma sum_adjoint n : has_adjoint (@op_sum K n) 1 n.
  Proof.
    split; [reflexivity|split; [reflexivity|]]. simpl. split; [|split].
    - intros x Hx. reflexivity.
    - intros x Hx. rewrite repeat_flat by auto. len.
    - intros x y Hx Hy. rewrite repeat_flat by auto. subst n. rewrite inner_repeat_r.
      destruct y as [|b [|c y]]; try discriminate. simpl. ring.
  Qed.

  Lemma pad_zeros_adjoint n b a : has_adjoint (@op_pad_zeros K n b a) (b + n + a) n.
  Proof.
    split; [reflexivity|split; [reflexivity|]]. simpl. split; [|split].
    - intros x Hx. rewrite jpad_length. lia.
    - intros x Hx. rewrite slice_length. lia.
    - intros x y Hx Hy. unfold jpad, slice.
      rewrite <- (firstn_skipn b y) at 1.
      rewrite inner_app by (rewrite vzero_length; len).
      rewrite inner_zero_l.
      rewrite <- (firstn_skipn n (skipn b y)) at 1.
      rewrite inner_app by len. rewrite inner_zero_l. ring.
  Qed.

  Lemma symmetrize_adjoint n : has_adjoint (@op_symmetrize K n) (2 * n) n.
  Proof.
    split; [reflexivity|split; [reflexivity|]]. cbn [times trans op_symmetrize mkop]. split; [|split].
    - intros x Hx. len.
    - intros x Hx. apply vadd_length; len.
    - intros x y Hx Hy. rewrite <- (firstn_skipn n y) at 1.
      rewrite inner_app by len. rewrite inner_add_r by len.
      rewrite <- (rev_involutive (firstn n y)) at 1.
      rewrite inner_rev by len. ring.
  Qed.

  Lemma identity_adjoint n m : has_adjoint (@op_identity K n m) m n.
  Proof.
    unfold op_identity. destruct (Nat.eqb_spec n m) as [->|Hne].
    - split; [reflexivity|split; [reflexivity|]].
      split; [|split]; simpl; [intros x Hx|intros x Hx|intros x y Hx Hy]; auto.
    - destruct (Nat.ltb_spec m n).
      + split; [reflexivity|split; [reflexivity|]]. simpl. split; [|split].
        * intros x Hx. len.
        * intros x Hx. rewrite jpad_length. lia.
        * intros x y Hx Hy. unfold jpad. simpl.
          rewrite <- (firstn_skipn m x) at 2. rewrite inner_app by len.
          rewrite inner_zero_r. ring.
      + split; [reflexivity|split; [reflexivity|]]. simpl. split; [|split].
        * intros x Hx. rewrite jpad_length. lia.
        * intros x Hx. len.
        * intros x y Hx Hy. unfold jpad. simpl.
          rewrite <- (firstn_skipn n y) at 1. rewrite inner_app by len.
          rewrite inner_zero_l. ring.
  Qed.

  Lemma restriction_adjoint n I :
    NoDup I -> (forall i, In i I -> i < n) -> has_adjoint (@op_restriction K n I) (length I) n.
  Proof.
    intros Hnd Hr. split; [reflexivity|split; [reflexivity|]]. simpl. split; [|split].
    - intros x _. apply gather_length.
    - intros x _. now rewrite scatter_length, vzero_length.
    - intros x y Hx Hy. rewrite (@inner_scatter K I y (vzero n) x n); auto.
      + rewrite inner_zero_r. ring.
      + apply vzero_length.
      + intros i _. apply vzero_nth.
  Qed.

  (** *** cumulative sums and differences *)
  Lemma Sum_ite n (f : nat -> K) i : i < n ->
    Sum (S i) f = Sum n (fun j => (if j <=? i then s1 else s0) * f j).
  Proof.
    intros H. replace n with (S i + (n - S i))%nat by lia. rewrite Sum_split.
    rewrite (@Sum_0' K (n - S i)). 2:{ intros j Hj. bcase; try lia. ring. }
    rewrite (@Sum_ext K (S i) (fun j => (if j <=? i then s1 else s0) * f j) f).
    - ring.
    - intros j Hj. bcase; try lia. ring.
  Qed.

  Lemma heaviside_trans_u_length (y : vec) : y <> [] -> length (heaviside_trans_u y) = length y.
  Proof.
    intros H. unfold heaviside_trans_u. simpl. len. rewrite cumsum_length.
    destruct y; [congruence|simpl; lia].
  Qed.

  Lemma heaviside_trans_u_nth (y : vec) j n : length y = n -> j < n ->
    (heaviside_trans_u y)@j = Sum n (fun i => (if j <=? i then s1 else s0) * y@i).
  Proof.
    intros Hy Hj. unfold heaviside_trans_u, jlast. rewrite cumsum_length, Hy.
    rewrite cumsum_nth by lia. replace (S (n - 1)) with n by lia.
    destruct j as [|j]; cbn [nth].
    - apply Sum_ext. intros i Hi. bcase; try lia. ring.
    - rewrite nth_map_lt with (da:=s0) by (len; rewrite cumsum_length; lia).
      rewrite firstn_nth. bcase; try lia. rewrite cumsum_nth by lia.
      rewrite (@Sum_ite n _ j) by lia. rewrite <- Sum_sub. apply Sum_ext.
      intros i Hi. bcase; try lia; ring.
  Qed.

  Lemma neq_nil_len (x : vec) n : 0 < n -> length x = n -> x <> [].
  Proof. intros H1 H2 ->. simpl in H2. lia. Qed.

  Lemma cumsum_adjoint n : 0 < n -> has_adjoint (@op_cumsum K n) n n.
  Proof.
    intros Hn. split; [reflexivity|split; [reflexivity|]].
    apply adjoint_by_kernel with (a := fun i j => if j <=? i then s1 else s0);
      cbn [op_cumsum op_heaviside times trans mkop].
    - intros x Hx. now rewrite cumsum_length.
    - intros y Hy. rewrite heaviside_trans_u_length; auto. eapply neq_nil_len; eauto.
    - intros x i Hx Hi. rewrite cumsum_nth by lia. now apply Sum_ite.
    - intros y j Hy Hj. rewrite (heaviside_trans_u_nth y Hy Hj).
      apply Sum_ext. intros i Hi. bcase; rewrite ?star_1, ?star_0; auto.
  Qed.

  Lemma hw_length n : length (@hw K n) = n. Proof. unfold hw. len. Qed.
  Lemma hwi_length n : length (@hwi K n) = n. Proof. unfold hwi, hw. len. Qed.
  Lemma hw_nth n i : i < n -> (@hw K n)@i = ofR (sqrt (INR (n - i))).
  Proof. intros. unfold hw. now rewrite nth_tab. Qed.
  Lemma sqrt_INR_neq0 k : 0 < k -> sqrt (INR k) <> 0%R.
  Proof.
    intros H. apply Rgt_not_eq. apply sqrt_lt_R0. now apply lt_0_INR.
  Qed.
  Lemma hw_nth_neq0 n i : i < n -> (@hw K n)@i <> s0.
  Proof. intros H. rewrite hw_nth by auto. apply ofR_neq0. apply sqrt_INR_neq0. lia. Qed.
  Lemma hwi_nth n i : i < n -> (@hwi K n)@i = s1 / (@hw K n)@i.
  Proof. intros. unfold hwi. rewrite nth_map_lt with (da:=s0); auto. now rewrite hw_length. Qed.
  Lemma hw_star n i : i < n -> star ((@hw K n)@i) = (@hw K n)@i.
  Proof. intros. rewrite hw_nth by auto. apply ofR_star. Qed.
  Lemma hwi_star n i : i < n -> star ((@hwi K n)@i) = (@hwi K n)@i.
  Proof.
    intros H. rewrite hwi_nth by auto. pose proof (hw_nth_neq0 H) as Hne.
    rewrite (Fdiv_def (s_field K)), star_mul, star_inv, hw_star, star_1 by auto. reflexivity.
  Qed.

  Lemma heaviside_adjoint n b : 0 < n -> has_adjoint (@op_heaviside K n b) n n.
  Proof.
    intros Hn. destruct b; [|now apply cumsum_adjoint].
    split; [reflexivity|split; [reflexivity|]].
    apply adjoint_by_kernel with (a := fun i j => (if j <=? i then s1 else s0) * (@hwi K n)@j);
      cbn [op_cumsum op_heaviside times trans mkop].
    - intros x Hx. rewrite cumsum_length. apply vmul_length; auto using hwi_length.
    - intros y Hy. apply vmul_length; auto using hwi_length.
      rewrite heaviside_trans_u_length; auto. eapply neq_nil_len; eauto.
    - intros x i Hx Hi.
      assert (Hl : length (vmul x (@hwi K n)) = n) by (apply vmul_length; auto using hwi_length).
      rewrite cumsum_nth by lia. rewrite (@Sum_ite n _ i) by auto.
      apply Sum_ext. intros j Hj. rewrite vmul_nth by (now rewrite hwi_length). ring.
    - intros y j Hy Hj.
      rewrite vmul_nth by (rewrite hwi_length, heaviside_trans_u_length; auto; eapply neq_nil_len; eauto).
      rewrite (heaviside_trans_u_nth y Hy Hj). rewrite <- Sum_mul_r.
      apply Sum_ext. intros i Hi. rewrite star_mul, hwi_star by auto.
      bcase; rewrite ?star_1, ?star_0; ring.
  Qed.

  (** two-term kernel: y_i = u i * x_i + v i * x_{i+1} *)
  Lemma Sum_pair n i (c d : K) (x : vec) : length x = n -> i < n ->
    c * x@i + d * x@(S i) =
    Sum n (fun j => (if j =? i then c else if j =? S i then d else s0) * x@j).
  Proof.
    intros Hx Hi.
    rewrite (Sum_ext K _ (fun j => (if j + 0 =? i then c * x@j else s0) + (if j + 0 =? S i then d * x@j else s0))).
    2:{ intros j Hj. rewrite !Nat.add_0_r. bcase; try lia; ring. }
    rewrite Sum_add, !Sum_pick. rewrite !Nat.sub_0_r. bcase; try lia; try reflexivity.
    rewrite (@nth_over K x (S i)) by lia. ring.
  Qed.
  Lemma Sum_pair' n i (c d : K) (x : vec) : length x = n -> i < n ->
    c * x@i + (if i =? 0 then s0 else d * x@(i - 1)) =
    Sum n (fun j => (if j =? i then c else if S j =? i then d else s0) * x@j).
  Proof.
    intros Hx Hi.
    rewrite (Sum_ext K _ (fun j => (if j + 0 =? i then c * x@j else s0) + (if j + 1 =? i then d * x@j else s0))).
    2:{ intros j Hj. rewrite !Nat.add_0_r, !Nat.add_1_r. bcase; try lia; ring. }
    rewrite Sum_add, !Sum_pick. rewrite !Nat.sub_0_r. bcase; try lia; auto.
  Qed.

  Lemma vopp_cons_app : forall x y : vec, vopp (x ++ y) = vopp x ++ vopp y.
  Proof. intros; apply map_app. Qed.

  Lemma jdiff_pre_nth (a : K) (x : vec) i : i < length x ->
    (jdiff (a :: x))@i = x@i - (if i =? 0 then a else x@(i - 1)).
  Proof.
    intros H. rewrite jdiff_nth by (simpl; lia). destruct i as [|i]; simpl; auto.
    now rewrite Nat.sub_0_r.
  Qed.
  Lemma jdiff_post_nth (a : K) (x : vec) i : i < length x ->
    (jdiff (x ++ [a]))@i = (if S i =? length x then a else x@(S i)) - x@i.
  Proof.
    intros H. rewrite jdiff_nth by (len). rewrite !app_nth. bcase; try lia; auto.
    now replace (S i - length x)%nat with 0 by lia.
  Qed.
  Lemma jdiff_pre_length (a : K) x : length (jdiff (a :: x)) = length x.
  Proof. rewrite jdiff_length. simpl. lia. Qed.
  Lemma jdiff_post_length (a : K) x : length (jdiff (x ++ [a])) = length x.
  Proof. rewrite jdiff_length. len. Qed.

  Lemma inv_heaviside_adjoint n b : has_adjoint (@op_inv_heaviside K n b) n n.
  Proof.
    destruct b; (split; [reflexivity|split; [reflexivity|]]).
    - apply adjoint_by_kernel with
        (a := fun i j => (if j =? i then s1 else if S j =? i then - (@s1 K) else s0) * (@hw K n)@i);
        cbn [op_inv_heaviside times trans mkop].
      + intros x Hx. apply vmul_length; auto using hw_length. now rewrite jdiff_pre_length.
      + intros y Hy. rewrite vopp_length, jdiff_post_length. apply vmul_length; auto using hw_length.
      + intros x i Hx Hi. rewrite vmul_nth by (now rewrite jdiff_pre_length, hw_length).
        rewrite jdiff_pre_nth by lia.
        transitivity (((s1 * x@i) + (if i =? 0 then s0 else (- (@s1 K)) * x@(i-1))) * (@hw K n)@i).
        { bcase; ring. }
        rewrite (@Sum_pair' n) by auto. rewrite <- Sum_mul_r. apply Sum_ext. intros; ring.
      + intros y j Hy Hj. assert (Hl : length (vmul y (@hw K n)) = n) by (apply vmul_length; auto using hw_length).
        rewrite vopp_nth, jdiff_post_nth by lia. rewrite Hl, !vmul_nth by (now rewrite hw_length).
        transitivity (s1 * (vmul y (@hw K n))@j + (- (@s1 K)) * (vmul y (@hw K n))@(S j)).
        { rewrite !vmul_nth by (now rewrite hw_length). bcase; [rewrite (@nth_over K y (S j)) by lia; ring | ring]. }
        rewrite (@Sum_pair n) by auto. apply Sum_ext. intros i Hi.
        rewrite vmul_nth by (now rewrite hw_length).
        rewrite star_mul, hw_star by auto. bcase; try lia; rewrite ?star_1, ?star_0, ?star_opp, ?star_1; ring.
    - apply adjoint_by_kernel with
        (a := fun i j => (if j =? i then s1 else if S j =? i then - (@s1 K) else s0));
        cbn [op_inv_heaviside times trans mkop].
      + intros x Hx. now rewrite jdiff_pre_length.
      + intros y Hy. now rewrite vopp_length, jdiff_post_length.
      + intros x i Hx Hi. rewrite jdiff_pre_nth by lia.
        transitivity (((s1 * x@i) + (if i =? 0 then s0 else (- (@s1 K)) * x@(i-1)))).
        { bcase; ring. }
        now rewrite (@Sum_pair' n) by auto.
      + intros y j Hy Hj. rewrite vopp_nth, jdiff_post_nth by lia. rewrite Hy.
        transitivity (s1 * y@j + (- (@s1 K)) * y@(S j)).
        { bcase; [rewrite (@nth_over K y (S j)) by lia; ring | ring]. }
        rewrite (@Sum_pair n) by auto. apply Sum_ext. intros i Hi.
        bcase; try lia; rewrite ?star_1, ?star_0, ?star_opp, ?star_1; ring.
  Qed.

  (** *** operator algebra *)
  Lemma neg_adjoint (A : operator K) : adj A -> adj (op_neg A).
  Proof.
    intros [H1 [H2 H3]]. split; [|split]; simpl.
    - intros x Hx. rewrite vopp_length. now apply H1.
    - intros x Hx. rewrite vopp_length. now apply H2.
    - intros x y Hx Hy. now rewrite inner_opp_l, inner_opp_r, H3.
  Qed.

  Lemma scale_adjoint (A : operator K) alpha b : adj A -> adj (op_scale A alpha b).
  Proof.
    intros [H1 [H2 H3]]. split; [|split]; simpl.
    - intros x Hx. rewrite vscale_length. now apply H1.
    - intros x Hx. rewrite vscale_length. now apply H2.
    - intros x y Hx Hy. now rewrite inner_scale_l, inner_scale_r, H3.
  Qed.

  Lemma adjoint_adjoint (A : operator K) : adj A -> adj (op_adjoint A).
  Proof.
    intros [H1 [H2 H3]]. split; [|split]; simpl; auto.
    intros x y Hx Hy. rewrite (inner_sym K y), <- H3 by auto. rewrite <- inner_sym. reflexivity.
  Qed.

  Lemma inner_vstar (x y : vec) : inner (vstar x) (vstar y) = star (inner x y).
  Proof. rewrite !inner_dotu, vstar_dotu. reflexivity. Qed.

  Lemma transpose_adjoint (A : operator K) : adj A -> adj (op_transpose A).
  Proof.
    intros HA. unfold op_transpose. destruct (real A); [now apply (adjoint_adjoint HA)|].
    destruct HA as [H1 [H2 H3]]. split; [|split]; simpl; auto.
    - intros x Hx. rewrite vstar_length. apply H2. now rewrite vstar_length.
    - intros x Hx. rewrite vstar_length. apply H1. now rewrite vstar_length.
    - intros x y Hx Hy.
      rewrite <- (vstar_vstar K y) at 1. rewrite inner_vstar.
      rewrite <- (vstar_vstar K x) at 2. rewrite inner_vstar. f_equal.
      rewrite (inner_sym K (vstar y)), <- H3, <- inner_sym by (now rewrite vstar_length). reflexivity.
  Qed.

  Lemma apply_n_length f n p : maps_dim n n f -> @maps_dim K n n (apply_n f p).
  Proof.
    intros Hf. induction p as [|p IH]; intros x Hx; simpl; auto.
  Qed.

  Lemma apply_n_comm (f : vec -> vec) p x : apply_n f p (f x) = f (apply_n f p x).
  Proof. revert x; induction p as [|p IH]; intros x; simpl; auto. Qed.

  Lemma power_adjoint (A : operator K) p B : adj A -> op_power A p = Some B -> adj B.
  Proof.
    intros HA. unfold op_power. destruct (Nat.eqb_spec (om A) (on A)) as [E|]; [|discriminate].
    intros [= <-]. destruct HA as [H1 [H2 H3]]. unfold adj; simpl. rewrite <- E in *.
    split; [|split].
    - now apply apply_n_length.
    - now apply apply_n_length.
    - induction p as [|p IH]; intros x y Hx Hy; simpl; auto.
      rewrite IH; auto. rewrite H3; auto; [|now apply apply_n_length].
      now rewrite <- apply_n_comm.
  Qed.

  Lemma compose_is_adjoint m k n f g f' g' :
    @is_adjoint K m k f f' -> is_adjoint k n g g' ->
    is_adjoint m n (fun x => f (g x)) (fun y => g' (f' y)).
  Proof.
    intros [F1 [F2 F3]] [G1 [G2 G3]]. split; [|split].
    - intros x Hx. apply F1. now apply G1.
    - intros x Hx. apply G2. now apply F2.
    - intros x y Hx Hy. rewrite F3 by auto. rewrite G3 by auto. reflexivity.
  Qed.

  Lemma partial_adjoint (A : operator K) picks perm :
    adj A -> NoDup picks -> (forall i, In i picks -> i < om A) ->
    match perm with None => True | Some pi => NoDup pi /\ length pi = on A /\ forall i, In i pi -> i < on A end ->
    adj (op_partial A picks perm).
  Proof.
    intros HA Hnd Hr Hp.
    pose proof (restriction_adjoint Hnd Hr) as [_ [_ HR]]. simpl in HR.
    unfold op_partial. destruct perm as [pi|].
    - destruct Hp as [Hnp [Hlp Hrp]].
      pose proof (restriction_adjoint Hnp Hrp) as [_ [_ HP]]. simpl in HP. rewrite Hlp in HP.
      pose proof (compose_is_adjoint HR (compose_is_adjoint HA HP)) as HC.
      unfold adj; cbn [om on times trans].
      destruct HC as [C1 [C2 C3]]. split; [exact C1|].
      assert (E : forall y, length y = length picks ->
          scatter pi (trans A (scatter picks y (vzero (om A)))) (vzero (length (trans A (scatter picks y (vzero (om A))))))
          = scatter pi (trans A (scatter picks y (vzero (om A)))) (vzero (on A))).
      { intros y Hy. destruct HA as [_ [A2 _]]. rewrite A2; auto. now rewrite scatter_length, vzero_length. }
      split.
      + intros y Hy. rewrite E by auto. now apply C2.
      + intros x y Hx Hy. rewrite E by auto. now apply C3.
    - exact (compose_is_adjoint HR HA).
  Qed.

  Lemma add_adjoint (A B C : operator K) : adj A -> adj B -> op_add A B = Some C -> adj C.
  Proof.
    intros [A1 [A2 A3]] [B1 [B2 B3]]. unfold op_add.
    destruct (Nat.eqb_spec (om A) (om B)) as [Em|]; [|discriminate].
    destruct (Nat.eqb_spec (on A) (on B)) as [En|]; [|discriminate]. simpl.
    intros [= <-]. unfold adj; simpl. rewrite <- Em, <- En in *. split; [|split].
    - intros x Hx. apply vadd_length; auto.
    - intros x Hx. apply vadd_length; auto.
    - intros x y Hx Hy. rewrite inner_add_l, inner_add_r by (now rewrite ?A1, ?B1, ?A2, ?B2).
      now rewrite A3, B3.
  Qed.

  Lemma sub_adjoint (A B C : operator K) : adj A -> adj B -> op_sub A B = Some C -> adj C.
  Proof.
    intros [A1 [A2 A3]] [B1 [B2 B3]]. unfold op_sub.
    destruct (Nat.eqb_spec (om A) (om B)) as [Em|]; [|discriminate].
    destruct (Nat.eqb_spec (on A) (on B)) as [En|]; [|discriminate]. simpl.
    intros [= <-]. unfold adj; simpl. rewrite <- Em, <- En in *. split; [|split].
    - intros x Hx. apply vsub_length; auto.
    - intros x Hx. apply vsub_length; auto.
    - intros x y Hx Hy. rewrite inner_sub_l, inner_sub_r by (now rewrite ?A1, ?B1, ?A2, ?B2).
      now rewrite A3, B3.
  Qed.

  Lemma compose_adjoint (A B C : operator K) : adj A -> adj B -> op_compose A B = Some C -> adj C.
  Proof.
    intros HA HB. unfold op_compose. destruct (Nat.eqb_spec (on A) (om B)) as [E|]; [|discriminate].
    intros [= <-]. unfold adj in *; simpl. rewrite <- E in HB. exact (compose_is_adjoint HA HB).
  Qed.

  Lemma hcat_adjoint (A B C : operator K) : adj A -> adj B -> op_hcat A B = Some C -> adj C.
  Proof.
    intros [A1 [A2 A3]] [B1 [B2 B3]]. unfold op_hcat.
    destruct (Nat.eqb_spec (om A) (om B)) as [Em|]; [|discriminate].
    intros [= <-]. unfold adj; simpl. rewrite <- Em in *. split; [|split].
    - intros x Hx. apply vadd_length; [apply A1 | apply B1]; len.
    - intros x Hx. len. rewrite A2, B2; auto.
    - intros x y Hx Hy. rewrite <- (firstn_skipn (on A) x) at 3.
      assert (HF : length (firstn (on A) x) = on A) by len.
      assert (HS : length (skipn (on A) x) = on B) by len.
      rewrite inner_app by (rewrite A2; auto).
      rewrite inner_add_l by (rewrite A1, B1; auto).
      now rewrite A3, B3.
  Qed.

  Lemma gram_adjoint (A : operator K) : adj A -> adj (op_gram A).
  Proof. intros HA. exact (compose_is_adjoint (adjoint_adjoint HA) HA). Qed.

  Lemma frame_adjoint (A : operator K) : adj A -> adj (op_frame A).
  Proof. intros HA. exact (compose_is_adjoint HA (adjoint_adjoint HA)). Qed.

  Lemma bd_adjoint (ops : list (operator K)) : Forall adj ops ->
    is_adjoint (list_sum (map om ops)) (list_sum (map on ops)) (bd_times ops) (bd_trans ops).
  Proof.
    induction ops as [|A ops IH]; intros H; simpl.
    - split; [|split]; [intros x Hx; reflexivity | intros x Hx; reflexivity|].
      intros x y Hx Hy. destruct x; [reflexivity|discriminate].
    - inversion H as [|? ? HA HO]; subst. destruct HA as [A1 [A2 A3]].
      destruct (IH HO) as [B1 [B2 B3]]. split; [|split].
      + intros x Hx. len. rewrite A1 by len. rewrite B1 by len. reflexivity.
      + intros x Hx. len. rewrite A2 by len. rewrite B2 by len. reflexivity.
      + intros x y Hx Hy.
        rewrite <- (firstn_skipn (om A) y) at 1.
        rewrite <- (firstn_skipn (on A) x) at 3.
        rewrite inner_app by (rewrite A1; len).
        rewrite inner_app by (rewrite A2; len).
        rewrite A3 by len. rewrite B3 by len. reflexivity.
  Qed.

  Lemma block_diag_adjoint (ops : list (operator K)) C : Forall adj ops -> op_block_diag ops = Some C -> adj C.
  Proof.
    intros H. unfold op_block_diag. destruct (2 <=? length ops); [|discriminate].
    intros [= <-]. exact (bd_adjoint H).
  Qed.
End P.
