From Coq Require Import List Arith Bool Lia Reals Lra Psatz.
From Verif Require Import Vec RVec RMat Loop SolverSpec KMeansModel KMeansProofs ClusterModel SscModel SscSpec SscProofs.
Import ListNotations.
Set Implicit Arguments.
Local Open Scope R_scope.

Lemma quad_ent n M x : shape n n M -> length x = n ->
  rdot x (mv M x) = rsum n (fun i => rsum n (fun j => x@i * ent M i j * x@j)).
Proof.
  intros HM Hx. rewrite (@rdot_sum n) by (rewrite ?mv_len; auto; apply HM). apply rsum_ext. intros i Hi.
  rewrite mv_nth, (@rdot_sum n) by (auto; apply (shape_row HM); auto). rewrite <- rsum_mul_l. apply rsum_ext. intros j Hj. unfold ent. ring.
Qed.
Lemma mv_ent n M x i : shape n n M -> length x = n -> (i < n)%nat -> (mv M x)@i = rsum n (fun j => ent M i j * x@j).
Proof. intros HM Hx Hi. rewrite mv_nth, (@rdot_sum n) by (auto; apply (shape_row HM); auto). reflexivity. Qed.
Lemma degrees_nth n W i : (i < n)%nat -> (degrees n W)@i = rsum n (fun k => ent W k i).
Proof. intros. unfold degrees. now rewrite nth_tab. Qed.
Lemma degrees_sym n W i : symmetric n W -> (i < n)%nat -> (degrees n W)@i = degree n W i.
Proof. intros S Hi. rewrite degrees_nth by auto. apply rsum_ext. intros k Hk. now apply S. Qed.
Lemma rsum_delta n i (f : nat -> R) : (i < n)%nat -> rsum n (fun j => (if Nat.eqb i j then f j else 0)) = f i.
Proof.
  intros Hi. rewrite (@rsum_single n i) by (auto; intros j Hj Hne; destruct (Nat.eqb_spec i j); auto; lia). now rewrite Nat.eqb_refl.
Qed.
(** the energy expands into degrees and cross terms *)
Lemma energy_expand n W u : symmetric n W ->
  edge_energy n W u = rsum n (fun i => degree n W i * (u i * u i)) - rsum n (fun i => rsum n (fun j => u i * ent W i j * u j)).
Proof.
  intros S. unfold edge_energy.
  assert (E : rsum n (fun i => rsum n (fun j => ent W i j * ((u i - u j) * (u i - u j)))) =
    rsum n (fun i => degree n W i * (u i * u i)) + rsum n (fun i => degree n W i * (u i * u i)) - 2 * rsum n (fun i => rsum n (fun j => u i * ent W i j * u j))).
  { assert (E2 : rsum n (fun i => degree n W i * (u i * u i)) = rsum n (fun i => rsum n (fun j => ent W i j * (u j * u j)))).
    { rewrite rsum_exchange. apply rsum_ext. intros i Hi. unfold degree. rewrite <- rsum_mul_r. apply rsum_ext. intros j Hj. now rewrite S. }
    rewrite E2 at 2. rewrite <- rsum_mul_l, <- rsum_add, <- rsum_sub. apply rsum_ext. intros i Hi.
    unfold degree. rewrite <- rsum_mul_r, <- rsum_mul_l, <- rsum_add, <- rsum_sub. apply rsum_ext. intros j Hj. ring. }
  rewrite E. field.
Qed.
Lemma energy_pos n W u : nonnegative n W -> 0 <= edge_energy n W u.
Proof.
  intros P. unfold edge_energy. assert (0 <= rsum n (fun i => rsum n (fun j => ent W i j * ((u i - u j) * (u i - u j))))); [|lra].
  apply rsum_pos. intros i Hi. apply rsum_pos. intros j Hj. apply Rmult_le_pos; [now apply P|apply Rle_0_sqr].
Qed.
Lemma energy_zero n W u : nonnegative n W -> edge_energy n W u = 0 -> forall i j, (i < n)%nat -> (j < n)%nat -> ent W i j <> 0 -> u i = u j.
Proof.
  intros P E i j Hi Hj H. unfold edge_energy in E.
  assert (E' : rsum n (fun i => rsum n (fun j => ent W i j * ((u i - u j) * (u i - u j)))) = 0) by lra.
  assert (T : forall i j, (i < n)%nat -> (j < n)%nat -> 0 <= ent W i j * ((u i - u j) * (u i - u j))) by (intros; apply Rmult_le_pos; [now apply P|apply Rle_0_sqr]).
  assert (Z := rsum_eq0 _ (fun i Hi => rsum_pos _ (fun j Hj => T i j Hi Hj)) E' Hi). cbv beta in Z.
  assert (Z2 := rsum_eq0 _ (fun j Hj => T i j Hi Hj) Z Hj). cbv beta in Z2.
  apply Rmult_integral in Z2 as [Z2|Z2]; [easy|]. apply Rmult_integral in Z2 as [Z2|Z2]; lra.
Qed.

Section L.
  Variables (n : nat) (W : mat).
  Notation L := (unnormalized_laplacian n W).
  Lemma lap_shape : shape n n L.
  Proof. apply shape_tab. Qed.
  Lemma lap_ent i j : (i < n)%nat -> (j < n)%nat -> ent L i j = (if Nat.eqb i j then (degrees n W)@i else 0) - ent W i j.
  Proof. intros. unfold unnormalized_laplacian. now rewrite (ent_tab (fun i j => _)). Qed.
  Lemma lap_mv x i : symmetric n W -> length x = n -> (i < n)%nat -> (mv L x)@i = rsum n (fun j => ent W i j * (x@i - x@j)).
  Proof.
    intros S Hx Hi. rewrite (mv_ent _ lap_shape) by auto.
    rewrite (rsum_ext _ (fun j => (if Nat.eqb i j then (degrees n W)@i * x@j else 0) - ent W i j * x@j)).
    - rewrite rsum_sub, (@rsum_delta n i (fun j => (degrees n W)@i * x@j)) by auto. rewrite degrees_sym by auto. unfold degree.
      rewrite <- rsum_mul_r, <- rsum_sub. apply rsum_ext. intros. ring.
    - intros j Hj. rewrite lap_ent by auto. destruct (Nat.eqb i j); ring.
  Qed.
  Lemma lap_symmetric : symmetric n W -> symmetric n L.
  Proof.
    intros S i j Hi Hj. rewrite !lap_ent, (S i j) by auto. rewrite (Nat.eqb_sym j i). destruct (Nat.eqb_spec i j); subst; auto.
  Qed.
  Lemma lap_quad x : symmetric n W -> length x = n -> rdot x (mv L x) = edge_energy n W (fun i => x@i).
  Proof.
    intros S Hx. rewrite (quad_ent _ lap_shape) by auto. rewrite energy_expand by auto. rewrite <- rsum_sub. apply rsum_ext. intros i Hi.
    rewrite (rsum_ext _ (fun j => (if Nat.eqb i j then x@i * (degrees n W)@i * x@j else 0) - x@i * ent W i j * x@j)).
    - rewrite rsum_sub, (@rsum_delta n i (fun j => x@i * (degrees n W)@i * x@j)) by auto. rewrite degrees_sym by auto. ring.
    - intros j Hj. rewrite lap_ent by auto. destruct (Nat.eqb i j); ring.
  Qed.
  Lemma lap_kernel x : symmetric n W -> nonnegative n W -> length x = n ->
    (mv L x = rzero n <-> forall i j, (i < n)%nat -> (j < n)%nat -> ent W i j <> 0 -> x@i = x@j).
  Proof.
    intros S P Hx. split.
    - intros E. apply energy_zero; auto. rewrite <- (lap_quad x S Hx), E. apply rdot_zero_r.
    - intros H. apply vec_eq; [rewrite mv_len, rzero_len; apply lap_shape|]. intros i Hi. rewrite mv_len in Hi.
      pose proof lap_shape as [Ln _]. rewrite Ln in Hi. rewrite lap_mv, rzero_nth by auto. apply rsum_0'. intros j Hj.
      destruct (Req_dec (ent W i j) 0) as [E|E]; [rewrite E; ring|]. rewrite (H i j) by auto. ring.
  Qed.
End L.

Section RW.
  Variables (n : nat) (W Lrw : mat).
  Hypothesis H : normalized_random_walk_laplacian n W = Some Lrw.
  Lemma rw_nonzero i : (i < n)%nat -> (degrees n W)@i <> 0.
  Proof.
    intros Hi. unfold normalized_random_walk_laplacian in H. cbv zeta in H. destruct (all_nonzero _) eqn:A; [|discriminate].
    unfold all_nonzero in A. rewrite forallb_forall in A.
    assert (Hin : In ((degrees n W)@i) (degrees n W)) by (apply nth_In; unfold degrees; now rewrite tab_length).
    specialize (A _ Hin). apply negb_true_iff in A. destruct (Reqb_spec ((degrees n W)@i) 0); [discriminate|auto].
  Qed.
  Lemma rw_shape : shape n n Lrw.
  Proof. unfold normalized_random_walk_laplacian in H. cbv zeta in H. destruct (all_nonzero _); [|discriminate]. injection H as <-. apply shape_tab. Qed.
  Lemma rw_ent i j : (i < n)%nat -> (j < n)%nat -> (degrees n W)@i * ent Lrw i j = ent (unnormalized_laplacian n W) i j.
  Proof.
    intros Hi Hj. rewrite lap_ent by auto. pose proof (rw_nonzero Hi) as D. unfold normalized_random_walk_laplacian in H. cbv zeta in H.
    destruct (all_nonzero _); [|discriminate]. injection H as <-. rewrite (ent_tab (fun i j => _)) by auto.
    destruct (Nat.eqb i j); field; auto.
  Qed.
  Lemma rw_mv x i : symmetric n W -> length x = n -> (i < n)%nat -> degree n W i * (mv Lrw x)@i = (mv (unnormalized_laplacian n W) x)@i.
  Proof.
    intros S Hx Hi. rewrite (mv_ent _ rw_shape), (mv_ent _ (lap_shape n W)) by auto. rewrite <- degrees_sym, <- rsum_mul_l by auto.
    apply rsum_ext. intros j Hj. rewrite <- rw_ent by auto. ring.
  Qed.
  Lemma rw_ones : symmetric n W -> mv Lrw (repeat 1 n) = rzero n.
  Proof.
    intros S. apply vec_eq; [rewrite mv_len, rzero_len; apply rw_shape|]. intros i Hi. rewrite mv_len in Hi. destruct rw_shape as [Ln _]. rewrite Ln in Hi.
    rewrite rzero_nth. apply (Rmult_eq_reg_l (degree n W i)); [|rewrite <- degrees_sym by auto; now apply rw_nonzero].
    rewrite rw_mv, lap_mv by (auto; apply repeat_length). rewrite Rmult_0_r. apply rsum_0'. intros j Hj.
    assert (O : forall k, (k < n)%nat -> (repeat 1 n : vec)@k = 1) by (intros k Hk; apply (repeat_spec n 1 (nth k (repeat 1 n) 0)), nth_In; now rewrite repeat_length).
    rewrite !O by auto. ring.
  Qed.
End RW.

Section Sym.
  Variables (n : nat) (W M : mat).
  Hypothesis H : normalized_symmetric_w n W = Some M.
  Lemma nsym_pos i : (i < n)%nat -> 0 < (degrees n W)@i.
  Proof.
    intros Hi. unfold normalized_symmetric_w in H. cbv zeta in H. destruct (all_positive _) eqn:A; [|discriminate].
    unfold all_positive in A. rewrite forallb_forall in A.
    assert (Hin : In ((degrees n W)@i) (degrees n W)) by (apply nth_In; unfold degrees; now rewrite tab_length).
    specialize (A _ Hin). now destruct (Rltb_spec 0 ((degrees n W)@i)).
  Qed.
  Lemma nsym_shape : shape n n M.
  Proof. unfold normalized_symmetric_w in H. cbv zeta in H. destruct (all_positive _); [|discriminate]. injection H as <-. apply shape_tab. Qed.
  Lemma nsym_ent i j : (i < n)%nat -> (j < n)%nat -> ent M i j = / sqrt ((degrees n W)@i) * ent W i j * / sqrt ((degrees n W)@j).
  Proof. intros. unfold normalized_symmetric_w in H. cbv zeta in H. destruct (all_positive _); [|discriminate]. injection H as <-. now rewrite (ent_tab (fun i j => _)). Qed.
  Lemma nsym_symmetric : symmetric n W -> symmetric n M.
  Proof. intros S i j Hi Hj. rewrite !nsym_ent, (S i j) by auto. ring. Qed.
  Lemma nsym_quad x : symmetric n W -> length x = n ->
    nrm2 x - rdot x (mv M x) = edge_energy n W (fun i => x@i / sqrt (degree n W i)).
  Proof.
    intros S Hx. rewrite (quad_ent _ nsym_shape) by auto. rewrite energy_expand by auto. unfold nrm2. rewrite (@rdot_sum n) by auto. f_equal.
    - apply rsum_ext. intros i Hi. pose proof (nsym_pos Hi) as P. rewrite (degrees_sym S Hi) in P.
      assert (Q : sqrt (degree n W i) * sqrt (degree n W i) = degree n W i) by (apply sqrt_sqrt; lra).
      assert (Z : sqrt (degree n W i) <> 0) by (apply Rgt_not_eq, sqrt_lt_R0; auto).
      rewrite <- Q at 1. field. auto.
    - apply rsum_ext. intros i Hi. apply rsum_ext. intros j Hj. rewrite nsym_ent, !degrees_sym by auto. unfold Rdiv. ring.
  Qed.
  Lemma nsym_bound x : symmetric n W -> nonnegative n W -> length x = n -> rdot x (mv M x) <= nrm2 x.
  Proof. intros S P Hx. pose proof (nsym_quad x S Hx). pose proof (energy_pos (fun i => x@i / sqrt (degree n W i)) P). lra. Qed.
  Lemma nsym_fix : symmetric n W -> mv M (tab n (fun i => sqrt (degree n W i))) = tab n (fun i => sqrt (degree n W i)).
  Proof.
    intros S. set (v := tab n _). assert (Lv : length v = n) by apply tab_length.
    apply vec_eq; [rewrite mv_len, Lv; apply nsym_shape|]. intros i Hi. rewrite mv_len in Hi. destruct nsym_shape as [Ln _]. rewrite Ln in Hi.
    rewrite (mv_ent _ nsym_shape) by auto. unfold v at 2. rewrite nth_tab by auto.
    pose proof (nsym_pos Hi) as P. rewrite (degrees_sym S Hi) in P.
    assert (Z : sqrt (degree n W i) <> 0) by (apply Rgt_not_eq, sqrt_lt_R0; auto).
    rewrite (rsum_ext _ (fun j => / sqrt (degree n W i) * ent W i j)).
    - rewrite rsum_mul_l. fold (degree n W i). assert (Q : sqrt (degree n W i) * sqrt (degree n W i) = degree n W i) by (apply sqrt_sqrt; lra).
      apply (Rmult_eq_reg_l (sqrt (degree n W i))); auto. rewrite <- Rmult_assoc, Rinv_r, Q by auto. rewrite Rmult_1_l. reflexivity.
    - intros j Hj. unfold v. rewrite nth_tab, nsym_ent, !degrees_sym by auto.
      pose proof (nsym_pos Hj) as Pj. rewrite (degrees_sym S Hj) in Pj.
      assert (Zj : sqrt (degree n W j) <> 0) by (apply Rgt_not_eq, sqrt_lt_R0; auto). field. auto.
  Qed.
End Sym.

(** *** the sparse version *)
Lemma rlsum_zipw_exchange n A (f : nat -> R -> A -> R) : forall v p,
  rsum n (fun r => rlsum (zipw (f r) v p)) = rlsum (zipw (fun a b => rsum n (fun r => f r a b)) v p).
Proof.
  induction v as [|a v IH]; intros [|b p]; cbn [zipw rlsum fold_right]; try apply rsum_0.
  change (rsum n (fun r => f r a b + rlsum (zipw (f r) v p)) = rsum n (fun r => f r a b) + rlsum (zipw (fun a b => rsum n (fun r => f r a b)) v p)).
  rewrite rsum_add, IH. reflexivity.
Qed.
Lemma zipw_ext_in A B C (f g : A -> B -> C) : forall v p, (forall a b, In b p -> f a b = g a b) -> zipw f v p = zipw g v p.
Proof. induction v as [|a v IH]; intros [|b p] H; simpl; auto. rewrite H, IH; simpl; auto. intros; apply H; simpl; auto. Qed.
Lemma zipw_zipw A B C (f : C -> B -> C) (g : A -> B -> C) : forall v p, zipw f (zipw g v p) p = zipw (fun a b => f (g a b) b) v p.
Proof. induction v as [|a v IH]; intros [|b p]; simpl; auto. now rewrite IH. Qed.
Lemma rlsum_zipw_scale A c (f : R -> A -> R) : forall v p, rlsum (zipw (fun a b => c * f a b) v p) = c * rlsum (zipw f v p).
Proof.
  induction v as [|a v IH]; intros [|b p]; cbn [zipw]; try (unfold rlsum; simpl; ring).
  change (c * f a b + rlsum (zipw (fun a b => c * f a b) v p) = c * (f a b + rlsum (zipw f v p))). rewrite IH. ring.
Qed.
Lemma bcoo_degrees_eq n W : (forall p, In p (bc_indices W) -> (fst p < n)%nat) -> bcoo_degrees n W = degrees n (bcoo_todense n W).
Proof.
  intros H. unfold bcoo_degrees, degrees. apply tab_ext. intros c Hc. unfold bcoo_todense.
  rewrite (rsum_ext _ (fun r => rlsum (zipw (fun v p => if Nat.eqb (fst p) r && Nat.eqb (snd p) c then v else 0) (bc_values W) (bc_indices W)))).
  - rewrite rlsum_zipw_exchange. f_equal. apply zipw_ext_in. intros a b Hb. specialize (H b Hb).
    rewrite (rsum_ext _ (fun r => if Nat.eqb (fst b) r then (if Nat.eqb (snd b) c then a else 0) else 0)).
    + now rewrite (@rsum_delta n (fst b) (fun _ => if Nat.eqb (snd b) c then a else 0)).
    + intros r _. destruct (Nat.eqb (fst b) r); reflexivity.
  - intros r Hr. now rewrite (ent_tab (fun i j => _)).
Qed.
Lemma sparse_w_agrees n W : (forall p, In p (bc_indices W) -> (fst p < n)%nat) ->
  option_map (bcoo_todense n) (normalized_symmetric_sparse_w n W) = normalized_symmetric_w n (bcoo_todense n W).
Proof.
  intros H. unfold normalized_symmetric_sparse_w, normalized_symmetric_w. cbv zeta. rewrite bcoo_degrees_eq by auto.
  destruct (all_positive _); [|reflexivity]. cbn [option_map]. f_equal. unfold bcoo_todense at 1. apply tab_ext. intros i Hi. apply tab_ext. intros j Hj.
  cbn [bc_values bc_indices]. rewrite zipw_zipw. set (D := degrees n (bcoo_todense n W)).
  unfold bcoo_todense. rewrite (ent_tab (fun i j => _)) by auto.
  rewrite Rmult_assoc, (Rmult_comm (rlsum _)), <- Rmult_assoc, <- rlsum_zipw_scale. f_equal. apply zipw_ext_in. intros a b _.
  destruct (Nat.eqb_spec (fst b) i) as [->|]; cbn [andb]; [|ring]. destruct (Nat.eqb_spec (snd b) j) as [->|]; ring.
Qed.
