From Coq Require Import List Arith Bool Lia Reals Lra Psatz.
From Verif Require Import Vec RVec RMat Loop LoopLemmas SelModel SelProofs SolverSpec KMeansModel KMeansSpec.
Import ListNotations.
Set Implicit Arguments.
Local Open Scope R_scope.

Lemma argmin_spec l : l <> [] -> (argmin l < length l)%nat /\ forall i, (i < length l)%nat -> l@(argmin l) <= l@i.
Proof.
  intros Hl. unfold argmin.
  assert (Hm : map Ropp l <> []) by (destruct l; simpl; congruence).
  destruct (argmax_spec Hm) as [H1 H2]. rewrite map_length in *. split; auto.
  intros i Hi. specialize (H2 i Hi).
  change (map Ropp l) with (ropp l) in H2. rewrite !ropp_nth in H2. change (map Ropp l) with (ropp l). lra.
Qed.

Lemma nth_map_lt A B (f : A -> B) l i d d' : (i < length l)%nat -> nth i (map f l) d = f (nth i l d').
Proof. intros H. rewrite (nth_indep _ d (f d')) by now rewrite map_length. apply map_nth. Qed.
Lemma nth_zipw A B C (f : A -> B -> C) : forall x y i d a b, (i < length x)%nat -> (i < length y)%nat ->
  nth i (zipw f x y) d = f (nth i x a) (nth i y b).
Proof.
  induction x as [|u x IH]; intros [|v y] i d a b Hx Hy; simpl in *; try lia.
  destruct i; auto. apply IH; lia.
Qed.

Section KM.
  Variables (n d k : nat) (P : mat).
  Hypothesis HP : shape n d P.
  Hypothesis Hn : (0 < n)%nat.
  Hypothesis Hk : (0 < k)%nat.

  Lemma find_nearest_spec C i : length C = k -> nearest P C i (find_nearest (row P i) C).
  Proof.
    intros HC. unfold nearest, find_nearest.
    assert (Hm : map (fun c => nrm (rsub c (row P i))) C <> []) by (destruct C; simpl in *; [lia|congruence]).
    destruct (argmin_spec Hm) as [H1 H2]. rewrite map_length in *. split; auto. intros l Hl.
    specialize (H2 l Hl). rewrite !(nth_map_lt _ _ _ ([] : vec)) in H2 by auto. exact H2.
  Qed.

  Lemma assign_fst C : fst (find_assignment P C) = map (fun p => find_nearest p C) P.
  Proof. reflexivity. Qed.
  Lemma assign_len C : length (fst (find_assignment P C)) = n.
  Proof. rewrite assign_fst, map_length. apply HP. Qed.
  Lemma assign_nth C i : (i < n)%nat -> nth i (fst (find_assignment P C)) 0%nat = find_nearest (row P i) C.
  Proof. intros Hi. rewrite assign_fst. rewrite (nth_map_lt _ _ _ ([] : vec)) by (destruct HP; lia). reflexivity. Qed.
  Lemma assign_assigns C : length C = k -> assigns P k (fst (find_assignment P C)).
  Proof.
    intros HC. destruct HP as [HP1 HP2]. split; [rewrite assign_len; lia|]. intros i Hi. rewrite assign_nth by lia.
    rewrite <- HC. apply (proj1 (find_nearest_spec C i HC)).
  Qed.
  Lemma assign_nearest C i : length C = k -> (i < n)%nat -> nearest P C i (nth i (fst (find_assignment P C)) 0%nat).
  Proof. intros HC Hi. rewrite assign_nth by auto. now apply find_nearest_spec. Qed.
  Lemma dist_len C : length (snd (find_assignment P C)) = n.
  Proof. unfold find_assignment. cbn [snd]. rewrite map_length, zipw_length, map_length. destruct HP. lia. Qed.
  Lemma dist_nth C i : (i < n)%nat ->
    (snd (find_assignment P C))@i = row_dist P i C (nth i (fst (find_assignment P C)) 0%nat).
  Proof.
    intros Hi. destruct HP as [HP1 HP2].
    transitivity (nrm (nth i (zipw (fun a p => rsub (row C a) p) (fst (find_assignment P C)) P) [])).
    - unfold find_assignment. cbn [snd fst]. apply nth_map_lt. rewrite zipw_length, map_length. lia.
    - rewrite (nth_zipw _ _ _ _ 0%nat ([] : vec)) by (rewrite ?assign_len; lia). reflexivity.
  Qed.
  Lemma mean_assign C : mean (snd (find_assignment P C)) = mean_dist P C (fst (find_assignment P C)).
  Proof.
    unfold mean, mean_dist. rewrite dist_len. rewrite (@rlsum_sum n) by apply dist_len.
    replace (length P) with n by (destruct HP; auto). f_equal. apply rsum_ext. intros i Hi. now apply dist_nth.
  Qed.

  Lemma centroids_len a : length (find_new_centroids d a P k) = k.
  Proof. unfold find_new_centroids. now rewrite map_length, seq_length. Qed.

  (** coordinates *)
  Lemma masked_len a j : length (masked_sum d a P j) = d.
  Proof.
    unfold masked_sum. destruct HP as [_ H2]. clear HP Hn. revert a. induction P as [|p Q IH]; intros [|b a]; simpl; try apply rzero_len.
    rewrite radd_len, IH by (intros; apply H2; now right).
    destruct (Nat.eqb b j); [rewrite (H2 p) by now left|rewrite rzero_len]; lia.
  Qed.
  Lemma masked_nth a j t : length a = n ->
    (masked_sum d a P j)@t = rsum n (fun i => if Nat.eqb (nth i a 0%nat) j then (nth i P [])@t else 0).
  Proof.
    intros La. pose proof HP as [H1 H2]. unfold masked_sum. clear HP Hn. revert a n La H1. induction P as [|p Q IH]; intros [|b a] m La H1; simpl in *; subst m; try discriminate.
    - apply rzero_nth.
    - rewrite <- H1. rewrite rsum_S_l. cbn [nth].
      assert (L : length (fold_right radd (rzero d) (zipw (fun (a0 : nat) (p0 : vec) => if (a0 =? j)%nat then p0 else rzero d) a Q)) = d).
      { clear -H2. revert a. induction Q as [|q Q IH]; intros [|b a]; simpl; try apply rzero_len.
        rewrite radd_len, IH by (intros r [Hr|Hr]; apply H2; [now left|right; now right]).
        destruct (Nat.eqb b j); [rewrite (H2 q) by (right; now left)|rewrite rzero_len]; lia. }
      rewrite radd_nth by (rewrite L; destruct (Nat.eqb b j); [apply H2; now left|apply rzero_len]).
      rewrite (IH (fun r Hr => H2 r (or_intror Hr)) a (length Q)) by lia.
      f_equal. destruct (Nat.eqb b j); auto. apply rzero_nth.
  Qed.
  Lemma count_sum j : forall a m, length a = m -> INR (length (filter (Nat.eqb j) a)) = rsum m (fun i => if Nat.eqb (nth i a 0%nat) j then 1 else 0).
  Proof.
    induction a as [|b a IH]; intros m Hm; simpl in Hm; subst m; [reflexivity|].
    rewrite rsum_S_l. cbn [nth filter]. rewrite (Nat.eqb_sym b j). destruct (Nat.eqb j b).
    - cbn [length]. rewrite S_INR, (IH _ eq_refl). ring.
    - rewrite (IH _ eq_refl). ring.
  Qed.
  Definition ctr (a : list nat) (j : nat) := nth j (find_new_centroids d a P k) [].
  Lemma ctr_eq a j : (j < k)%nat -> ctr a j = map (fun s => s / INR (Nat.max 1 (length (filter (Nat.eqb j) a)))) (masked_sum d a P j).
  Proof.
    intros Hj. unfold ctr, find_new_centroids. cbv zeta. rewrite (nth_map_lt _ _ _ 0%nat) by now rewrite seq_length.
    rewrite seq_nth by auto. rewrite Nat.add_0_l. unfold assignment_counts. rewrite (nth_map_lt _ _ _ 0%nat) by now rewrite seq_length.
    rewrite seq_nth by auto. reflexivity.
  Qed.
  Lemma ctr_len a j : (j < k)%nat -> length (ctr a j) = d.
  Proof. intros Hj. rewrite ctr_eq by auto. rewrite map_length. apply masked_len. Qed.
  Lemma centroids_shape a : shape k d (find_new_centroids d a P k).
  Proof.
    split; [apply centroids_len|]. intros r Hr. apply (In_nth _ _ []) in Hr. destruct Hr as [j [Hj <-]].
    rewrite centroids_len in Hj. now apply (ctr_len a).
  Qed.
  (** the deviations from the mean of a cluster sum to zero, coordinatewise *)
  Lemma ctr_balance a j t : length a = n -> (j < k)%nat -> (t < d)%nat ->
    rsum n (fun i => (if Nat.eqb (nth i a 0%nat) j then 1 else 0) * ((nth i P [])@t - (ctr a j)@t)) = 0.
  Proof.
    intros La Hj Ht. set (c := (ctr a j)@t).
    rewrite (rsum_ext _ (fun i => (if Nat.eqb (nth i a 0%nat) j then (nth i P [])@t else 0) - (if Nat.eqb (nth i a 0%nat) j then 1 else 0) * c)).
    2: intros i Hi; destruct (Nat.eqb _ _); ring.
    rewrite rsum_sub, rsum_mul_r, <- masked_nth, <- (count_sum _ _ La) by auto. unfold c. rewrite ctr_eq by auto.
    rewrite (nth_map_lt _ _ _ 0) by (rewrite masked_len; auto).
    destruct (length (filter (Nat.eqb j) a)) as [|m] eqn:E.
    - assert (Z : (masked_sum d a P j)@t = 0); [|rewrite Z; simpl; lra].
      rewrite masked_nth by auto. apply rsum_0'. intros i Hi.
      destruct (Nat.eqb (nth i a 0%nat) j) eqn:Eq; auto. exfalso.
      assert (In (nth i a 0%nat) (filter (Nat.eqb j) a)) by (apply filter_In; split; [apply nth_In; lia|now rewrite Nat.eqb_sym]).
      destruct (filter (Nat.eqb j) a); simpl in *; [auto|discriminate].
    - rewrite Nat.max_r by lia. rewrite S_INR. pose proof (pos_INR m). field. lra.
  Qed.
  Lemma row_dist_sq C i j : length (nth i P []) = d -> length (nth j C []) = d ->
    row_dist P i C j * row_dist P i C j = rsum d (fun t => ((nth i P [])@t - (nth j C [])@t) * ((nth i P [])@t - (nth j C [])@t)).
  Proof.
    intros Hi Hj. unfold row_dist, nrm. rewrite sqrt_sqrt by apply rdot_pos.
    assert (L : length (rsub (nth j C []) (nth i P [])) = d) by (rewrite rsub_len; unfold mat, vec in *; lia). rewrite (@rdot_sum d) by exact L. apply rsum_ext. intros t Ht. rewrite rsub_nth by (unfold mat, vec in *; lia). unfold mat, vec in *. ring.
  Qed.

  (** the new centroids minimise the sum of squares for the given assignment *)
  Lemma pick_sum (j0 : nat) (f : nat -> R) : (j0 < k)%nat ->
    rsum k (fun j => (if Nat.eqb j0 j then 1 else 0) * f j) = f j0.
  Proof.
    intros H. rewrite (rsum_single (k := j0)); auto.
    - rewrite Nat.eqb_refl. ring.
    - intros i Hi Ne. destruct (Nat.eqb_spec j0 i); [congruence|ring].
  Qed.
  Lemma centroids_opt a C : assigns P k a -> shape k d C ->
    sq_cost P (find_new_centroids d a P k) a <= sq_cost P C a.
  Proof.
    intros [La Ha] HC. pose proof HP as [HP1 HP2]. rewrite HP1 in *. unfold sq_cost. rewrite HP1.
    set (M := find_new_centroids d a P k).
    assert (HR : forall i, (i < n)%nat -> length (nth i P []) = d) by (intros i Hi; apply (shape_row HP Hi)).
    assert (HcM : forall j, (j < k)%nat -> length (nth j M []) = d) by (intros j Hj; now apply (ctr_len a)).
    assert (HcC : forall j, (j < k)%nat -> length (nth j C []) = d) by (intros j Hj; apply (shape_row HC Hj)).
    rewrite (rsum_ext _ (fun i => rsum d (fun t => ((nth i P [])@t - (nth (nth i a 0%nat) M [])@t) * ((nth i P [])@t - (nth (nth i a 0%nat) M [])@t)))).
    2: intros i Hi; apply row_dist_sq; auto.
    rewrite (rsum_ext (fun i => row_dist P i C (nth i a 0%nat) * row_dist P i C (nth i a 0%nat))
      (fun i => rsum d (fun t => ((nth i P [])@t - (nth (nth i a 0%nat) C [])@t) * ((nth i P [])@t - (nth (nth i a 0%nat) C [])@t)))).
    2: intros i Hi; apply row_dist_sq; auto.
    rewrite (rsum_exchange n d), (rsum_exchange n d). apply rsum_le. intros t Ht.
    set (p := fun i => (nth i P [])@t). set (m := fun j => (nth j M [])@t). set (c := fun j => (nth j C [])@t).
    change (rsum n (fun i => (p i - m (nth i a 0%nat)) * (p i - m (nth i a 0%nat))) <= rsum n (fun i => (p i - c (nth i a 0%nat)) * (p i - c (nth i a 0%nat)))).
    rewrite (rsum_ext (fun i => (p i - c (nth i a 0%nat)) * (p i - c (nth i a 0%nat)))
      (fun i => (p i - m (nth i a 0%nat)) * (p i - m (nth i a 0%nat)) +
        ((m (nth i a 0%nat) - c (nth i a 0%nat)) * (m (nth i a 0%nat) - c (nth i a 0%nat)) +
          2 * ((p i - m (nth i a 0%nat)) * (m (nth i a 0%nat) - c (nth i a 0%nat)))))) by (intros; ring).
    rewrite rsum_add, rsum_add, rsum_mul_l.
    assert (Z : rsum n (fun i => (p i - m (nth i a 0%nat)) * (m (nth i a 0%nat) - c (nth i a 0%nat))) = 0).
    { rewrite (rsum_ext _ (fun i => rsum k (fun j => (if Nat.eqb (nth i a 0%nat) j then 1 else 0) * ((p i - m j) * (m j - c j))))).
      2: intros i Hi; now rewrite (pick_sum (fun j => (p i - m j) * (m j - c j))) by auto.
      rewrite rsum_exchange. apply rsum_0'. intros j Hj.
      rewrite (rsum_ext _ (fun i => (if Nat.eqb (nth i a 0%nat) j then 1 else 0) * (p i - m j) * (m j - c j))) by (intros; ring).
      rewrite rsum_mul_r. pose proof (ctr_balance a La Hj Ht) as B. unfold ctr in B. fold M in B. fold (m j) in B.
      unfold p. rewrite B. ring. }
    rewrite Z.
    assert (0 <= rsum n (fun i => (m (nth i a 0%nat) - c (nth i a 0%nat)) * (m (nth i a 0%nat) - c (nth i a 0%nat)))); [|lra].
    apply rsum_pos. intros i Hi. pose proof (Rle_0_sqr (m (nth i a 0%nat) - c (nth i a 0%nat))) as Q. exact Q.
  Qed.
  (** the nearest assignment minimises the cost for the given centroids *)
  Lemma row_dist_pos C i j : 0 <= row_dist P i C j.
  Proof. apply sqrt_pos. Qed.
  Lemma assign_opt C a : length C = k -> assigns P k a -> sq_cost P C (fst (find_assignment P C)) <= sq_cost P C a.
  Proof.
    intros HC [La Ha]. pose proof HP as [HP1 _]. unfold sq_cost. rewrite HP1 in *. apply rsum_le. intros i Hi.
    destruct (assign_nearest C HC Hi) as [_ H]. specialize (H (nth i a 0%nat) ltac:(rewrite HC; auto)).
    apply Rmult_le_compat; auto using row_dist_pos.
  Qed.
  Lemma assign_opt_mean C a : length C = k -> assigns P k a -> mean_dist P C (fst (find_assignment P C)) <= mean_dist P C a.
  Proof.
    intros HC [La Ha]. pose proof HP as [HP1 _]. unfold mean_dist. rewrite HP1 in *.
    apply Rmult_le_compat_r. { left. apply Rinv_0_lt_compat, lt_0_INR. auto. }
    apply rsum_le. intros i Hi.
    destruct (assign_nearest C HC Hi) as [_ H]. apply H. rewrite HC; auto.
  Qed.

  (** *** the loop *)
  Variables (thresh : R) (max_iters : nat) (idx : list nat).
  Hypothesis Hidx : length idx = k.
  Hypothesis Hidx2 : forall i, In i idx -> (i < n)%nat.
  Notation cnd := (km_cond thresh max_iters).
  Notation bdy := (km_body d P k).
  Notation reach := (reaches cnd bdy (km_init idx P)).
  Definition km_inv (s : km_state) : Prop :=
    shape k d (km_centroids s) /\
    assigns P k (km_assignment s) /\
    (forall i, (i < n)%nat -> nearest P (km_centroids s) i (nth i (km_assignment s) 0%nat)) /\
    km_distortion s = mean_dist P (km_centroids s) (km_assignment s).
  Lemma init_eq : km_init idx P = KM (map (row P) idx) (fst (find_assignment P (map (row P) idx)))
     (mean (snd (find_assignment P (map (row P) idx)))) None 0.
  Proof. unfold km_init. destruct (find_assignment _ _). reflexivity. Qed.
  Lemma body_eq s : bdy s = Some (let C := find_new_centroids d (km_assignment s) P k in
     KM C (fst (find_assignment P C)) (mean (snd (find_assignment P C))) (Some (km_distortion s)) (km_iters s + 1)).
  Proof. unfold km_body. destruct (find_assignment _ _). reflexivity. Qed.
  Lemma inv_of C p it : shape k d C -> km_inv (KM C (fst (find_assignment P C)) (mean (snd (find_assignment P C))) p it).
  Proof.
    intros HC. unfold km_inv. cbn [km_centroids km_assignment km_distortion].
    split; [auto|]. split; [apply assign_assigns; apply HC|]. split; [intros; apply assign_nearest; auto; apply HC|].
    apply mean_assign.
  Qed.
  Lemma init_inv : km_inv (km_init idx P).
  Proof.
    rewrite init_eq. apply inv_of. split; [now rewrite map_length|].
    intros r Hr. apply in_map_iff in Hr. destruct Hr as [i [<- Hi]]. apply (shape_row HP (Hidx2 _ Hi)).
  Qed.
  Lemma reach_inv j s : reach j s -> km_inv s /\ km_iters s = j /\ (j <= max_iters)%nat.
  Proof.
    intros H. induction H as [|j s s' H [IH1 [IH2 IH3]] C B].
    - split; [apply init_inv|]. rewrite init_eq. split; [reflexivity|lia].
    - rewrite body_eq in B. injection B as <-. cbv zeta. split; [apply inv_of, centroids_shape|].
      cbn [km_iters]. split; [lia|]. unfold km_cond in C. apply andb_prop in C. destruct C as [_ C].
      apply Nat.ltb_lt in C. lia.
  Qed.
  Lemma reach_mono j s s' : reach j s -> reach (S j) s' ->
    sq_cost P (km_centroids s') (km_assignment s') <= sq_cost P (km_centroids s) (km_assignment s).
  Proof.
    intros H H'. apply reaches_S_inv in H'. destruct H' as [s1 [H1 [C B]]].
    rewrite (reaches_fun H1 H) in *. destruct (reach_inv H) as [[I1 [I2 _]] _].
    rewrite body_eq in B. injection B as <-. cbv zeta. cbn [km_centroids km_assignment].
    eapply Rle_trans; [apply assign_opt; [apply centroids_len|exact I2]|]. now apply centroids_opt.
  Qed.
  Lemma reach_mono_le j s : reach j s -> forall i s', (i <= j)%nat -> reach i s' ->
    sq_cost P (km_centroids s) (km_assignment s) <= sq_cost P (km_centroids s') (km_assignment s').
  Proof.
    intros H. induction H as [|j s s1 H IH C B]; intros i s' Hi Hs'.
    - replace i with 0%nat in Hs' by lia. rewrite (reaches_fun Hs' (reach_0 cnd bdy (km_init idx P))). lra.
    - destruct (Nat.eq_dec i (S j)) as [->|].
      + assert (R1 : reach (S j) s1) by (econstructor; eauto). rewrite (reaches_fun Hs' R1). lra.
      + eapply Rle_trans; [eapply reach_mono; [exact H|econstructor; eauto]|apply (IH i); auto; lia].
  Qed.
  Lemma km_total fuel : (max_iters <= fuel)%nat -> exists s, kmeans_with_seed d idx P k thresh max_iters fuel = Done s.
  Proof.
    intros Hf. apply while_total.
    - intros j s _ _. rewrite body_eq. discriminate.
    - intros j s H C. destruct (reach_inv H) as [_ [E _]]. unfold km_cond in C. apply andb_prop in C.
      destruct C as [_ C]. apply Nat.ltb_lt in C. lia.
  Qed.
  Lemma km_final fuel s : kmeans_with_seed d idx P k thresh max_iters fuel = Done s ->
    km_inv s /\ (km_iters s <= max_iters)%nat /\
    sq_cost P (km_centroids s) (km_assignment s) <= sq_cost P (map (row P) idx) (km_assignment (km_init idx P)) /\
    ((km_iters s < max_iters)%nat -> exists p, km_prev s = Some p /\ p - km_distortion s <= thresh).
  Proof.
    intros H. apply while_done in H. destruct H as [j [_ [H C]]]. destruct (reach_inv H) as [I [E L]].
    split; [auto|]. split; [lia|]. split.
    - assert (Q := reach_mono_le H (Nat.le_0_l j) (reach_0 cnd bdy (km_init idx P))). rewrite init_eq in *. exact Q.
    - intros Hlt. unfold km_cond in C. destruct (Nat.ltb_spec (km_iters s) max_iters); [|lia].
      rewrite andb_true_r in C. destruct (km_prev s) as [p|]; [|discriminate]. exists p. split; auto.
      now apply Rltb_false.
  Qed.
End KM.

(** *** restarts *)
Lemma all_done_some S (l : list (outcome S)) r : all_done l = Some r -> l = map Done r.
Proof.
  revert r. induction l as [|[s| |] l IH]; simpl; intros r; try discriminate; [intros [= <-]; auto|].
  destruct (all_done l) as [r'|]; [|discriminate]. intros [= <-]. simpl. now rewrite (IH r' eq_refl).
Qed.
Lemma all_done_total S (l : list (outcome S)) : (forall o, In o l -> exists s, o = Done s) -> exists r, all_done l = Some r.
Proof.
  induction l as [|o l IH]; simpl; intros H; eauto.
  destruct (H o (or_introl eq_refl)) as [s ->]. destruct IH as [r Hr]; [intros; apply H; auto|]. rewrite Hr. eauto.
Qed.
Lemma kmeans_best d keys P k thresh mi fuel i s :
  kmeans d keys P k thresh mi fuel = Some (i, s) ->
  (i < length keys)%nat /\
  kmeans_with_seed d (nth i keys []) P k thresh mi fuel = Done s /\
  forall j, (j < length keys)%nat -> exists s', kmeans_with_seed d (nth j keys []) P k thresh mi fuel = Done s' /\ km_distortion s <= km_distortion s'.
Proof.
  unfold kmeans. destruct (all_done _) as [res|] eqn:E; [|discriminate].
  set (i0 := argmin _). destruct (nth_error res i0) as [s0|] eqn:N; [|discriminate]. intros [= <- <-].
  apply all_done_some in E. unfold run_all in E.
  assert (L : length res = length keys) by (apply (f_equal (@length _)) in E; rewrite !map_length in E; auto).
  assert (Hj : forall j, (j < length keys)%nat -> kmeans_with_seed d (nth j keys []) P k thresh mi fuel = Done (nth j res s0)).
  { intros j Hj. apply (f_equal (fun l => nth j l Fail)) in E.
    cbv beta in E. rewrite (nth_map_lt _ _ _ ([] : list nat)) in E by auto. rewrite (nth_map_lt _ _ _ s0) in E by lia. exact E. }
  assert (Hi : (i0 < length res)%nat) by (apply nth_error_Some; rewrite N; discriminate).
  apply (nth_error_nth _ _ s0) in N. split; [lia|]. split; [rewrite <- N; apply Hj; lia|].
  intros j Lj. exists (nth j res s0). split; [now apply Hj|].
  assert (Hm : map km_distortion res <> []) by (destruct res; simpl in *; [lia|congruence]).
  destruct (argmin_spec Hm) as [_ H2]. fold i0 in H2. specialize (H2 j). rewrite map_length in H2.
  rewrite !(nth_map_lt _ _ _ s0) in H2 by lia. rewrite N in H2. apply H2. lia.
Qed.
Lemma kmeans_total n d k P keys thresh mi fuel : shape n d P -> keys <> [] ->
  (forall idx, In idx keys -> length idx = k /\ forall i, In i idx -> (i < n)%nat) ->
  (0 < n)%nat -> (0 < k)%nat -> (mi <= fuel)%nat -> exists i s, kmeans d keys P k thresh mi fuel = Some (i, s).
Proof.
  intros HP Hne Hk Hn Hk0 Hf. unfold kmeans.
  destruct (all_done_total (run_all d keys P k thresh mi fuel)) as [res E].
  - intros o Ho. apply in_map_iff in Ho. destruct Ho as [idx [<- Hi]]. destruct (Hk idx Hi) as [L B].
    eapply km_total; eauto.
  - rewrite E. apply all_done_some in E. assert (L : length res = length keys) by (apply (f_equal (@length _)) in E; unfold run_all in E; rewrite !map_length in E; auto).
    assert (Hm : map km_distortion res <> []) by (destruct res; simpl in *; [destruct keys; simpl in *; congruence|congruence]).
    destruct (argmin_spec Hm) as [H1 _]. rewrite map_length in H1. cbv zeta.
    destruct (nth_error res (argmin (map km_distortion res))) eqn:N; eauto.
    apply nth_error_None in N. lia.
Qed.

(** *** the reported distortion may increase *)
Definition km_pts : mat := [[0];[0];[3]].
Lemma nrm_1 a : nrm [a] = Rabs a.
Proof. unfold nrm. simpl. rewrite Rplus_0_r. apply sqrt_Rsqr_abs. Qed.
Lemma km_pts_init : km_init [0%nat] km_pts = KM [[0]] [0;0;0]%nat 1 None 0.
Proof.
  unfold km_init, find_assignment, find_nearest, km_pts, row. cbn [map nth rsub zipw argmin argmax argmax_from length].
  rewrite !nrm_1. f_equal. unfold mean. cbn [rlsum length]. simpl INR.
  rewrite !Rabs_left1 by lra. field.
Qed.
Lemma km_pts_body s : km_assignment s = [0;0;0]%nat ->
  km_body 1 km_pts 1 s = Some (KM [[1]] [0;0;0]%nat (4/3) (Some (km_distortion s)) (km_iters s + 1)).
Proof.
  intros E. unfold km_body. rewrite E.
  assert (F : find_new_centroids 1 [0;0;0]%nat km_pts 1 = [[1]]).
  { unfold find_new_centroids, assignment_counts, masked_sum, km_pts. cbn. do 2 f_equal. field. }
  rewrite F. unfold find_assignment, find_nearest, km_pts, row. cbn [map nth rsub zipw argmin argmax argmax_from length].
  rewrite !nrm_1. f_equal. f_equal. unfold mean. cbn [rlsum length]. simpl INR.
  rewrite (Rabs_right (1 - 0)), (Rabs_left1 (1 - 3)) by lra. field.
Qed.
Lemma km_worse thresh mi : 0 <= thresh -> (1 <= mi)%nat -> exists s,
  kmeans_with_seed 1 [0%nat] km_pts 1 thresh mi mi = Done s /\
  km_iters s = 1%nat /\ km_distortion s = 4/3 /\ km_distortion (km_init [0%nat] km_pts) = 1.
Proof.
  intros Ht Hm. destruct mi as [|mi]; [lia|]. unfold kmeans_with_seed. rewrite km_pts_init. cbn [while_].
  unfold km_cond at 1. cbn [km_prev km_iters]. change (0 <? S mi)%nat with true. cbn [andb].
  rewrite km_pts_body by reflexivity. cbn [km_distortion km_iters].
  exists (KM [[1]] [0;0;0]%nat (4/3) (Some 1) 1). split; [|split; [|split]]; [|reflexivity|reflexivity|reflexivity].
  change (0 + 1)%nat with 1%nat.
  destruct mi; cbn [while_]; unfold km_cond; cbn [km_prev km_distortion km_iters];
    (destruct (Rltb_spec thresh (1 - 4/3)); [lra|]); reflexivity.
Qed.
