From Coq Require Import List Arith Bool Lia Reals Lra Psatz.
From Verif Require Import Vec RVec RMat Loop SelModel SelProofs SolverSpec SolverLemmas KMeansModel KMeansProofs ClusterModel SscModel SscSpec PursuitModel PursuitSpec PursuitProofs.
Import ListNotations.
Set Implicit Arguments.
Local Open Scope R_scope.

Lemma ent_tab n m f i j : (i < n)%nat -> (j < m)%nat -> ent (tab n (fun i => tab m (f i))) i j = f i j.
Proof.
  intros Hi Hj. unfold ent. unfold tab at 1. rewrite (nth_map_lt _ _ _ 0%nat) by now rewrite seq_length.
  rewrite seq_nth by auto. rewrite Nat.add_0_l. now apply nth_tab.
Qed.
Lemma shape_tab n m f : shape n m (tab n (fun i => tab m (f i))).
Proof.
  split; [apply tab_length|]. intros r Hr. unfold tab in Hr at 1. apply in_map_iff in Hr. destruct Hr as [i [<- _]].
  apply tab_length.
Qed.

(** *** conversions *)
Lemma write_notin : forall idx x f j, ~ In j idx -> write_all idx x f j = f j.
Proof.
  induction idx as [|i idx IH]; intros [|a x] f j H; simpl; auto. rewrite IH by (intros C; apply H; now right).
  destruct (Nat.eqb_spec j i); auto. exfalso. apply H. now left.
Qed.
Lemma write_sum : forall idx x r f, NoDup idx -> length x = length idx -> f r = 0 ->
  write_all idx x f r = rlsum (zipw (fun v i => if Nat.eqb i r then v else 0) x idx).
Proof.
  induction idx as [|i idx IH]; intros [|a x] r f N L H0; simpl in *; try discriminate; auto.
  inversion N as [|i' l' Hni Hnd]; subst. destruct (Nat.eqb_spec i r) as [->|Ne].
  - rewrite write_notin by auto. rewrite Nat.eqb_refl.
    assert (Z : rlsum (zipw (fun v i => if Nat.eqb i r then v else 0) x idx) = 0); [|rewrite Z; ring].
    clear IH N L Hnd. revert x. induction idx as [|i idx IH]; intros [|b x]; simpl; auto.
    destruct (Nat.eqb_spec i r) as [->|]; [exfalso; apply Hni; now left|]. rewrite IH; [ring|].
    intros C; apply Hni; now right.
  - rewrite IH; auto; [ring|]. destruct (Nat.eqb_spec r i); congruence.
Qed.
Lemma zipw_app A B C (f : A -> B -> C) : forall x1 y1 x2 y2, length x1 = length y1 -> zipw f (x1 ++ x2) (y1 ++ y2) = zipw f x1 y1 ++ zipw f x2 y2.
Proof. induction x1 as [|a x IH]; intros [|b y] x2 y2 H; simpl in *; try discriminate; auto. rewrite IH by lia. auto. Qed.
Lemma rlsum_app x y : rlsum (x ++ y) = rlsum x + rlsum y.
Proof. induction x; simpl; [ring|]. rewrite IHx. ring. Qed.
Lemma combine_app A B : forall (x1 : list A) (y1 : list B) x2 y2, length x1 = length y1 -> combine (x1 ++ x2) (y1 ++ y2) = combine x1 y1 ++ combine x2 y2.
Proof. induction x1 as [|a x IH]; intros [|b y] x2 y2 H; simpl in *; try discriminate; auto. rewrite IH by lia. auto. Qed.

Lemma row_sum n (c r : nat) : forall (x : vec) (i : list nat) s, length x = n -> length i = n -> (s <= c < s + n)%nat ->
  rlsum (zipw (fun v p => if Nat.eqb (fst p) r && Nat.eqb (snd p) c then v else 0) x (combine i (seq s n))) =
  if Nat.eqb (nth (c - s) i 0%nat) r then x@(c - s) else 0.
Proof.
  assert (Z : forall m (x : vec) (i : list nat) s, (c < s)%nat ->
    rlsum (zipw (fun v p => if Nat.eqb (fst p) r && Nat.eqb (snd p) c then v else 0) x (combine i (seq s m))) = 0).
  { induction m as [|m IH]; intros [|a x] [|b i] s Hs; simpl; auto. rewrite IH by lia.
    destruct (Nat.eqb_spec s c); [lia|]. rewrite andb_false_r. ring. }
  induction n as [|n IH]; intros [|a x] [|b i] s Lx Li Hc; simpl in Lx, Li; try lia.
  cbn [seq combine zipw rlsum fst snd]. destruct (Nat.eqb_spec s c) as [->|].
  - rewrite Z by lia. rewrite Nat.sub_diag. cbn [nth]. rewrite andb_true_r. ring.
  - rewrite IH by lia. replace (c - s)%nat with (S (c - S s)) by lia. cbn [nth]. rewrite andb_false_r. ring.
Qed.
Lemma bcoo_entry k n X I r c : shape k n X -> ishape k n I -> (r < n)%nat -> (c < n)%nat ->
  ent (bcoo_todense n (sparse_to_bcoo n X I)) r c = rlsum (zipw (fun v i => if Nat.eqb i r then v else 0) (vcol X c) (icol I c)).
Proof.
  intros [HX1 HX2] [HI1 HI2] Hr Hc. unfold bcoo_todense. rewrite ent_tab by auto. unfold sparse_to_bcoo. cbn [bc_values bc_indices].
  rewrite HI1. revert X I HX1 HX2 HI1 HI2. induction k as [|k IH]; intros [|x X] [|i I] HX1 HX2 HI1 HI2; simpl in *; try discriminate; auto.
  assert (Lx : length x = n) by (apply HX2; now left). assert (Li : length i = n) by (apply HI2; now left).
  rewrite combine_app by (rewrite seq_length; lia). rewrite zipw_app by (rewrite combine_length, seq_length; unfold vec in *; lia). rewrite rlsum_app.
  rewrite (@row_sum n c r x i 0 Lx Li) by lia. rewrite Nat.sub_0_r.
  rewrite IH; auto.
Qed.
Lemma full_entry k n X I r c : shape k n X -> ishape k n I -> (r < n)%nat -> (c < n)%nat -> NoDup (icol I c) ->
  ent (sparse_to_full_rep n X I) r c = rlsum (zipw (fun v i => if Nat.eqb i r then v else 0) (vcol X c) (icol I c)).
Proof.
  intros [HX1 HX2] [HI1 HI2] Hr Hc N. unfold sparse_to_full_rep. rewrite ent_tab by auto.
  apply write_sum; auto. unfold vcol, icol. rewrite !map_length. unfold vec in *. lia.
Qed.
Lemma dense_agree k n X I r c : shape k n X -> ishape k n I -> (r < n)%nat -> (c < n)%nat -> NoDup (icol I c) ->
  ent (bcoo_todense n (sparse_to_bcoo n X I)) r c = ent (sparse_to_full_rep n X I) r c.
Proof. intros. erewrite bcoo_entry, full_entry by eauto. reflexivity. Qed.

Lemma reshape_concat A (n : nat) : forall (X : list (list A)), (forall r, In r X -> length r = n) -> reshape (length X) n (concat X) = X.
Proof.
  induction X as [|x X IH]; intros H; simpl; auto. assert (L : length x = n) by (apply H; now left).
  rewrite firstn_app, skipn_app, L, Nat.sub_diag. simpl. rewrite <- L, firstn_all, skipn_all, app_nil_r. simpl.
  rewrite L, IH; auto. intros; apply H; now right.
Qed.
Lemma concat_len A n : forall (X : list (list A)), (forall r, In r X -> length r = n) -> length (concat X) = (length X * n)%nat.
Proof. induction X as [|x X IH]; intros H; simpl; auto. rewrite app_length, IH by (intros; apply H; now right). rewrite (H x) by now left. lia. Qed.
Lemma map_fst_combine A B : forall (x : list A) (y : list B), length x = length y -> map fst (combine x y) = x.
Proof. induction x as [|a x IH]; intros [|b y] H; simpl in *; try discriminate; auto. rewrite IH; auto. Qed.
Lemma roundtrip k n X I : shape k n X -> ishape k n I -> (0 < k)%nat -> bcoo_to_sparse (sparse_to_bcoo n X I) k = (X, I).
Proof.
  intros [HX1 HX2] [HI1 HI2] Hk. unfold bcoo_to_sparse, sparse_to_bcoo. cbn [bc_values bc_indices].
  rewrite (@concat_len R n X) by auto. replace (@length (list R) X) with k by (symmetry; exact HX1). rewrite (Nat.mul_comm k n), Nat.div_mul by lia.
  rewrite map_fst_combine.
  - f_equal; [rewrite <- HX1; exact (@reshape_concat R n X HX2)|rewrite <- HI1; exact (@reshape_concat nat n I HI2)].
  - rewrite (@concat_len nat n I), (@concat_len nat n (repeat (seq 0 n) (length I))); auto.
    + now rewrite repeat_length.
    + intros r Hr. apply repeat_spec in Hr. subst. apply seq_length.
Qed.

(** *** affinity *)
Lemma affinity_ent n Z i j : (i < n)%nat -> (j < n)%nat -> ent (rep_to_affinity n Z) i j = Rabs (ent Z i j) + Rabs (ent Z j i).
Proof. intros. unfold rep_to_affinity. now rewrite ent_tab. Qed.
Lemma affinity_spec n Z i j : (i < n)%nat -> (j < n)%nat ->
  ent (rep_to_affinity n Z) i j = ent (rep_to_affinity n Z) j i /\ 0 <= ent (rep_to_affinity n Z) i j /\
  (ent (rep_to_affinity n Z) i j = 0 <-> ent Z i j = 0 /\ ent Z j i = 0).
Proof.
  intros Hi Hj. rewrite !affinity_ent by auto. pose proof (Rabs_pos (ent Z i j)). pose proof (Rabs_pos (ent Z j i)).
  split; [ring|]. split; [lra|]. split.
  - intros E. split.
    + destruct (Req_dec (ent Z i j) 0); auto. pose proof (Rabs_pos_lt _ H1). lra.
    + destruct (Req_dec (ent Z j i) 0); auto. pose proof (Rabs_pos_lt _ H1). lra.
  - intros [-> ->]. rewrite Rabs_R0. ring.
Qed.

(** *** preservation statistics *)
Lemma rlsum_nonneg l : (forall x, In x l -> 0 <= x) -> 0 <= rlsum l.
Proof. induction l as [|a l IH]; simpl; intros H; [lra|]. pose proof (H a (or_introl eq_refl)). specialize (IH (fun x Hx => H x (or_intror Hx))). lra. Qed.
Lemma masked_le (w : nat -> bool) : forall ci lab, (forall x, In x ci -> 0 <= x) -> length lab = length ci ->
  0 <= rlsum (zipw (fun c l => if w l then c else 0) ci lab) <= rlsum ci /\
  (rlsum (zipw (fun c l => if w l then c else 0) ci lab) = rlsum ci <-> forall i, (i < length ci)%nat -> w (nth i lab 0%nat) = false -> ci@i = 0).
Proof.
  induction ci as [|a ci IH]; intros [|l lab] H L; simpl in L; try discriminate.
  - simpl. split; [lra|]. split; [intros _ i Hi; lia|auto].
  - destruct (IH lab (fun x Hx => H x (or_intror Hx)) ltac:(lia)) as [B E]. cbn [zipw rlsum length].
    pose proof (H a (or_introl eq_refl)) as Ha. destruct (w l) eqn:W.
    + split; [lra|]. split.
      * intros Q i Hi. destruct i; cbn [nth]; [congruence|]. apply E; [lra|lia].
      * intros Q. assert (rlsum (zipw (fun c l => if w l then c else 0) ci lab) = rlsum ci); [|lra].
        apply E. intros i Hi. apply (Q (S i)). lia.
    + split; [lra|]. split.
      * intros Q. assert (a = 0) by lra. assert (Q2 : rlsum (zipw (fun c l => if w l then c else 0) ci lab) = rlsum ci) by lra.
        intros i Hi. destruct i; cbn [nth]; auto. apply E; [lra|lia].
      * intros Q. pose proof (Q 0%nat ltac:(lia) W) as Q0. cbn in Q0. assert (rlsum (zipw (fun c l => if w l then c else 0) ci lab) = rlsum ci); [|lra].
        apply E. intros i Hi. apply (Q (S i)). lia.
Qed.
Lemma rlsum_zero_iff ci : (forall x, In x ci -> 0 <= x) -> (rlsum ci = 0 <-> forall i, (i < length ci)%nat -> ci@i = 0).
Proof.
  induction ci as [|a ci IH]; intros H; simpl; [split; [intros _ i Hi; lia|auto]|].
  pose proof (H a (or_introl eq_refl)). assert (P := rlsum_nonneg ci (fun x Hx => H x (or_intror Hx))).
  specialize (IH (fun x Hx => H x (or_intror Hx))). split.
  - intros Q i Hi. destruct i; [lra|]. apply IH; [lra|lia].
  - intros Q. pose proof (Q 0%nat ltac:(lia)) as Q0. simpl in Q0. assert (rlsum ci = 0); [|lra]. apply IH. intros i Hi. apply (Q (S i)). lia.
Qed.
Lemma spr_error_spec ci lab k : (forall x, In x ci -> 0 <= x) -> length lab = length ci ->
  match snd (spr_of ci lab k) with
  | None => forall i, (i < length ci)%nat -> ci@i = 0
  | Some e => 0 <= e <= 1 /\
     (e = 0 <-> forall i, (i < length ci)%nat -> nth i lab 0%nat <> k -> ci@i = 0) /\
     e * rlsum ci = rlsum (zipw (fun c l => if Nat.eqb l k then 0 else c) ci lab)
  end.
Proof.
  intros H L. unfold spr_of. cbv zeta. cbn [snd]. pose proof (rlsum_nonneg ci H) as P.
  destruct (Reqb_spec (rlsum ci) 0) as [E|Ne].
  - now apply rlsum_zero_iff.
  - destruct (@masked_le (fun l => Nat.eqb l k) ci lab H L) as [B E]. cbv beta in *. set (s := rlsum ci) in *. set (t := rlsum (zipw _ ci lab)) in *.
    assert (Q : 0 <= t / s <= 1).
    { split; [apply Rmult_le_pos; [lra|left; apply Rinv_0_lt_compat; lra]|]. apply Rmult_le_reg_r with s; [lra|]. unfold Rdiv. rewrite Rmult_assoc, Rinv_l by lra. lra. }
    split; [lra|]. split.
    + assert (EQ : 1 - t / s = 0 <-> t = s).
      { split; intros X; [|rewrite X; field; auto]. assert (t = (t / s) * s) by (field; auto). rewrite H0. replace (t / s) with 1 by lra. ring. }
      rewrite EQ, E. split; intros X i Hi; intros Y; apply X; auto; [now apply Nat.eqb_neq|now apply Nat.eqb_neq in Y].
    + replace ((1 - t / s) * s) with (s - t) by (field; auto). unfold s, t. clear - L. revert lab L.
      induction ci as [|a ci IH]; intros [|l lab] L; simpl in *; try discriminate; [ring|].
      assert (IH' := IH lab ltac:(lia)). destruct (Nat.eqb l k); lra.
Qed.
Lemma flag_spec ci lab k : length lab = length ci ->
  (fst (spr_of ci lab k) = true <-> forall i, (i < length ci)%nat -> 1/1000 <= ci@i -> nth i lab 0%nat = k).
Proof.
  unfold spr_of. cbv zeta. cbn [fst]. revert lab. induction ci as [|a ci IH]; intros [|l lab] L; simpl in L; try discriminate.
  - split; [intros _ i Hi; simpl in Hi; lia|auto].
  - cbn [zipw forallb length]. rewrite andb_true_iff, IH by lia. split.
    + intros [A B] i Hi Hc. destruct i; cbn [nth] in *; [|apply B; auto; lia].
      destruct (Rleb_spec (1/1000) a); [now apply Nat.eqb_eq|lra].
    + intros A. split.
      * destruct (Rleb_spec (1/1000) a); auto. apply Nat.eqb_eq. apply (A 0%nat); auto; lia.
      * intros i Hi. apply (A (S i)). lia.
Qed.
Lemma all_some_spec : forall l r, all_some l = Some r -> l = map Some r.
Proof.
  induction l as [|[a|] l IH]; simpl; intros r; try discriminate; [intros [= <-]; auto|].
  destruct (all_some l) as [r'|]; [|discriminate]. intros [= <-]. simpl. now rewrite (IH r' eq_refl).
Qed.
Lemma mean_bounds l : l <> [] -> (forall x, In x l -> 0 <= x <= 1) -> 0 <= mean l <= 1.
Proof.
  intros Hl H. unfold mean. assert (P : 0 < INR (length l)) by (apply lt_0_INR; destruct l; simpl; [easy|lia]).
  assert (B : 0 <= rlsum l <= INR (length l)).
  { clear Hl P. induction l as [|a l IH]; [simpl; lra|]. cbn [rlsum length]. rewrite S_INR.
    pose proof (H a (or_introl eq_refl)). specialize (IH (fun x Hx => H x (or_intror Hx))). lra. }
  split; [apply Rmult_le_pos; [lra|left; now apply Rinv_0_lt_compat]|].
  apply Rmult_le_reg_r with (INR (length l)); auto. unfold Rdiv. rewrite Rmult_assoc, Rinv_l by lra. lra.
Qed.
Lemma spr_mean_bounds n C labels e : (0 < n)%nat -> length C = length labels -> spr_error (spr_stats n C labels) = Some e -> 0 <= e <= 1.
Proof.
  intros Hn L. unfold spr_error. destruct (all_some _) as [r|] eqn:E; [|discriminate]. intros [= <-].
  apply all_some_spec in E. unfold spr_stats in E. rewrite map_map in E. apply mean_bounds.
  - intros ->. apply (f_equal (@length _)) in E. rewrite map_length, seq_length in E. simpl in E. lia.
  - intros x Hx. assert (Hs : In (Some x) (map (fun i => snd (spr_of (map Rabs (vcol C i)) labels (nth i labels 0%nat))) (seq 0 n))) by (rewrite E; now apply in_map).
    apply in_map_iff in Hs. destruct Hs as [i [Ei _]].
    assert (Q := @spr_error_spec (map Rabs (vcol C i)) labels (nth i labels 0%nat)). rewrite Ei in Q.
    apply Q; [|unfold vcol; rewrite !map_length; auto]. intros y Hy. apply in_map_iff in Hy. destruct Hy as [z [<- _]]. apply Rabs_pos.
Qed.
