(** The statistics of sparse representations: what they report, and how they
    compare with the statistics of the full representation. *)
From Coq Require Import List Arith Bool Lia Reals Lra Psatz.
From Verif Require Import Vec RVec RMat Loop SelModel SelProofs SolverSpec KMeansModel ClusterModel SscModel SscSpec SscProofs.
Import ListNotations.
Set Implicit Arguments.
Local Open Scope R_scope.

Lemma sparse_flag_eq : forall ci lab k, length lab = length ci -> fst (sparse_spr_of ci lab k) = fst (spr_of ci lab k).
Proof.
  intros ci lab k. unfold sparse_spr_of, spr_of. cbv zeta. cbn [fst]. revert lab.
  induction ci as [|a ci IH]; intros [|l lab] L; simpl in L; try discriminate; auto.
  cbn [zipw forallb]. rewrite IH by lia. f_equal.
  destruct (Rltb_spec a (1/1000)), (Rleb_spec (1/1000) a); try lra; [apply Nat.eqb_refl|apply Nat.eqb_sym].
Qed.
Lemma relab_len (k : nat) : forall (ci : vec) lab, length lab = length ci ->
  length (zipw (fun c l => if Rltb c (1/1000) then k else l) ci lab) = length ci.
Proof. induction ci as [|a ci IH]; intros [|l lab] L; simpl in *; try discriminate; auto. Qed.
Lemma relab_all (k : nat) : forall (ci : vec) lab, (forall x, In x ci -> 0 <= x) -> length lab = length ci ->
  ((forall i, (i < length ci)%nat ->
     Nat.eqb (nth i (zipw (fun c l => if Rltb c (1/1000) then k else l) ci lab) 0%nat) k = false -> ci@i = 0) <->
   forallb (Nat.eqb k) (zipw (fun c l => if Rltb c (1/1000) then k else l) ci lab) = true).
Proof.
  induction ci as [|a ci IH]; intros [|l lab] H L; simpl in L; try discriminate.
  - simpl. split; auto. intros _ i Hi. lia.
  - cbn [zipw forallb length]. rewrite andb_true_iff.
    specialize (IH lab (fun x Hx => H x (or_intror Hx)) ltac:(lia)). split.
    + intros Q. split.
      * specialize (Q 0%nat ltac:(lia)). cbn [nth] in Q. destruct (Rltb_spec a (1/1000)); [apply Nat.eqb_refl|].
        rewrite Nat.eqb_sym. destruct (Nat.eqb l k); auto. specialize (Q eq_refl). lra.
      * apply IH. intros i Hi. apply (Q (S i)). lia.
    + intros [A B] i Hi. destruct i; cbn [nth]; [|apply (proj2 IH B); lia].
      rewrite Nat.eqb_sym, A. discriminate.
Qed.
Lemma relab_sum (k : nat) : forall (ci : vec) lab, length lab = length ci ->
  rlsum ci - rlsum (zipw (fun c l => if Nat.eqb l k then c else 0) ci (zipw (fun c l => if Rltb c (1/1000) then k else l) ci lab)) =
  rlsum (zipw (fun c l => if Nat.eqb l k then 0 else if Rltb c (1/1000) then 0 else c) ci lab).
Proof.
  induction ci as [|a ci IH]; intros [|l lab] L; simpl in L; try discriminate; [simpl; ring|].
  cbn [zipw rlsum]. specialize (IH lab ltac:(lia)). destruct (Rltb a (1/1000)).
  - rewrite Nat.eqb_refl. destruct (Nat.eqb l k); lra.
  - destruct (Nat.eqb l k); lra.
Qed.
Lemma sparse_error_spec ci lab k : (forall x, In x ci -> 0 <= x) -> length lab = length ci ->
  match snd (sparse_spr_of ci lab k) with
  | None => forall i, (i < length ci)%nat -> ci@i = 0
  | Some e => 0 <= e <= 1 /\ (e = 0 <-> fst (sparse_spr_of ci lab k) = true) /\
     e * rlsum ci = rlsum (zipw (fun c l => if Nat.eqb l k then 0 else if Rltb c (1/1000) then 0 else c) ci lab)
  end.
Proof.
  intros H L. unfold sparse_spr_of. cbv zeta. cbn [fst snd]. pose proof (rlsum_nonneg ci H) as P.
  destruct (Reqb_spec (rlsum ci) 0) as [E|Ne].
  - now apply rlsum_zero_iff.
  - destruct (@masked_le (fun l => Nat.eqb l k) ci _ H (relab_len k ci lab L)) as [B E]. cbv beta in *.
    rewrite relab_all in E by auto. rewrite <- relab_sum by auto. set (s := rlsum ci) in *. set (t := rlsum (zipw _ ci _)) in *.
    assert (Q : 0 <= t / s <= 1).
    { split; [apply Rmult_le_pos; [lra|left; apply Rinv_0_lt_compat; lra]|]. apply Rmult_le_reg_r with s; [lra|]. unfold Rdiv. rewrite Rmult_assoc, Rinv_l by lra. lra. }
    split; [lra|]. split.
    + rewrite <- E. split; intros X; [|rewrite X; field; auto]. assert (Y : t = (t / s) * s) by (field; auto). rewrite Y. replace (t / s) with 1 by lra. ring.
    + field; auto.
Qed.

(** *** sums over the full column *)
Lemma sum_upd (G : nat -> R -> R) n i a f : (i < n)%nat -> f i = 0 -> (forall r, G r 0 = 0) ->
  rsum n (fun r => G r (if Nat.eqb r i then a else f r)) = rsum n (fun r => G r (f r)) + G i a.
Proof.
  intros Hi F0 G0. assert (X : rsum n (fun r => G r (if Nat.eqb r i then a else f r) - G r (f r)) = G i a).
  { rewrite (@rsum_single n i) by (auto; intros r _ Ne; apply Nat.eqb_neq in Ne; rewrite Ne; ring).
    rewrite Nat.eqb_refl, F0, G0. ring. }
  rewrite rsum_sub in X. lra.
Qed.
Lemma sum_write (G : nat -> R -> R) n : (forall r, G r 0 = 0) ->
  forall idx x f, NoDup idx -> length x = length idx -> (forall i, In i idx -> (i < n)%nat /\ f i = 0) ->
  rsum n (fun r => G r (write_all idx x f r)) = rsum n (fun r => G r (f r)) + rlsum (zipw (fun v i => G i v) x idx).
Proof.
  intros G0. induction idx as [|i idx IH]; intros [|a x] f N L H; simpl in L; try discriminate; [simpl; ring|].
  cbn [write_all zipw rlsum]. inversion N as [|i' l' Hni Hnd]; subst. destruct (H i (or_introl eq_refl)) as [Hi F0].
  rewrite IH; auto; [rewrite sum_upd by auto; ring|]. intros j Hj. destruct (H j (or_intror Hj)) as [A B]. split; auto.
  destruct (Nat.eqb_spec j i) as [->|]; auto. contradiction.
Qed.
Lemma rlsum_map_seq f : forall n s, rlsum (map f (seq s n)) = rsum n (fun i => f (s + i)%nat).
Proof.
  induction n as [|n IH]; intros s; [reflexivity|]. cbn [seq map rlsum]. rewrite IH, rsum_S_l, Nat.add_0_r. f_equal.
  apply rsum_ext. intros i _. f_equal. lia.
Qed.
Lemma zipw_map_seq A B C (f : A -> B -> C) a b : forall n s, zipw f (map a (seq s n)) (map b (seq s n)) = map (fun i => f (a i) (b i)) (seq s n).
Proof. induction n as [|n IH]; intros s; simpl; auto. now rewrite IH. Qed.
Lemma vcol_full n X I c : (c < n)%nat -> vcol (sparse_to_full_rep n X I) c = map (write_all (icol I c) (vcol X c) (fun _ => 0)) (seq 0 n).
Proof.
  intros Hc. unfold vcol at 1, sparse_to_full_rep. unfold tab at 1. rewrite map_map. apply map_ext. intros r. now rewrite nth_tab.
Qed.
Lemma labels_seq (labels : list nat) n : length labels = n -> labels = map (fun i => nth i labels 0%nat) (seq 0 n).
Proof. intros <-. symmetry. apply (tab_nth labels 0%nat). Qed.
Lemma zipw_map2 A A' B B' C (f : A -> B -> C) (g : A' -> A) (h : B' -> B) : forall x y, zipw f (map g x) (map h y) = zipw (fun a b => f (g a) (h b)) x y.
Proof. induction x as [|a x IH]; intros [|b y]; simpl; auto. now rewrite IH. Qed.
Lemma zipw_fst A B (f : A -> R) : forall (x : list A) (y : list B), length x = length y -> zipw (fun a _ => f a) x y = map f x.
Proof. induction x as [|a x IH]; intros [|b y] L; simpl in *; try discriminate; auto. rewrite IH; auto. Qed.
Lemma zipw_le A B (f g : A -> B -> R) : (forall a b, f a b <= g a b) -> forall x y, rlsum (zipw f x y) <= rlsum (zipw g x y).
Proof. intros H. induction x as [|a x IH]; intros [|b y]; simpl; try lra. specialize (H a b). specialize (IH y). lra. Qed.

Section Full.
  Variables (d n : nat) (Z : mat) (I : list (list nat)) (labels : list nat) (c : nat).
  Hypotheses (HZ : shape d n Z) (HI : ishape d n I) (HL : length labels = n) (Hc : (c < n)%nat)
    (HN : NoDup (icol I c)) (HR : forall i, In i (icol I c) -> (i < n)%nat).
  Let k := nth c labels 0%nat.
  Let ci := map Rabs (vcol Z c).
  Let lab := map (fun a => nth a labels 0%nat) (icol I c).
  Let full := map Rabs (vcol (sparse_to_full_rep n Z I) c).
  Lemma col_len : length (vcol Z c) = length (icol I c).
  Proof. unfold vcol, icol. rewrite !map_length. destruct HZ as [A _], HI as [B _]. unfold vec in *. lia. Qed.
  Lemma lab_len : length lab = length ci.
  Proof. unfold lab, ci. rewrite !map_length. symmetry. exact col_len. Qed.
  Lemma ci_nonneg x : In x ci -> 0 <= x.
  Proof. unfold ci. intros H. apply in_map_iff in H. destruct H as [y [<- _]]. apply Rabs_pos. Qed.
  Lemma full_nonneg x : In x full -> 0 <= x.
  Proof. unfold full. intros H. apply in_map_iff in H. destruct H as [y [<- _]]. apply Rabs_pos. Qed.
  Lemma full_len : length full = n.
  Proof. unfold full. rewrite vcol_full by auto. now rewrite !map_length, seq_length. Qed.
  (** sums of a function of the label and the magnitude *)
  Lemma full_sum (G : R -> nat -> R) : (forall l, G 0 l = 0) -> rlsum (zipw G full labels) = rlsum (zipw G ci lab).
  Proof.
    intros G0. unfold full. rewrite vcol_full by auto. rewrite map_map. rewrite (labels_seq labels HL) at 1.
    rewrite zipw_map_seq, rlsum_map_seq. cbn [Nat.add].
    rewrite (@sum_write (fun r v => G (Rabs v) (nth r labels 0%nat)) n); auto.
    - rewrite Rabs_R0. rewrite rsum_0' by (intros; apply G0). unfold ci, lab. rewrite zipw_map2. ring.
    - intros r. now rewrite Rabs_R0.
    - exact col_len.
  Qed.
  Lemma full_total : rlsum full = rlsum ci.
  Proof.
    pose proof (@full_sum (fun v _ => v) (fun _ => eq_refl)) as E.
    rewrite !(@zipw_fst R nat (fun v => v)), !map_id in E; auto; [symmetry; exact lab_len|]. rewrite full_len. auto.
  Qed.
  Lemma full_flag : fst (spr_of full labels k) = fst (spr_of ci lab k).
  Proof.
    pose (W := fun v l => if Nat.eqb l k then 0 else if Rltb v (1/1000) then 0 else v).
    assert (E := @full_sum W). assert (W0 : forall l, W 0 l = 0).
    { intros l. unfold W. destruct (Nat.eqb l k), (Rltb 0 (1/1000)); auto. }
    specialize (E W0). assert (X : forall cs ls, (forall x, In x cs -> 0 <= x) -> length ls = length cs ->
      (fst (spr_of cs ls k) = true <-> rlsum (zipw W cs ls) = 0)).
    { clear. unfold spr_of. cbv zeta. cbn [fst]. induction cs as [|a cs IH]; intros [|l ls] H L; simpl in L; try discriminate; [simpl; tauto|].
      cbn [zipw forallb rlsum]. rewrite andb_true_iff, IH by (auto; intros; apply H; now right).
      assert (P : 0 <= rlsum (zipw W cs ls)).
      { clear - H. assert (H' : forall x, In x cs -> 0 <= x) by (intros; apply H; now right). clear H. revert ls.
        induction cs as [|b cs IH]; intros [|m ls]; simpl; try lra. specialize (IH (fun x Hx => H' x (or_intror Hx)) ls).
        pose proof (H' b (or_introl eq_refl)). unfold W at 1. destruct (Nat.eqb m k), (Rltb b (1/1000)); lra. }
      pose proof (H a (or_introl eq_refl)). unfold W at 2. destruct (Rleb_spec (1/1000) a), (Rltb_spec a (1/1000)); try lra.
      - destruct (Nat.eqb l k); intuition (try lra; try discriminate).
      - destruct (Nat.eqb l k); intuition (try lra). }
    pose proof (X full labels full_nonneg ltac:(rewrite full_len; auto)) as A.
    pose proof (X ci lab ci_nonneg lab_len) as B. rewrite E in A.
    destruct (fst (spr_of full labels k)), (fst (spr_of ci lab k)); auto; [symmetry; apply B, A; auto|apply A, B; auto].
  Qed.
  Lemma full_agree :
    fst (sparse_spr_of ci lab k) = fst (spr_of full labels k) /\
    match snd (sparse_spr_of ci lab k), snd (spr_of full labels k) with
    | None, None => True
    | Some e, Some e' => 0 <= e <= e' /\ (e' - e) * rlsum ci <= INR d * (1 / 1000)
    | _, _ => False
    end.
  Proof.
    split; [rewrite sparse_flag_eq by exact lab_len; symmetry; exact full_flag|].
    pose proof (@sparse_error_spec ci lab k ci_nonneg lab_len) as A.
    pose proof (@spr_error_spec full labels k full_nonneg ltac:(rewrite full_len; auto)) as B.
    rewrite full_total in B. rewrite (@full_sum (fun c l => if Nat.eqb l k then 0 else c)) in B by (intros l; destruct (Nat.eqb l k); auto).
    unfold sparse_spr_of, spr_of in *. cbv zeta in *. cbn [fst snd] in *. rewrite full_total in *.
    destruct (Reqb_spec (rlsum ci) 0) as [E|Ne]; auto. destruct A as [A1 [_ A3]], B as [B1 [_ B3]].
    assert (P : 0 < rlsum ci) by (pose proof (rlsum_nonneg ci ci_nonneg); lra).
    match type of A1 with 0 <= ?e <= 1 => set (e0 := e) in * end. match type of B1 with 0 <= ?e <= 1 => set (e1 := e) in * end.
    assert (Q : 0 <= (e1 - e0) * rlsum ci <= INR d * (1 / 1000)).
    { rewrite Rmult_minus_distr_r, A3, B3. assert (D : length ci = d) by (unfold ci, vcol; rewrite !map_length; apply HZ).
      rewrite <- D. generalize ci_nonneg lab_len. clear. intros H. generalize lab. revert H. generalize ci.
      induction ci0 as [|a l IH]; intros H [|m ls] L; simpl in L; try discriminate; [simpl; lra|]. cbn [zipw rlsum length]. rewrite S_INR.
      specialize (IH (fun x Hx => H x (or_intror Hx)) ls ltac:(lia)). pose proof (H a (or_introl eq_refl)).
      destruct (Nat.eqb m k), (Rltb_spec a (1/1000)); lra. }
    split; [|lra]. split; [lra|]. apply Rmult_le_reg_r with (rlsum ci); auto. lra.
  Qed.
End Full.

Lemma sparse_mean_bounds d n Z I labels e : (0 < n)%nat -> shape d n Z -> ishape d n I ->
  spr_error (sparse_spr_stats n Z I labels) = Some e -> 0 <= e <= 1.
Proof.
  intros Hn [L1 _] [L2 _]. unfold spr_error. destruct (all_some _) as [r|] eqn:E; [|discriminate]. intros [= <-].
  apply all_some_spec in E. unfold sparse_spr_stats in E. rewrite map_map in E. apply mean_bounds.
  - intros ->. apply (f_equal (@length _)) in E. rewrite map_length, seq_length in E. simpl in E. lia.
  - intros x Hx. assert (Hs : In (Some x) (map Some r)) by now apply in_map. rewrite <- E in Hs.
    apply in_map_iff in Hs. destruct Hs as [i [Ei _]].
    assert (Q := @sparse_error_spec (map Rabs (vcol Z i)) (map (fun a => nth a labels 0%nat) (icol I i)) (nth i labels 0%nat)). rewrite Ei in Q.
    apply Q; [|unfold vcol, icol; rewrite !map_length; unfold vec in *; lia]. intros y Hy. apply in_map_iff in Hy. destruct Hy as [z [<- _]]. apply Rabs_pos.
Qed.

Lemma map_as_seq A B (f : A -> B) (a : A) : forall l, map f l = map (fun i => f (nth i l a)) (seq 0 (length l)).
Proof.
  intros l. rewrite <- (map_map (fun i => nth i l a) f). f_equal. symmetry. apply (tab_nth l a).
Qed.
Lemma nth_map_seq A (f : nat -> A) n i a : (i < n)%nat -> nth i (map f (seq 0 n)) a = f i.
Proof. intros H. rewrite (nth_indep _ a (f 0%nat)) by now rewrite map_length, seq_length. now rewrite map_nth, seq_nth. Qed.
Lemma sparse_stats_spec d n Z I labels c : shape d n Z -> ishape d n I -> (c < n)%nat ->
  let s := nth c (sparse_spr_stats n Z I labels) (false, None) in
  let label i := nth (nth c (nth i I []) 0%nat) labels 0%nat in
  let k := nth c labels 0%nat in
  (fst s = true <-> forall i, (i < d)%nat -> 1/1000 <= Rabs (ent Z i c) -> label i = k) /\
  match snd s with
  | None => forall i, (i < d)%nat -> ent Z i c = 0
  | Some e => 0 <= e <= 1 /\ (e = 0 <-> fst s = true) /\
     e * rsum d (fun i => Rabs (ent Z i c)) =
     rsum d (fun i => if Nat.eqb (label i) k then 0 else if Rltb (Rabs (ent Z i c)) (1/1000) then 0 else Rabs (ent Z i c))
  end.
Proof.
  intros [Z1 Z2] [I1 I2] Hc s label k.
  pose (ci := map (fun i => Rabs (ent Z i c)) (seq 0 d)). pose (lab := map label (seq 0 d)).
  assert (E : s = sparse_spr_of ci lab k).
  { unfold s, sparse_spr_stats. rewrite nth_map_seq by auto. f_equal.
    - unfold vcol. rewrite map_map, (map_as_seq _ (@nil R)). unfold vec, mat in *. rewrite Z1. reflexivity.
    - unfold icol. rewrite map_map, (map_as_seq _ (@nil nat)). rewrite I1. reflexivity. }
  assert (LC : length ci = d) by (unfold ci; rewrite map_length; apply seq_length).
  assert (LL : length lab = length ci) by (unfold lab, ci; rewrite !map_length; auto).
  assert (NN : forall x, In x ci -> 0 <= x) by (intros x Hx; apply in_map_iff in Hx; destruct Hx as [i [<- _]]; apply Rabs_pos).
  rewrite E. split.
  - rewrite sparse_flag_eq, flag_spec by auto. rewrite LC. split; intros H i Hi; specialize (H i Hi); unfold ci, lab in *;
      rewrite !nth_map_seq in * by auto; auto.
  - pose proof (@sparse_error_spec ci lab k NN LL) as Q. destruct (snd (sparse_spr_of ci lab k)) as [e|].
    + destruct Q as [A [B C]]. split; auto. split; auto. unfold ci at 1, lab in C. unfold ci in C. rewrite zipw_map_seq, !rlsum_map_seq in C. exact C.
    + intros i Hi. rewrite LC in Q. specialize (Q i Hi). unfold ci in Q. rewrite nth_map_seq in Q by auto.
      destruct (Req_dec (ent Z i c) 0); auto. apply Rabs_pos_lt in H. lra.
Qed.
Lemma sparse_full d n Z I labels c : shape d n Z -> ishape d n I -> length labels = n -> (c < n)%nat ->
  NoDup (icol I c) -> (forall i, In i (icol I c) -> (i < n)%nat) ->
  let s := nth c (sparse_spr_stats n Z I labels) (false, None) in
  let f := nth c (spr_stats n (sparse_to_full_rep n Z I) labels) (false, None) in
  fst s = fst f /\
  match snd s, snd f with
  | None, None => True
  | Some e, Some e' => 0 <= e <= e' /\ (e' - e) * rsum d (fun i => Rabs (ent Z i c)) <= INR d * (1 / 1000)
  | _, _ => False
  end.
Proof.
  intros HZ HI HL Hc HN HR s f. unfold s, f, sparse_spr_stats, spr_stats. rewrite !nth_map_seq by auto.
  pose proof (@full_agree d n Z I labels c HZ HI HL Hc HN HR) as Q.
  replace (rsum d (fun i => Rabs (ent Z i c))) with (rlsum (map Rabs (vcol Z c))); auto.
  unfold vcol. rewrite map_map, (map_as_seq _ (@nil R)), rlsum_map_seq. destruct HZ as [Z1 _]. unfold vec, mat in *. rewrite Z1. reflexivity.
Qed.
