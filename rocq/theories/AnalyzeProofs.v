From Coq Require Import List Arith Bool Reals Lia Lra Permutation.
From Verif Require Import Vec RVec RMat Loop OptModel OptProofs OptProofs2 SortedL1Model SortedL1Proofs SelModel SelSpec SelProofs PursuitModel PursuitSpec PursuitProofs PursuitProofs5 OneBitProofs PerfModel PerfProofs AnalyzeModel AnalyzeSpec.
Import ListNotations.
Local Open Scope R_scope.

Definition sq (x : vec) : vec := map (fun v => v * v) x.
Lemma sq_nth x i : (sq x)@i = x@i * x@i.
Proof. unfold sq. apply (map_nth0 (fun v => v * v)). ring. Qed.
Lemma sq_len x : length (sq x) = length x. Proof. apply map_length. Qed.
Lemma sq_nneg x i : 0 <= (sq x)@i. Proof. rewrite sq_nth. apply Rle_0_sqr. Qed.
Lemma energy_sq x J : energy_at x J = isum J (fun i => (sq x)@i).
Proof. unfold energy_at, isum. f_equal. apply map_ext. intros i. now rewrite sq_nth. Qed.
Lemma largest_top_sq x k : (k <= length x)%nat -> top_selection (sq x) k (largest_indices x k).
Proof.
  intros H. destruct (@largest_top x k H) as (A & B & C & D). rewrite map_length in *.
  split; [exact A|]. split; [exact B|]. rewrite sq_len. split; [exact C|]. intros i j Hi Hj Hn.
  pose proof (D i j Hi Hj Hn) as E. rewrite !(map_nth0 Rabs) in E by apply Rabs_R0. rewrite !sq_nth.
  apply Rsqr_le_abs_1. exact E.
Qed.

Lemma top_energy_eq x k : (k <= length x)%nat -> top_energy x k = energy_at x (largest_indices x k).
Proof.
  intros H. unfold top_energy. fold (sq x). rewrite <- sorted_top_sum, energy_sq.
  assert (H' : (k <= length (sq x))%nat) by now rewrite sq_len.
  pose proof (@sorted_top (sq x) k H') as T1. pose proof (largest_top_sq x k H) as T2.
  apply Rle_antisym; apply top_sum with (K := k); auto using sq_nneg; try apply T1; try apply T2.
  - apply Nat.eq_le_incl, T1.
  - apply Nat.eq_le_incl, T2.
Qed.
Lemma energy_max x k J : (k <= length x)%nat -> positions x J -> (length J <= k)%nat -> energy_at x J <= top_energy x k.
Proof.
  intros H [ND HJ] L. rewrite top_energy_eq, !energy_sq by auto.
  apply top_sum with (K := k); auto using sq_nneg, largest_top_sq. now rewrite sq_len.
Qed.
Lemma rlsum_perm l l' : Permutation l l' -> rlsum l = rlsum l'.
Proof. induction 1; cbn; lra. Qed.
Lemma top_energy_all x : top_energy x (length x) = nrm2 x.
Proof.
  unfold top_energy. fold (sq x). rewrite firstn_all2 by (rewrite rev_length, rsort_len, sq_len; lia).
  rewrite (rlsum_perm (rev (rsort (sq x))) (sq x)) by (rewrite <- Permutation_rev; apply rsort_perm).
  unfold nrm2. induction x as [|a x IH]; [reflexivity|]. cbn [sq map rlsum]. fold (sq x). rewrite IH. unfold rdot. cbn. ring.
Qed.
Lemma find_seq (f : nat -> bool) m : forall a k, find f (seq a m) = Some k ->
  (a <= k < a + m)%nat /\ f k = true /\ forall j, (a <= j < k)%nat -> f j = false.
Proof.
  induction m as [|m IH]; intros a k; cbn; [discriminate|]. destruct (f a) eqn:E.
  - intros [= <-]. split; [lia|]. split; [auto|]. intros; lia.
  - intros H. destruct (IH _ _ H) as (A & B & C). split; [lia|]. split; [auto|]. intros j Hj.
    destruct (Nat.eq_dec j a) as [->|]; [exact E|]. apply C. lia.
Qed.
Lemma count_spec x perc : x <> [] -> 0 <= perc <= 100 ->
  let k := energy_count x perc in
  (1 <= k <= length x)%nat /\ perc / 100 * nrm2 x <= top_energy x k /\
  forall j, (1 <= j < k)%nat -> top_energy x j < perc / 100 * nrm2 x.
Proof.
  intros Hx Hp k. assert (L : (1 <= length x)%nat) by (destruct x; [easy|cbn; lia]).
  unfold k, energy_count. destruct (find _ _) as [k'|] eqn:E.
  - apply find_seq in E as (A & B & C). split; [lia|]. split; [now apply Rleb_true in B|].
    intros j Hj. apply Rnot_le_lt. intros N. apply Rleb_true in N. now rewrite C in N.
  - exfalso. apply find_none with (x := length x) in E; [|apply in_seq; lia].
    assert (N : perc / 100 * nrm2 x <= top_energy x (length x)).
    { rewrite top_energy_all. pose proof (rdot_pos x). unfold nrm2 in *. nra. }
    apply Rleb_true in N. congruence.
Qed.
Section Overlap.
  Variables (x0 x : vec) (perc : R).
  Hypothesis (H0 : x0 <> []) (H1 : x <> []) (Hp : 0 <= perc <= 100).
  Let k1 := energy_count x0 perc.
  Let k2 := energy_count x perc.
  Let s1 := largest_indices x0 k1.
  Let s2 := largest_indices x k2.
  Lemma s1_facts : NoDup s1 /\ length s1 = k1.
  Proof. destruct (count_spec x0 perc H0 Hp) as ((A & B) & _). destruct (@largest_top x0 _ B) as (C & D & _). now split. Qed.
  Lemma s2_facts : NoDup s2 /\ length s2 = k2.
  Proof. destruct (count_spec x perc H1 Hp) as ((A & B) & _). destruct (@largest_top x _ B) as (C & D & _). now split. Qed.
  Lemma correct_le1 : (length (intersect s1 s2) <= k1)%nat.
  Proof. rewrite <- (proj2 s1_facts). apply filter_len_le. Qed.
  Lemma correct_le2 : (length (intersect s1 s2) <= k2)%nat.
  Proof.
    rewrite <- (proj2 s2_facts). apply NoDup_incl_length; [apply NoDup_filter, s1_facts|].
    intros i Hi. now apply intersect_in in Hi.
  Qed.
  Lemma max_pos : 0 < INR (Nat.max k1 k2).
  Proof. apply lt_0_INR. destruct (count_spec x0 perc H0 Hp) as ((A & B) & _). fold k1 in A. lia. Qed.
  Lemma correct_all : length (intersect s1 s2) = Nat.max k1 k2 <-> forall i, In i s1 <-> In i s2.
  Proof.
    destruct s1_facts as [N1 L1]. destruct s2_facts as [N2 L2]. split.
    - intros E. pose proof correct_le1. pose proof correct_le2.
      assert (A1 : forall i, In i s1 -> In i s2).
      { intros i Hi. assert (Q : (length s1 <= length (intersect s1 s2))%nat) by lia.
        apply filter_len_all with (a := i) in Q; auto. now apply in_existsb in Q. }
      intros i. split; [apply A1|]. intros Hi.
      assert (I12 : incl s2 s1) by (apply NoDup_length_incl; auto; lia). now apply I12.
    - intros E. assert (L12 : (length s1 <= length s2)%nat) by (apply NoDup_incl_length; auto; intros i Hi; now apply E).
      assert (L21 : (length s2 <= length s1)%nat) by (apply NoDup_incl_length; auto; intros i Hi; now apply E).
      pose proof correct_le1.
      assert (Q : (length s1 <= length (intersect s1 s2))%nat).
      { apply filter_len_all. intros i Hi. apply in_existsb. now apply E. }
      lia.
  Qed.
  Lemma ratio_range : 0 <= ov_ratio (overlap_of x0 x perc) <= 1.
  Proof.
    cbn. fold k1 k2 s1 s2. pose proof max_pos as P. pose proof correct_le1. 
    assert (Q : INR (length (intersect s1 s2)) <= INR (Nat.max k1 k2)) by (apply le_INR; lia).
    pose proof (pos_INR (length (intersect s1 s2))).
    split; [apply Rmult_le_pos; auto; left; now apply Rinv_0_lt_compat|].
    apply Rmult_le_reg_r with (INR (Nat.max k1 k2)); auto. unfold Rdiv. rewrite Rmult_assoc, Rinv_l by lra. lra.
  Qed.
  Lemma ratio_one : ov_ratio (overlap_of x0 x perc) = 1 <-> forall i, In i s1 <-> In i s2.
  Proof.
    rewrite <- correct_all. cbn. fold k1 k2 s1 s2. pose proof max_pos as P. split.
    - intros E. apply INR_eq. apply Rmult_eq_reg_r with (/ INR (Nat.max k1 k2)); [|apply Rinv_neq_0_compat; lra].
      rewrite Rinv_r by lra. exact E.
    - intros E. rewrite E. unfold Rdiv. apply Rinv_r. lra.
  Qed.
End Overlap.
(** scaling does not change the selection *)
Lemma map_abs_scale c x : map Rabs (rscale c x) = rscale (Rabs c) (map Rabs x).
Proof. unfold rscale, vscale. rewrite !map_map. apply map_ext. intros a. apply Rabs_mult. Qed.
Lemma largest_scale c x k : c <> 0 -> largest_indices (rscale c x) k = largest_indices x k.
Proof. intros H. unfold largest_indices. rewrite map_abs_scale, argsort_scale; auto. now apply Rabs_pos_lt. Qed.
Lemma top_energy_scale c x k : c <> 0 -> (k <= length x)%nat -> top_energy (rscale c x) k = c * c * top_energy x k.
Proof.
  intros H Hk. rewrite !top_energy_eq by (rewrite ?rscale_len; auto). rewrite largest_scale by auto. unfold energy_at, isum.
  induction (largest_indices x k) as [|i J IH]; cbn [map rlsum]; [ring|]. rewrite IH, rscale_nth. ring.
Qed.
Lemma find_ext_in (f g : nat -> bool) l : (forall a, In a l -> f a = g a) -> find f l = find g l.
Proof. induction l as [|a l IH]; intros H; cbn; auto. rewrite H by now left. destruct (g a); auto. apply IH. intros; apply H; now right. Qed.
Lemma count_scale c x perc : c <> 0 -> energy_count (rscale c x) perc = energy_count x perc.
Proof.
  intros H. unfold energy_count. rewrite rscale_len.
  assert (P : 0 < c * c) by nra.
  rewrite (find_ext_in _ (fun k => Rleb (perc / 100 * nrm2 x) (top_energy x k))); auto.
  intros k Hk. apply in_seq in Hk. rewrite top_energy_scale by (auto; lia). unfold nrm2. rewrite rdot_scale_l, rdot_scale_r.
  set (t := top_energy x k). set (e := rdot x x). apply Bool.eq_iff_eq_true. rewrite !Rleb_true. split; intros Q; nra.
Qed.
