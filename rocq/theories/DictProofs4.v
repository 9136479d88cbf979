(** The frame matrix, and the union of the standard, Hadamard and cosine bases. *)
From Coq Require Import List Arith Bool Lia Reals Lra.
From Verif Require Import Scalar Vec RVec RMat Loop BasisModel BasisSpec FourierProofs2 BasisProofs SelModel SelSpec SelProofs DictModel DictSpec DictProofs DictProofs2 DictProofs3.
Import ListNotations.
Set Implicit Arguments.
Local Open Scope R_scope.

Lemma frame_ent A i j : (i < length A)%nat -> (j < length A)%nat -> ent (frame A) i j = rdot (nth i A []) (nth j A []).
Proof.
  intros Hi Hj. unfold ent, frame. rewrite (nth_indep _ [] (map (fun r' => rdot [] r') A)) by (rewrite map_length; exact Hi).
  rewrite (map_nth (fun r => map (fun r' => rdot r r') A)).
  rewrite (nth_indep _ 0 (rdot (nth i A []) [])) by (rewrite map_length; exact Hj). apply (map_nth (fun r' => rdot (nth i A []) r')).
Qed.
Lemma frame_mv m n A x : shape m n A -> length x = m -> mv (frame A) x = mv A (mtv n A x).
Proof.
  intros [H1 H2] Lx. unfold frame. unfold mv at 1 2. rewrite map_map. apply map_ext_in. intros r Hr.
  rewrite <- mv_adj; auto; [|rewrite Lx; symmetry; exact H1]. f_equal. unfold mv. apply map_ext. intros r'. apply rdot_sym.
Qed.
Lemma frame_quad m n A x : shape m n A -> length x = m -> rdot x (mv (frame A) x) = nrm2 (mtv n A x).
Proof.
  intros S Lx. rewrite (@frame_mv m n A x S Lx). destruct S as [H1 H2]. unfold nrm2. rewrite rdot_sym. apply mv_adj; auto.
  - now apply mtv_len.
  - rewrite Lx. symmetry. exact H1.
Qed.
Lemma frame_trace m n A : unit_atoms m n A -> rsum m (fun i => ent (frame A) i i) = INR n.
Proof.
  intros [[H1 H2] U]. rewrite (rsum_ext _ (fun i => rsum n (fun j => ent A i j * ent A i j))).
  - rewrite rsum_exchange. rewrite (rsum_ext _ (fun _ => 1)); [rewrite rsum_const; ring|]. intros j Hj. rewrite <- (U j Hj). unfold nrm2.
    rewrite (@rdot_sum m) by (rewrite col_len; exact H1). apply rsum_ext. intros i _. now rewrite !col_nth.
  - intros i Hi. rewrite frame_ent by (rewrite H1; exact Hi). rewrite (@rdot_sum n) by (apply H2, nth_In; rewrite H1; exact Hi). reflexivity.
Qed.

Section Three.
  Variables (n : nat) (H C : rmat).
  Hypotheses (WH : wf n n H) (WC : wf n n C).
  Hypothesis OH : forall j j', (j < n)%nat -> (j' < n)%nat -> rsum n (fun i => get H i j * get H i j') = if (j =? j')%nat then 1 else 0.
  Hypothesis OC : forall j j', (j < n)%nat -> (j' < n)%nat -> rsum n (fun i => get C i j * get C i j') = if (j =? j')%nat then 1 else 0.
  Let D := hstack (hstack (eye n) H) C.
  Lemma T_wf : wf n (n + n + n) D.
  Proof. exact (@hstack_wf n (n + n) n _ _ (@hstack_wf n n n _ _ (eye_wf n) WH) WC). Qed.
  Lemma T_ent i j : (i < n)%nat -> ent D i j =
    if (j <? n + n)%nat then (if (j <? n)%nat then (if (i =? j)%nat then 1 else 0) else get H i (j - n)) else get C i (j - (n + n)).
  Proof.
    intros Hi. change (get D i j = if (j <? n + n)%nat then (if (j <? n)%nat then (if (i =? j)%nat then 1 else 0) else get H i (j - n)) else get C i (j - (n + n))).
    unfold D. rewrite (@get_hstack n (n + n) n) by (auto; exact (@hstack_wf n n n _ _ (eye_wf n) WH)).
    destruct (Nat.ltb_spec j (n + n)); auto.
    rewrite (@get_hstack n n n) by (auto; apply eye_wf). destruct (Nat.ltb_spec j n); auto. unfold eye. now rewrite get_tab.
  Qed.
  Lemma T_dot i j : rdot (col D i) (col D j) = rsum n (fun k => ent D k i * ent D k j).
  Proof. rewrite (@rdot_sum n) by (rewrite col_len; apply T_wf). apply rsum_ext. intros k _. now rewrite !col_nth. Qed.
  Lemma T_block b i j : (b < 3)%nat -> (i < n)%nat -> (j < n)%nat ->
    rdot (col D (b * n + i)) (col D (b * n + j)) = if (i =? j)%nat then 1 else 0.
  Proof.
    intros Hb Hi Hj. rewrite T_dot. destruct b as [|[|[|b]]]; [| | |lia].
    - rewrite (@rsum_single n i); auto.
      + rewrite !T_ent by auto. cbn [Nat.mul Nat.add]. destruct (Nat.ltb_spec i (n + n)), (Nat.ltb_spec i n), (Nat.ltb_spec j (n + n)), (Nat.ltb_spec j n); try lia.
        rewrite Nat.eqb_refl. ring.
      + intros k Hk Hne. rewrite !T_ent by auto. cbn [Nat.mul Nat.add]. destruct (Nat.ltb_spec i (n + n)), (Nat.ltb_spec i n); try lia.
        destruct (Nat.eqb_spec k i); [lia|ring].
    - rewrite <- OH by auto. apply rsum_ext. intros k Hk. rewrite !T_ent by auto.
      destruct (Nat.ltb_spec (1 * n + i) (n + n)), (Nat.ltb_spec (1 * n + i) n), (Nat.ltb_spec (1 * n + j) (n + n)), (Nat.ltb_spec (1 * n + j) n); try lia.
      replace (1 * n + i - n)%nat with i by lia. replace (1 * n + j - n)%nat with j by lia. reflexivity.
    - rewrite <- OC by auto. apply rsum_ext. intros k Hk. rewrite !T_ent by auto.
      destruct (Nat.ltb_spec (2 * n + i) (n + n)), (Nat.ltb_spec (2 * n + j) (n + n)); try lia.
      replace (2 * n + i - (n + n))%nat with i by lia. replace (2 * n + j - (n + n))%nat with j by lia. reflexivity.
  Qed.
  Lemma T_unit : (0 < n)%nat -> unit_atoms n (3 * n) D.
  Proof.
    intros Hn. split; [replace (3 * n)%nat with (n + n + n)%nat by lia; exact T_wf|]. intros j Hj. unfold nrm2.
    assert (E : j = (j / n * n + j mod n)%nat) by (rewrite (Nat.mul_comm (j / n) n); apply Nat.div_mod; lia).
    rewrite E. rewrite T_block; [now rewrite Nat.eqb_refl|apply Nat.div_lt_upper_bound; lia| |]; apply Nat.mod_upper_bound; lia.
  Qed.
  Lemma T_ge i j : (i < n)%nat -> (j < n)%nat -> Rabs (get H i j) <= coherence D /\ Rabs (get C i j) <= coherence D.
  Proof.
    intros Hi Hj. assert (Hn : (0 < n)%nat) by lia. split.
    - pose proof (@coherence_ge n (n + n + n) D T_wf Hn i (n + j) ltac:(lia) ltac:(lia) ltac:(lia)) as Q. unfold corr in Q.
      rewrite T_dot, (@rsum_single n i) in Q; auto.
      + rewrite !T_ent in Q by auto. destruct (Nat.ltb_spec i (n + n)), (Nat.ltb_spec i n), (Nat.ltb_spec (n + j) (n + n)), (Nat.ltb_spec (n + j) n); try lia.
        rewrite Nat.eqb_refl, Rmult_1_l in Q. replace (n + j - n)%nat with j in Q by lia. exact Q.
      + intros k Hk Hne. rewrite (@T_ent k i) by auto. destruct (Nat.ltb_spec i (n + n)), (Nat.ltb_spec i n); try lia. destruct (Nat.eqb_spec k i); [lia|ring].
    - pose proof (@coherence_ge n (n + n + n) D T_wf Hn i (n + n + j) ltac:(lia) ltac:(lia) ltac:(lia)) as Q. unfold corr in Q.
      rewrite T_dot, (@rsum_single n i) in Q; auto.
      + rewrite !T_ent in Q by auto. destruct (Nat.ltb_spec i (n + n)), (Nat.ltb_spec i n), (Nat.ltb_spec (n + n + j) (n + n)); try lia.
        rewrite Nat.eqb_refl, Rmult_1_l in Q. replace (n + n + j - (n + n))%nat with j in Q by lia. exact Q.
      + intros k Hk Hne. rewrite (@T_ent k i) by auto. destruct (Nat.ltb_spec i (n + n)), (Nat.ltb_spec i n); try lia. destruct (Nat.eqb_spec k i); [lia|ring].
  Qed.
  Lemma T_col_H j : (j < n)%nat -> forall i, (i < n)%nat -> ent D i (n + j) = get H i j.
  Proof.
    intros Hj i Hi. rewrite T_ent by auto. destruct (Nat.ltb_spec (n + j) (n + n)), (Nat.ltb_spec (n + j) n); try lia. f_equal; lia.
  Qed.
  Lemma T_col_C j : (j < n)%nat -> forall i, (i < n)%nat -> ent D i (2 * n + j) = get C i j.
  Proof. intros Hj i Hi. rewrite T_ent by auto. destruct (Nat.ltb_spec (2 * n + j) (n + n)); try lia. f_equal; lia. Qed.
End Three.

Lemma three_bases n D : dirac_hadamard_cosine_basis n = Some D ->
  unit_atoms n (3 * n) D /\
  (forall b i j, (b < 3)%nat -> (i < n)%nat -> (j < n)%nat ->
     rdot (col D (b * n + i)) (col D (b * n + j)) = if (i =? j)%nat then 1 else 0) /\
  / sqrt (INR n) <= coherence D.
Proof.
  unfold dirac_hadamard_cosine_basis. destruct (hadamard_basis n) as [B|] eqn:E; [|discriminate]. intros [= <-].
  destruct (@hadamard_basis_spec n B E) as (W & Hn & _ & O & P). assert (WC := cosine_basis_wf n). destruct (@cosine_basis_orth n) as [O1 O2].
  split; [now apply T_unit|]. split; [intros; now apply T_block|]. rewrite <- (P 0%nat 0%nat) by auto. now apply T_ge.
Qed.
(** for n = 2 the first atom of the Hadamard basis is the first of the cosine basis *)
Lemma three_bases_two : exists D, dirac_hadamard_cosine_basis 2 = Some D /\ col D 2 = col D 4 /\ coherence D = 1.
Proof.
  assert (EX : exists B, hadamard_basis 2 = Some B) by (eexists; reflexivity). destruct EX as [B E].
  destruct (@hadamard_basis_spec 2 B E) as (W & _ & _ & O & P). assert (WC := cosine_basis_wf 2). destruct (@cosine_basis_orth 2) as [O1 O2].
  exists (hstack (hstack (eye 2) B) (cosine_basis_mat 2)). unfold dirac_hadamard_cosine_basis. rewrite E. split; [reflexivity|].
  set (D := hstack (hstack (eye 2) B) (cosine_basis_mat 2)).
  assert (S : shape 2 6 D) by exact (T_wf W WC).
  assert (EB : forall i, (i < 2)%nat -> get B i 0 = / sqrt (INR 2)).
  { unfold hadamard_basis in E. cbn in E. injection E as <-. intros [|[|i]] Hi; [| |lia]; cbn; ring. }
  assert (EC : forall i, (i < 2)%nat -> get (cosine_basis_mat 2) i 0 = / sqrt (INR 2)).
  { intros i Hi. rewrite cosine_basis_entry by lia. unfold dctk. destruct i as [|[|i]]; [| |lia]; cbn [Nat.eqb].
    - replace (PI * INR 0 * (2 * INR 0 + 1) / (2 * INR 2)) with 0 by (simpl; field). rewrite cos_0. ring.
    - replace (PI * INR 1 * (2 * INR 0 + 1) / (2 * INR 2)) with (PI / 4) by (simpl; field). rewrite cos_PI4.
      replace (2 / INR 2) with 1 by (simpl; field). rewrite sqrt_1. simpl (INR 2). replace (1 + 1) with 2 by ring. unfold Rdiv. ring. }
  assert (EQ : col D 2 = col D 4).
  { apply (nth_ext _ _ 0 0); rewrite !col_len; auto. destruct S as [S1 _]. intros i Hi. rewrite !col_nth.
    assert (Hi2 : (i < 2)%nat) by (rewrite <- S1; exact Hi).
    transitivity (get B i 0); [exact (@T_col_H 2 B _ W WC 0 ltac:(lia) i Hi2)|]. rewrite EB, <- (EC i) by auto.
    symmetry. exact (@T_col_C 2 B _ W WC 0 ltac:(lia) i Hi2). }
  split; [exact EQ|].
  assert (U : unit_atoms 2 6 D) by exact (T_unit W WC O O2 ltac:(lia)).
  apply Rle_antisym.
  - destruct (@coherence_attained 2 6 D S ltac:(lia) ltac:(lia)) as (i & j & Hi & Hj & _ & <-). eapply corr_le1; eauto.
  - pose proof (@coherence_ge 2 6 D S ltac:(lia) 2 4 ltac:(lia) ltac:(lia) ltac:(lia)) as Q. unfold corr in Q. rewrite <- EQ in Q.
    destruct U as [_ U]. specialize (U 2%nat ltac:(lia)). unfold nrm2 in U. rewrite U, Rabs_R1 in Q. exact Q.
Qed.
Lemma three_bases_atoms n D : dirac_hadamard_cosine_basis n = Some D ->
  exists H, hadamard_basis n = Some H /\ forall i j, (i < n)%nat -> (j < n)%nat ->
    ent D i j = (if (i =? j)%nat then 1 else 0) /\ ent D i (n + j) = entry H i j /\
    ent D i (2 * n + j) = (if (i =? 0)%nat then / sqrt (INR n) else sqrt (2 / INR n)) * cos (PI * INR i * (2 * INR j + 1) / (2 * INR n)).
Proof.
  unfold dirac_hadamard_cosine_basis. destruct (hadamard_basis n) as [B|] eqn:E; [|discriminate]. intros [= <-].
  destruct (@hadamard_basis_spec n B E) as (W & Hn & _ & O & P). assert (WC := cosine_basis_wf n).
  exists B. split; auto. intros i j Hi Hj. split; [|split].
  - rewrite (T_ent W WC) by auto. destruct (Nat.ltb_spec j (n + n)), (Nat.ltb_spec j n); auto; lia.
  - exact (T_col_H W WC Hj Hi).
  - rewrite (T_col_C W WC Hj Hi). now rewrite cosine_basis_entry.
Qed.
