(** Coherence of the union of the standard basis and an orthonormal basis. *)
From Coq Require Import List Arith Bool Lia Reals Lra.
From Verif Require Import Scalar Vec RVec RMat Loop BasisModel BasisSpec FourierProofs2 BasisProofs SelModel SelSpec SelProofs DictModel DictSpec DictProofs.
Import ListNotations.
Set Implicit Arguments.
Local Open Scope R_scope.
Section U.
  Variables (n : nat) (B : rmat).
  Hypothesis HB : wf n n B.
  Hypothesis Hn : (0 < n)%nat.
  Hypothesis HO : forall j j', (j < n)%nat -> (j' < n)%nat -> rsum n (fun i => get B i j * get B i j') = if (j =? j')%nat then 1 else 0.
  Let D := hstack (eye n) B.
  Lemma eye_wf : wf n n (eye n). Proof. apply tab_wf. Qed.
  Lemma D_wf : wf n (n + n) D. Proof. apply hstack_wf; [apply eye_wf|exact HB]. Qed.
  Lemma D_shape : shape n (n + n) D. Proof. exact D_wf. Qed.
  Lemma D_ent i j : (i < n)%nat -> ent D i j = if (j <? n)%nat then (if (i =? j)%nat then 1 else 0) else get B i (j - n).
  Proof.
    intros Hi. change (get D i j = if (j <? n)%nat then (if (i =? j)%nat then 1 else 0) else get B i (j - n)).
    unfold D. rewrite (@get_hstack n n n) by (auto; apply eye_wf). destruct (Nat.ltb_spec j n); auto.
    unfold eye. now rewrite get_tab.
  Qed.
  Lemma D_dot i j : rdot (col D i) (col D j) = rsum n (fun k => ent D k i * ent D k j).
  Proof.
    rewrite (@rdot_sum n) by (rewrite col_len; apply D_shape). apply rsum_ext. intros k _. now rewrite !col_nth.
  Qed.
  Lemma D_corr i j : (i < n + n)%nat -> (j < n + n)%nat ->
    rdot (col D i) (col D j) =
    if (i <? n)%nat then (if (j <? n)%nat then (if (i =? j)%nat then 1 else 0) else get B i (j - n))
    else (if (j <? n)%nat then get B j (i - n) else if (i =? j)%nat then 1 else 0).
  Proof.
    intros Hi Hj. rewrite D_dot. destruct (Nat.ltb_spec i n) as [Li|Li].
    - rewrite (@rsum_single n i); auto.
      + rewrite !D_ent by auto. destruct (Nat.ltb_spec i n); [|lia]. rewrite Nat.eqb_refl. ring.
      + intros k Hk Hne. rewrite (@D_ent k i) by auto. destruct (Nat.ltb_spec i n); [|lia]. destruct (Nat.eqb_spec k i); [lia|ring].
    - destruct (Nat.ltb_spec j n) as [Lj|Lj].
      + rewrite (@rsum_single n j); auto.
        * rewrite !D_ent by auto. destruct (Nat.ltb_spec i n); [lia|]. destruct (Nat.ltb_spec j n); [|lia]. rewrite Nat.eqb_refl. ring.
        * intros k Hk Hne. rewrite (@D_ent k j) by auto. destruct (Nat.ltb_spec j n); [|lia]. destruct (Nat.eqb_spec k j); [lia|ring].
      + rewrite (rsum_ext _ (fun k => get B k (i - n) * get B k (j - n))).
        * rewrite HO by lia. destruct (Nat.eqb_spec (i - n) (j - n)), (Nat.eqb_spec i j); auto; lia.
        * intros k Hk. rewrite !D_ent by auto. destruct (Nat.ltb_spec i n), (Nat.ltb_spec j n); auto; lia.
  Qed.
  Lemma union_unit : unit_atoms n (n + n) D.
  Proof.
    split; [exact D_shape|]. intros j Hj. unfold nrm2. rewrite D_corr by auto. rewrite Nat.eqb_refl. destruct (j <? n)%nat; auto.
  Qed.
  Lemma union_ge i j : (i < n)%nat -> (j < n)%nat -> Rabs (get B i j) <= coherence D.
  Proof.
    intros Hi Hj. pose proof (@coherence_ge n (n + n) D D_shape Hn i (n + j) ltac:(lia) ltac:(lia) ltac:(lia)) as Q.
    unfold corr in Q. rewrite D_corr in Q by lia. destruct (Nat.ltb_spec i n); [|lia]. destruct (Nat.ltb_spec (n + j) n); [lia|].
    replace (n + j - n)%nat with j in Q by lia. exact Q.
  Qed.
  Lemma union_le c : 0 <= c -> (forall i j, (i < n)%nat -> (j < n)%nat -> Rabs (get B i j) <= c) -> coherence D <= c.
  Proof.
    intros Hc H. destruct (@coherence_attained n (n + n) D D_shape Hn ltac:(lia)) as (i & j & Hi & Hj & Hne & <-).
    unfold corr. rewrite D_corr by auto.
    destruct (Nat.ltb_spec i n), (Nat.ltb_spec j n), (Nat.eqb_spec i j); try lia; try (rewrite Rabs_R0; lra); apply H; lia.
  Qed.
End U.
Lemma dirac_hadamard_coherence n D : dirac_hadamard_basis n = Some D -> unit_atoms n (n + n) D /\ coherence D = / sqrt (INR n).
Proof.
  unfold dirac_hadamard_basis. destruct (hadamard_basis n) as [B|] eqn:E; [|discriminate]. intros [= <-].
  destruct (@hadamard_basis_spec n B E) as (W & Hn & _ & O & P). split; [now apply union_unit|].
  assert (Q : 0 <= / sqrt (INR n)) by (rewrite <- (P 0%nat 0%nat) by auto; apply Rabs_pos).
  apply Rle_antisym.
  - apply union_le; auto. intros i j Hi Hj. rewrite P by auto. lra.
  - rewrite <- (P 0%nat 0%nat) by auto. now apply union_ge.
Qed.
Lemma dirac_cosine_coherence n : (0 < n)%nat -> unit_atoms n (n + n) (dirac_cosine_basis n) /\ coherence (dirac_cosine_basis n) <= sqrt (2 / INR n).
Proof.
  intros Hn. assert (W := cosine_basis_wf n). destruct (@cosine_basis_orth n) as [O1 O2].
  split; [now apply union_unit|]. apply union_le; auto; [apply sqrt_pos|]. intros i j Hi Hj. rewrite cosine_basis_entry by auto.
  assert (P : 0 < INR n) by (apply lt_0_INR; lia).
  unfold dctk. rewrite Rabs_mult.
  assert (C : forall t, Rabs (cos t) <= 1) by (intros t; apply Rabs_le; apply COS_bound).
  set (w := if (i =? 0)%nat then _ else _).
  assert (Hw : 0 <= w <= sqrt (2 / INR n)).
  { unfold w. destruct (i =? 0)%nat; split.
    - left. apply Rinv_0_lt_compat, sqrt_lt_R0, P.
    - rewrite <- sqrt_inv. apply sqrt_le_1_alt. unfold Rdiv. pose proof (Rinv_0_lt_compat _ P). lra.
    - apply sqrt_pos.
    - lra. }
  rewrite (Rabs_right w) by lra. specialize (C (PI * INR i * (2 * INR j + 1) / (2 * INR n))).
  apply Rle_trans with (w * 1); [|lra]. apply Rmult_le_compat_l; [lra|exact C].
Qed.
(** *** matching_atoms_ratio *)
Section Match.
  Variables (m p q : nat) (A B : mat) (t : R).
  Hypothesis HA : shape m p A.
  Hypothesis HB : shape m q B.
  Hypothesis Hm : (0 < m)%nat.
  Hypothesis Hp : (0 < p)%nat.
  Hypothesis Hq : (0 < q)%nat.
  Lemma match_flag i : (i < p)%nat ->
    (Rltb (1 - vmax (tab q (fun j => Rabs (rdot (col A i) (col B j))))) t = true <->
     exists j, (j < q)%nat /\ 1 - Rabs (rdot (col A i) (col B j)) < t).
  Proof.
    intros Hi. set (l := tab q (fun j => Rabs (rdot (col A i) (col B j)))).
    assert (NE : l <> []) by (unfold l; destruct q; [lia|discriminate]).
    destruct (vmax_spec NE) as [V1 V2]. destruct (Rltb_spec (1 - vmax l) t) as [H|H]; split; try easy; auto.
    - intros _. apply (In_nth _ _ 0) in V1 as [j [Hj E]]. unfold l in Hj. rewrite tab_length in Hj.
      exists j. split; auto. unfold l in E at 1. rewrite nth_tab in E by auto. rewrite E. auto.
    - intros [j [Hj Q]]. exfalso. assert (Rabs (rdot (col A i) (col B j)) <= vmax l); [|lra].
      apply V2. unfold l, tab. apply in_map_iff. exists j. split; auto. apply in_seq. lia.
  Qed.
  Lemma match_ratio (M : nat -> bool) :
    (forall i, (i < p)%nat -> (M i = true <-> exists j, (j < q)%nat /\ 1 - Rabs (rdot (col A i) (col B j)) < t)) ->
    matching_atoms_ratio A B t = INR (length (filter M (seq 0 p))) / INR p.
  Proof.
    intros HM. unfold matching_atoms_ratio. rewrite (ncols_shape HA Hm). f_equal. f_equal.
    unfold cross. rewrite (ncols_shape HA Hm), (ncols_shape HB Hm). unfold tab at 1. rewrite !map_map.
    assert (G : forall l, (forall i, In i l -> (i < p)%nat) ->
      length (filter (fun b : bool => b) (map (fun i => Rltb (1 - vmax (map Rabs (tab q (fun j => rdot (col A i) (col B j))))) t) l)) = length (filter M l)).
    { induction l as [|i l IH]; intros H; auto. cbn [map filter].
      assert (E : Rltb (1 - vmax (map Rabs (tab q (fun j => rdot (col A i) (col B j))))) t = M i).
      { unfold tab. rewrite map_map. change (map (fun x => Rabs (rdot (col A i) (col B x))) (seq 0 q)) with (tab q (fun j => Rabs (rdot (col A i) (col B j)))).
        pose proof (@match_flag i (H i (or_introl eq_refl))) as F. pose proof (HM i (H i (or_introl eq_refl))) as F'.
        apply Bool.eq_true_iff_eq. rewrite F. symmetry. apply F'. }
      rewrite E. destruct (M i); cbn [length]; rewrite IH; auto; intros; apply H; now right. }
    apply G. intros i Hi. apply in_seq in Hi. lia.
  Qed.
End Match.
Lemma match_self m n A t : unit_atoms m n A -> (0 < n)%nat -> 0 < t -> matching_atoms_ratio A A t = 1.
Proof.
  intros HA Hn Ht. assert (Hm := unit_pos HA Hn). assert (P : 0 < INR n) by (apply lt_0_INR; lia).
  rewrite (@match_ratio m n n A A t (proj1 HA) (proj1 HA) Hm Hn Hn (fun _ => true)).
  - assert (E : filter (fun _ : nat => true) (seq 0 n) = seq 0 n).
    { generalize (seq 0 n). induction l as [|i l IH]; simpl; auto. now rewrite IH. }
    rewrite E, seq_length. field. lra.
  - intros i Hi. split; auto. intros _. exists i. split; auto. fold (corr A i i). rewrite (corr_self HA Hi). lra.
Qed.
Lemma sel_hyps : top_selection (map Rabs [1; -3; 2]) 2 (largest_indices [1; -3; 2] 2) /\ unit_atoms 2 2 [[1; 0]; [0; 1]].
Proof.
  split; [apply largest_top; simpl; lia|]. split; [split; auto; intros r [<-|[<-|[]]]; auto|].
  intros [|[|j]] Hj; try lia; cbv -[Rplus Rmult R0 R1 IZR]; ring.
Qed.
