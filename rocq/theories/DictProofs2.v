From Coq Require Import List Arith Bool Lia Reals Lra.
From Verif Require Import Scalar Vec RVec RMat Loop SelModel SelSpec SelProofs DictModel DictSpec DictProofs.
Import ListNotations.
Set Implicit Arguments.
Local Open Scope R_scope.

Lemma rsum_prod m n f g : rsum m f * rsum n g = rsum m (fun k => rsum n (fun l => f k * g l)).
Proof. rewrite <- rsum_mul_r. apply rsum_ext. intros k _. now rewrite <- rsum_mul_l. Qed.
Lemma rsum_cauchy m f : rsum m f * rsum m f <= INR m * rsum m (fun k => f k * f k).
Proof.
  pose proof (cauchy_sq (tab m f) (tab m (fun _ => 1))) as H.
  assert (E : forall g h, rdot (tab m g) (tab m h) = rsum m (fun k => g k * h k)).
  { intros g h. rewrite (@rdot_sum m) by apply tab_length. apply rsum_ext. intros k Hk. now rewrite !nth_tab. }
  rewrite !E, rsum_const in H. rewrite (rsum_ext (fun k => f k * 1) f) in H by (intros; ring). lra.
Qed.
Section W.
  Variables (m n : nat) (A : mat).
  Hypothesis HA : unit_atoms m n A.
  Let a k i := ent A k i.
  Let G i j := rsum m (fun k => a k i * a k j).
  Let W k l := rsum n (fun i => a k i * a l i).
  Lemma G_eq i j : rdot (col A i) (col A j) = G i j.
  Proof.
    destruct HA as [[L _] _]. rewrite (@rdot_sum m) by (rewrite col_len; auto). apply rsum_ext. intros k _. now rewrite !col_nth.
  Qed.
  Lemma frob : rsum n (fun i => rsum n (fun j => G i j * G i j)) = rsum m (fun k => rsum m (fun l => W k l * W k l)).
  Proof.
    transitivity (rsum n (fun i => rsum n (fun j => rsum m (fun k => rsum m (fun l => a k i * a k j * (a l i * a l j)))))).
    - apply rsum_ext. intros i _. apply rsum_ext. intros j _. apply rsum_prod.
    - transitivity (rsum m (fun k => rsum m (fun l => rsum n (fun i => rsum n (fun j => a k i * a l i * (a k j * a l j)))))).
      + transitivity (rsum n (fun i => rsum m (fun k => rsum m (fun l => rsum n (fun j => a k i * a k j * (a l i * a l j)))))).
        * apply rsum_ext. intros i _. rewrite rsum_exchange. apply rsum_ext. intros k _. apply rsum_exchange.
        * rewrite rsum_exchange. apply rsum_ext. intros k _. rewrite rsum_exchange. apply rsum_ext. intros l _.
          apply rsum_ext. intros i _. apply rsum_ext. intros j _. ring.
      + apply rsum_ext. intros k _. apply rsum_ext. intros l _. symmetry. unfold W. apply rsum_prod.
  Qed.
  Lemma trace_W : rsum m (fun k => W k k) = INR n.
  Proof.
    unfold W. rewrite rsum_exchange. rewrite <- (Rmult_1_r (INR n)), <- rsum_const. apply rsum_ext. intros i Hi.
    change (G i i = 1). rewrite <- G_eq. apply (proj2 HA i Hi).
  Qed.
  Lemma frob_lower : INR n * INR n <= INR m * rsum n (fun i => rsum n (fun j => G i j * G i j)).
  Proof.
    rewrite frob, <- trace_W. eapply Rle_trans; [apply rsum_cauchy|]. apply Rmult_le_compat_l; [apply pos_INR|].
    apply rsum_le. intros k Hk. apply (rsum_ge_term (fun l => W k l * W k l) Hk). intros l _. apply Rle_0_sqr.
  Qed.
  Lemma frob_upper mu : 0 <= mu -> (forall i j, (i < n)%nat -> (j < n)%nat -> i <> j -> corr A i j <= mu) ->
    rsum n (fun i => rsum n (fun j => G i j * G i j)) <= INR n * (1 + (INR n - 1) * (mu * mu)).
  Proof.
    intros Hmu H. rewrite <- rsum_const. apply rsum_le. intros i Hi.
    assert (E : rsum n (fun j => (if (j =? i)%nat then 1 - mu * mu else 0) + mu * mu) = 1 + (INR n - 1) * (mu * mu)).
    { rewrite rsum_add, rsum_const, (@rsum_single n i) by (auto; intros j _ Hj; destruct (Nat.eqb_spec j i); congruence).
      rewrite Nat.eqb_refl. ring. }
    rewrite <- E. apply rsum_le. intros j Hj. destruct (Nat.eqb_spec j i) as [->|Hne].
    - assert (G1 : G i i = 1) by (rewrite <- G_eq; apply (proj2 HA i Hi)). rewrite G1. lra.
    - assert (C : corr A i j <= mu) by auto. unfold corr in C. rewrite G_eq in C. rewrite Rplus_0_l.
      pose proof (Rabs_pos (G i j)). replace (G i j * G i j) with (Rabs (G i j) * Rabs (G i j)); [apply Rmult_le_compat; auto|].
      rewrite <- Rabs_mult. apply Rabs_right. pose proof (Rle_0_sqr (G i j)). unfold Rsqr in *. lra.
  Qed.
  Lemma welch : (2 <= n)%nat -> (m <= n)%nat -> exists w, minimum_coherence m n = Some w /\ w <= coherence A.
  Proof.
    intros Hn Hmn. assert (Hm : (0 < m)%nat) by (apply (unit_pos HA); lia).
    assert (Pm : 0 < INR m) by (apply lt_0_INR; lia).
    assert (P2 : 2 <= INR n) by (apply (le_INR 2); lia). assert (Pmn : INR m <= INR n) by (apply le_INR; lia).
    assert (Pd : 0 < INR m * (INR n - 1)) by (apply Rmult_lt_0_compat; lra).
    assert (C0 : 0 <= coherence A) by (apply (coherence_pos (proj1 HA) Hm); lia).
    assert (Q : (INR n - INR m) / (INR m * (INR n - 1)) <= coherence A * coherence A).
    { pose proof (@frob_upper (coherence A) C0 (@coherence_ge m n A (proj1 HA) Hm)) as U. pose proof frob_lower as L.
      set (F := rsum n (fun i => rsum n (fun j => G i j * G i j))) in *. set (mu := coherence A * coherence A) in *.
      apply Rmult_le_reg_r with (INR m * (INR n - 1)); auto. unfold Rdiv. rewrite Rmult_assoc, Rinv_l, Rmult_1_r by lra.
      assert (INR n * INR n <= INR m * (INR n * (1 + (INR n - 1) * mu))).
      { eapply Rle_trans; [exact L|]. apply Rmult_le_compat_l; lra. }
      apply Rmult_le_reg_l with (INR n); [lra|]. lra. }
    exists (sqrt ((INR n - INR m) / (INR m * (INR n - 1)))). split.
    - unfold minimum_coherence. destruct (Reqb_spec (INR m * (INR n - 1)) 0); [lra|].
      destruct (Rltb_spec ((INR n - INR m) / (INR m * (INR n - 1))) 0) as [X|X]; auto. exfalso.
      assert (0 <= (INR n - INR m) / (INR m * (INR n - 1))); [|lra]. apply Rmult_le_pos; [lra|]. left. now apply Rinv_0_lt_compat.
    - apply sq_le; auto. rewrite sqrt_sqrt; auto. apply Rmult_le_pos; [lra|]. left. now apply Rinv_0_lt_compat.
  Qed.
End W.
(** *** mutual coherence *)
Section Mutual.
  Variables (m p q : nat) (A B : mat).
  Hypothesis HA : shape m p A.
  Hypothesis HB : shape m q B.
  Hypothesis Hm : (0 < m)%nat.
  Hypothesis Hp : (0 < p)%nat.
  Hypothesis Hq : (0 < q)%nat.
  Lemma mutual_spec : let (i, j) := snd (mutual_coherence_with_index A B) in
    (i < p)%nat /\ (j < q)%nat /\ Rabs (rdot (col A i) (col B j)) = mutual_coherence A B /\
    forall i j, (i < p)%nat -> (j < q)%nat -> Rabs (rdot (col A i) (col B j)) <= mutual_coherence A B.
  Proof.
    unfold mutual_coherence, mutual_coherence_with_index. cbv zeta. cbn [fst snd]. unfold unravel. cbn [fst snd].
    rewrite (ncols_shape HB Hm). set (f := fun i j => Rabs (rdot (col A i) (col B j))).
    assert (E : map (map Rabs) (cross A B) = tab p (fun i => tab q (f i))).
    { unfold cross. rewrite (ncols_shape HA Hm), (ncols_shape HB Hm). unfold tab. rewrite map_map. apply map_ext. intros i. now rewrite map_map. }
    rewrite E. destruct (@flat_argmax p q f Hp Hq) as [B1 [B2 B3]].
    rewrite tab2_ent by auto. repeat split; auto.
  Qed.
End Mutual.
(** *** complex dictionaries: two atoms e and i*e are parallel, their Gram entry is purely imaginary *)
Definition parallel_atoms : list (list Cx) := [[(1, 0); (0, 1)]].
Lemma coherence_complex_wrong :
  (exists c : Cx, Cnsq c = 1 /\ @inner Cs (ccol parallel_atoms 0) (ccol parallel_atoms 1) = c) /\
  coherence_complex parallel_atoms = 0.
Proof.
  split.
  - exists (0, 1). split; [unfold Cnsq; simpl; ring|]. cbv -[Rplus Rmult Rminus Ropp R0 R1 IZR]. f_equal; lra.
  - unfold coherence_complex, gram_coherence. cbn [fst snd].
    assert (E : gram_complex parallel_atoms = [[1; 0]; [0; 1]]).
    { cbv -[Rplus Rmult Rminus Ropp R0 R1 IZR]. repeat f_equal; lra. }
    rewrite E. unfold tab. cbn [length seq map ent nth Nat.eqb concat app]. rewrite !Rabs_R0.
    unfold argmax. cbn [argmax_from]. destruct (Rltb_spec 0 0); [lra|]. reflexivity.
Qed.
