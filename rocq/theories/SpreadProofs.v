(** Proofs about the spread operator. *)
From Coq Require Import List Arith ZArith Lia Bool Reals Lra.
From Verif Require Import RVec SpreadModel SpreadSpec.
Import ListNotations.
Local Open Scope R_scope.

Lemma add_columns_at nt nan (e : nat -> option Z) v n : forall y r t, (t < nt)%nat ->
  (forall k, (k < n)%nat -> match e k with Some z => (0 <= z <= Z.of_nat nt)%Z | None => True end) ->
  add_columns nt y (map (fun k => (as_int nan (e k), v * not_nan (e k))) (seq 0 n)) r t = y r t + v * rsum n (fun k => hits (e k) t).
Proof.
  unfold add_columns. induction n as [|n IH]; intros y r t Ht E; [cbn; ring|].
  rewrite seq_S, map_app, fold_left_app. cbn [map fold_left fst snd Nat.add].
  cbn [rsum]. rewrite Rmult_plus_distr_l, <- Rplus_assoc.
  rewrite <- (IH y r t Ht) by (intros k Hk; apply E; lia).
  generalize (fold_left (fun y p => add_column nt y (fst p) (snd p)) (map (fun k => (as_int nan (e k), v * not_nan (e k))) (seq 0 n)) y). intros w.
  specialize (E n (Nat.lt_succ_diag_r n)). unfold add_column, norm_index, hits. destruct (e n) as [z|]; cbn [as_int not_nan].
  - replace (z <? 0)%Z with false by (symmetry; apply Z.ltb_ge; lia). replace (0 <=? z)%Z with true by (symmetry; apply Z.leb_le; lia).
    cbn [andb]. destruct (z <? Z.of_nat nt)%Z eqn:L.
    + destruct (Nat.eqb t (Z.to_nat z)) eqn:Q; [apply Nat.eqb_eq in Q|apply Nat.eqb_neq in Q]; destruct (Z.eq_dec z (Z.of_nat t)); try lia; lra.
    + apply Z.ltb_ge in L. destruct (Z.eq_dec z (Z.of_nat t)); [lia|lra].
  - match goal with |- context [if ?b then Some ?a else None] => destruct b end; [|lra].
    match goal with |- context [Nat.eqb t ?c] => destruct (Nat.eqb t c) end; lra.
Qed.

Lemma fold_sum (add : (nat -> nat -> R) -> nat -> (nat -> nat -> R)) (f : nat -> R) r t n :
  (forall y k, (k < n)%nat -> add y k r t = y r t + f k) ->
  forall y, fold_left add (seq 0 n) y r t = y r t + rsum n f.
Proof.
  induction n as [|n IH]; intros H y; [cbn; ring|].
  rewrite seq_S, fold_left_app. cbn [fold_left Nat.add rsum]. rewrite H by lia. rewrite IH by (intros; apply H; lia). ring.
Qed.

(** what is computed, for entries between 0 and nt_out *)
Lemma spread_times_entries nan nx_in nt_in nx_out nt_out table x : length x = (nx_in * nt_in)%nat ->
  entries nx_in nt_in nx_out table (fun z => (0 <= z <= Z.of_nat nt_out)%Z) ->
  exists y, spread_times true nan nx_in nt_in nx_out nt_out table x = Some y /\
    forall r t, (t < nt_out)%nat -> y r t = rsum nx_out (fun k => documented_spread nx_in nt_in table x k t).
Proof.
  intros L E. unfold spread_times. rewrite L, Nat.eqb_refl. cbn [negb andb]. eexists. split; [reflexivity|]. intros r t Ht.
  rewrite (fold_sum _ (fun it => rsum nx_in (fun ix => sample nt_in x ix it * rsum nx_out (fun k => hits (table ix it k) t))) r t nt_in).
  - rewrite Rplus_0_l. etransitivity; [apply rsum_exchange|]. symmetry. unfold documented_spread.
    etransitivity; [apply rsum_exchange|]. apply rsum_ext. intros ix Hi.
    etransitivity; [apply rsum_exchange|]. apply rsum_ext. intros it Hj. apply rsum_mul_l.
  - intros y it Hj. apply fold_sum. intros w ix Hi. apply add_columns_at; [auto|]. intros k Hk. apply E; auto.
Qed.

Lemma any_above_spec nx nt no t b : any_above nx nt no t b = false <-> entries nx nt no t (fun z => (z <= b)%Z).
Proof.
  unfold any_above, entries. split.
  - intros H i j k Hi Hj Hk. destruct (t i j k) as [z|] eqn:Q; auto. destruct (Z_le_gt_dec z b) as [|G]; auto. exfalso.
    assert (X : any_above nx nt no t b = true).
    { unfold any_above. apply existsb_exists. exists i. split; [apply in_seq; lia|]. apply existsb_exists. exists j. split; [apply in_seq; lia|].
      apply existsb_exists. exists k. split; [apply in_seq; lia|]. rewrite Q. apply Z.ltb_lt. lia. }
    unfold any_above in X. congruence.
  - intros H. destruct (existsb _ _) eqn:X; auto. exfalso.
    apply existsb_exists in X as (i & Hi & X). apply existsb_exists in X as (j & Hj & X). apply existsb_exists in X as (k & Hk & X).
    apply in_seq in Hi. apply in_seq in Hj. apply in_seq in Hk.
    specialize (H i j k ltac:(lia) ltac:(lia) ltac:(lia)). destruct (t i j k) as [z|]; [apply Z.ltb_lt in X; lia|discriminate].
Qed.
Lemma shape_eqb_spec a b : shape_eqb a b = true <-> a = b.
Proof.
  destruct a as [[a1 a2] a3], b as [[b1 b2] b3]. unfold shape_eqb. rewrite !andb_true_iff, !Nat.eqb_eq. split.
  - intros [[-> ->] ->]. reflexivity.
  - intros E. injection E as -> -> ->. auto.
Qed.
Lemma accepts np nan nx_in nt_in nx_out nt_out table dtable :
  (exists T, spread_with_table np nan (nx_in, nt_in) (nx_out, nt_out) table dtable = SpreadOk T) <->
  t_shape table = (nx_in, nt_in, nx_out) /\ t_shape dtable = (nx_in, nt_in, nx_out) /\
  entries nx_in nt_in nx_out (t_val table) (fun z => (z <= Z.of_nat nt_out)%Z).
Proof.
  unfold spread_with_table. rewrite <- any_above_spec.
  destruct (shape_eqb (t_shape table) _) eqn:A; cbn [negb].
  - apply shape_eqb_spec in A. destruct (any_above _ _ _ _ _) eqn:B.
    + split; [intros [T HT]; discriminate|intros (_ & _ & X); discriminate].
    + destruct (shape_eqb (t_shape dtable) _) eqn:D; cbn [negb].
      * apply shape_eqb_spec in D. split; eauto.
      * split; [intros [T HT]; discriminate|]. intros (_ & X & _). apply shape_eqb_spec in X. congruence.
  - split; [intros [T HT]; discriminate|]. intros (X & _). apply shape_eqb_spec in X. congruence.
Qed.
Lemma accepted np nan nx_in nt_in nx_out nt_out table dtable T :
  spread_with_table np nan (nx_in, nt_in) (nx_out, nt_out) table dtable = SpreadOk T ->
  entries nx_in nt_in nx_out (t_val table) (fun z => (z <= Z.of_nat nt_out)%Z) /\
  T = SpreadOp (spread_times np nan nx_in nt_in nx_out nt_out (t_val table)) spread_trans ((nx_out, nt_out), (nx_in, nt_in)).
Proof.
  intros H. split.
  - apply (proj1 (accepts np nan nx_in nt_in nx_out nt_out table dtable)). eauto.
  - unfold spread_with_table in H. destruct (negb _); [discriminate|]. destruct (any_above _ _ _ _ _); [discriminate|]. destruct (negb _); congruence.
Qed.
Lemma entries_and nx nt no t P Q : entries nx nt no t P -> entries nx nt no t Q -> entries nx nt no t (fun z => P z /\ Q z).
Proof. intros HP HQ i j k Hi Hj Hk. specialize (HP i j k Hi Hj Hk). specialize (HQ i j k Hi Hj Hk). destruct (t i j k); auto. Qed.
Lemma hits_sum e nt : match e with Some z => (0 <= z < Z.of_nat nt)%Z | None => True end ->
  rsum nt (fun t => hits e t) = match e with Some _ => 1 | None => 0 end.
Proof.
  intros H. unfold hits. destruct e as [z|].
  - rewrite (@rsum_single nt (Z.to_nat z)).
    + destruct (Z.eq_dec z (Z.of_nat (Z.to_nat z))); [auto|lia].
    + lia.
    + intros i Hi Ne. destruct (Z.eq_dec z (Z.of_nat i)); [lia|auto].
  - apply rsum_0.
Qed.
Lemma documented_linear nx nt t x1 x2 a k c : length x1 = length x2 ->
  documented_spread nx nt t (radd (rscale a x1) x2) k c = a * documented_spread nx nt t x1 k c + documented_spread nx nt t x2 k c.
Proof.
  intros L. unfold documented_spread. rewrite <- rsum_mul_l, <- rsum_add. apply rsum_ext. intros i Hi.
  rewrite <- rsum_mul_l, <- rsum_add. apply rsum_ext. intros j Hj. unfold sample.
  rewrite radd_nth; [rewrite rscale_nth; ring|now rewrite rscale_len].
Qed.
