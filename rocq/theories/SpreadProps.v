(** C99: the spread operator. *)
From Coq Require Import List Arith ZArith Lia Bool Reals Lra.
From Verif Require Import RVec SpreadModel SpreadSpec SpreadProofs.
Import ListNotations.
Local Open Scope R_scope.

(** The constructor accepts exactly the tables of the right shape whose entries
    are at most nt_out, and the operator has the advertised shape. *)
Theorem C99_accepts np nan nx_in nt_in nx_out nt_out table dtable :
  (exists T, spread_with_table np nan (nx_in, nt_in) (nx_out, nt_out) table dtable = SpreadOk T /\ sp_shape T = ((nx_out, nt_out), (nx_in, nt_in))) <->
  t_shape table = (nx_in, nt_in, nx_out) /\ t_shape dtable = (nx_in, nt_in, nx_out) /\
  entries nx_in nt_in nx_out (t_val table) (fun z => (z <= Z.of_nat nt_out)%Z).
Proof.
  rewrite <- (accepts np nan nx_in nt_in nx_out nt_out table dtable). split.
  - intros (T & H & _). eauto.
  - intros (T & H). exists T. split; auto. apply accepted in H as [_ ->]. reflexivity.
Qed.
Print Assumptions C99_accepts.
(** The error message says that all values must be smaller than nt_out; the value
    nt_out itself, which names no column, is accepted and its sample is lost. *)
Theorem C99_boundary_refuted np nan nx_in nt_in nx_out nt_out dtable table : (0 < nx_in)%nat -> (0 < nt_in)%nat -> (0 < nx_out)%nat ->
  t_shape table = (nx_in, nt_in, nx_out) -> t_shape dtable = (nx_in, nt_in, nx_out) ->
  (forall i j k, t_val table i j k = Some (Z.of_nat nt_out)) ->
  ~ entries nx_in nt_in nx_out (t_val table) (fun z => (z < Z.of_nat nt_out)%Z) /\
  exists T, spread_with_table np nan (nx_in, nt_in) (nx_out, nt_out) table dtable = SpreadOk T /\
  forall x y, length x = (nx_in * nt_in)%nat -> sp_times T x = Some y -> forall r t, (t < nt_out)%nat -> y r t = 0.
Proof.
  intros Hx Ht Ho S1 S2 V. split.
  - intros E. specialize (E 0 0 0 Hx Ht Ho)%nat. rewrite V in E. lia.
  - destruct (proj2 (accepts np nan nx_in nt_in nx_out nt_out table dtable)) as [T H].
    { repeat split; auto. intros i j k _ _ _. rewrite V. lia. }
    exists T. split; auto. apply accepted in H as [_ ->]. cbn [sp_times]. intros x y L Y r t Hc.
    assert (np = true) as ->. { destruct np; auto. unfold spread_times in Y. rewrite L, Nat.eqb_refl in Y. destruct (Nat.eqb_spec (nx_in * nt_in) 0); cbn in Y; [nia|discriminate]. }
    destruct (spread_times_entries nan nx_in nt_in nx_out nt_out (t_val table) x L) as (y' & Y' & F).
    { intros i j k _ _ _. rewrite V. lia. }
    rewrite Y in Y'. injection Y' as <-. rewrite (F r t Hc). apply rsum_0'. intros k _. unfold documented_spread.
    apply rsum_0'. intros i _. apply rsum_0'. intros j _. rewrite V. unfold hits. destruct (Z.eq_dec _ _); [lia|ring].
Qed.
Print Assumptions C99_boundary_refuted.

(** What the forward map computes, for an accepted table without negative
    entries: every output row holds the sum of all the documented rows.  The
    value to which the platform converts NaN does not matter. *)
Theorem C99_computes nan nx_in nt_in nx_out nt_out table dtable T x :
  spread_with_table true nan (nx_in, nt_in) (nx_out, nt_out) table dtable = SpreadOk T ->
  entries nx_in nt_in nx_out (t_val table) (fun z => (0 <= z)%Z) -> length x = (nx_in * nt_in)%nat ->
  exists y, sp_times T x = Some y /\
  forall r t, (t < nt_out)%nat -> y r t = rsum nx_out (fun k => documented_spread nx_in nt_in (t_val table) x k t).
Proof.
  intros H N L. apply accepted in H as [E ->]. apply spread_times_entries; auto. exact (entries_and _ _ _ _ _ _ N E).
Qed.
Print Assumptions C99_computes.
(** One output row: the documented map. *)
Theorem C99_documented_partial nan nx_in nt_in nt_out table dtable T x :
  spread_with_table true nan (nx_in, nt_in) (1%nat, nt_out) table dtable = SpreadOk T ->
  entries nx_in nt_in 1 (t_val table) (fun z => (0 <= z)%Z) -> length x = (nx_in * nt_in)%nat ->
  exists y, sp_times T x = Some y /\ forall t, (t < nt_out)%nat -> y 0%nat t = documented_spread nx_in nt_in (t_val table) x 0 t.
Proof.
  intros H N L. destruct (C99_computes nan nx_in nt_in 1 nt_out table dtable T x H N L) as (y & Y & F). exists y. split; auto.
  intros t Ht. rewrite (F 0%nat t Ht). cbn [rsum]. ring.
Qed.
Print Assumptions C99_documented_partial.
(** More output rows: the documented map is computed only for inputs of which
    all documented rows together amount to each of them ... *)
Theorem C99_documented_iff nan nx_in nt_in nx_out nt_out table dtable T x y :
  spread_with_table true nan (nx_in, nt_in) (nx_out, nt_out) table dtable = SpreadOk T ->
  entries nx_in nt_in nx_out (t_val table) (fun z => (0 <= z)%Z) -> length x = (nx_in * nt_in)%nat -> sp_times T x = Some y -> (2 <= nx_out)%nat ->
  ((forall k t, (k < nx_out)%nat -> (t < nt_out)%nat -> y k t = documented_spread nx_in nt_in (t_val table) x k t) <->
   (forall k t, (k < nx_out)%nat -> (t < nt_out)%nat -> documented_spread nx_in nt_in (t_val table) x k t = 0)).
Proof.
  intros H N L Y O. destruct (C99_computes nan nx_in nt_in nx_out nt_out table dtable T x H N L) as (y' & Y' & F).
  rewrite Y in Y'. injection Y' as <-. split.
  - intros D k t Hk Ht.
    assert (Same : forall r, (r < nx_out)%nat -> documented_spread nx_in nt_in (t_val table) x r t = documented_spread nx_in nt_in (t_val table) x k t).
    { intros r Hr. rewrite <- (D r t Hr Ht), <- (D k t Hk Ht), (F r t Ht), (F k t Ht). reflexivity. }
    pose proof (D k t Hk Ht) as Q. rewrite (F k t Ht) in Q.
    rewrite (@rsum_ext nx_out _ (fun _ => documented_spread nx_in nt_in (t_val table) x k t)) in Q by exact Same.
    rewrite rsum_const in Q. apply le_INR in O. cbn in O. nra.
  - intros Z k t Hk Ht. rewrite (F k t Ht), (Z k t Hk Ht). apply rsum_0'. intros r Hr. apply Z; auto.
Qed.
Print Assumptions C99_documented_iff.
(** ... so it is not the documented map *)
Theorem C99_documented_refuted : exists nx_in nt_in nx_out nt_out table dtable T x y,
  spread_with_table true 0 (nx_in, nt_in) (nx_out, nt_out) table dtable = SpreadOk T /\
  entries nx_in nt_in nx_out (t_val table) (fun z => (0 <= z < Z.of_nat nt_out)%Z) /\
  sp_times T x = Some y /\ y 0%nat 1%nat = 1 /\ documented_spread nx_in nt_in (t_val table) x 0 1 = 0.
Proof.
  set (tb := Table3 (1, 1, 2)%nat (fun _ _ k => Some (Z.of_nat k))).
  exists 1%nat, 1%nat, 2%nat, 2%nat, tb, tb, (SpreadOp (spread_times true 0 1 1 2 2 (t_val tb)) spread_trans ((2, 2)%nat, (1, 1)%nat)), [1].
  eexists. split; [reflexivity|]. split.
  { intros i j k Hi Hj Hk. cbn. lia. }
  split; [reflexivity|]. split; [cbn; change (0 + 1 * 1 = 1); ring|].
  unfold documented_spread, sample, hits. cbn [t_val tb rsum nth Nat.mul Nat.add]. destruct (Z.eq_dec _ _); [lia|ring].
Qed.
Print Assumptions C99_documented_refuted.
(** In any case (negative entries too) all output rows are equal. *)
Theorem C99_rows_equal np nan nx_in nt_in nx_out nt_out table dtable T x y r r' t :
  spread_with_table np nan (nx_in, nt_in) (nx_out, nt_out) table dtable = SpreadOk T -> sp_times T x = Some y -> y r t = y r' t.
Proof.
  intros H Y. apply accepted in H as [_ ->]. cbn [sp_times] in Y. unfold spread_times in Y.
  destruct (negb _); [discriminate|]. destruct (_ && _); [discriminate|]. injection Y as <-.
  assert (P : (fun y : nat -> nat -> R => y r t = y r' t) (fun _ _ => 0)) by reflexivity. revert P.
  generalize (fun _ _ : nat => 0). generalize (seq 0 nt_in) as l. induction l as [|it l IH]; intros w P; [exact P|].
  cbn [fold_left]. apply IH. clear IH. revert w P. generalize (seq 0 nx_in) as m. induction m as [|ix m IH]; intros w P; [exact P|].
  cbn [fold_left]. apply IH. clear IH. unfold add_columns. revert w P. generalize (seq 0 nx_out) as n. induction n as [|k n IH]; intros w P; [exact P|].
  cbn [map fold_left fst snd]. apply IH. unfold add_column. destruct (norm_index _ _); [|exact P]. destruct (Nat.eqb _ _); [now rewrite P|exact P].
Qed.
Print Assumptions C99_rows_equal.
(** The forward map is linear. *)
Theorem C99_linear nan nx_in nt_in nx_out nt_out table dtable T a x1 x2 :
  spread_with_table true nan (nx_in, nt_in) (nx_out, nt_out) table dtable = SpreadOk T ->
  entries nx_in nt_in nx_out (t_val table) (fun z => (0 <= z)%Z) -> length x1 = (nx_in * nt_in)%nat -> length x2 = (nx_in * nt_in)%nat ->
  exists y1 y2 y, sp_times T x1 = Some y1 /\ sp_times T x2 = Some y2 /\ sp_times T (radd (rscale a x1) x2) = Some y /\
  forall r t, (t < nt_out)%nat -> y r t = a * y1 r t + y2 r t.
Proof.
  intros H N L1 L2. destruct (C99_computes _ _ _ _ _ _ _ _ _ H N L1) as (y1 & Y1 & F1). destruct (C99_computes _ _ _ _ _ _ _ _ _ H N L2) as (y2 & Y2 & F2).
  assert (L : length (radd (rscale a x1) x2) = (nx_in * nt_in)%nat) by (rewrite radd_len; rewrite rscale_len, ?L1, ?L2; try reflexivity; try apply Nat.min_id).
  destruct (C99_computes _ _ _ _ _ _ _ _ _ H N L) as (y & Y & F). exists y1, y2, y. repeat split; auto. intros r t Ht.
  rewrite F, F1, F2 by auto. rewrite <- rsum_mul_l, <- rsum_add. apply rsum_ext. intros k _. apply documented_linear. congruence.
Qed.
Print Assumptions C99_linear.
(** Conservation: if all entries name columns, the total of every output row is
    the total over the samples of the sample times the number of its entries. *)
Theorem C99_total nan nx_in nt_in nx_out nt_out table dtable T x :
  spread_with_table true nan (nx_in, nt_in) (nx_out, nt_out) table dtable = SpreadOk T ->
  entries nx_in nt_in nx_out (t_val table) (fun z => (0 <= z < Z.of_nat nt_out)%Z) -> length x = (nx_in * nt_in)%nat ->
  exists y, sp_times T x = Some y /\ forall r,
  rsum nt_out (fun t => y r t) = rsum nx_in (fun ix => rsum nt_in (fun it => sample nt_in x ix it * rsum nx_out (fun k => match t_val table ix it k with Some _ => 1 | None => 0 end))).
Proof.
  intros H N L. assert (N' : entries nx_in nt_in nx_out (t_val table) (fun z => (0 <= z)%Z)).
  { intros i j k Hi Hj Hk. specialize (N i j k Hi Hj Hk). destruct (t_val table i j k); [lia|auto]. }
  destruct (C99_computes _ _ _ _ _ _ _ _ _ H N' L) as (y & Y & F). exists y. split; auto. intros r.
  rewrite (@rsum_ext nt_out _ (fun t => rsum nx_out (fun k => documented_spread nx_in nt_in (t_val table) x k t))) by (intros t Ht; apply F; auto).
  etransitivity; [apply rsum_exchange|].
  etransitivity; [|apply rsum_ext; intros ix _; apply rsum_ext; intros it _; apply rsum_mul_l].
  rewrite (@rsum_ext nx_out _ (fun k => rsum nx_in (fun ix => rsum nt_in (fun it => sample nt_in x ix it * match t_val table ix it k with Some _ => 1 | None => 0 end)))).
  - etransitivity; [apply rsum_exchange|]. apply rsum_ext. intros ix _. apply rsum_exchange.
  - intros k Hk. unfold documented_spread. etransitivity; [apply rsum_exchange|]. apply rsum_ext. intros ix Hi.
    etransitivity; [apply rsum_exchange|]. apply rsum_ext. intros it Hj. rewrite rsum_mul_l. f_equal. apply hits_sum. exact (N ix it k Hi Hj Hk).
Qed.
Print Assumptions C99_total.
(** There is no adjoint: the backward map returns None on every input. *)
Theorem C99_adjoint_refuted np nan nx_in nt_in nx_out nt_out table dtable T y :
  spread_with_table np nan (nx_in, nt_in) (nx_out, nt_out) table dtable = SpreadOk T -> sp_trans T y = None.
Proof. intros H. apply accepted in H as [_ ->]. reflexivity. Qed.
Print Assumptions C99_adjoint_refuted.
(** Without np.int (numpy 1.24 and later) the forward map raises on every
    non-empty input. *)
Theorem C99_numpy_refuted nan nx_in nt_in nx_out nt_out table dtable T x : (0 < nx_in)%nat -> (0 < nt_in)%nat ->
  spread_with_table false nan (nx_in, nt_in) (nx_out, nt_out) table dtable = SpreadOk T -> sp_times T x = None.
Proof.
  intros Hx Ht H. apply accepted in H as [_ ->]. cbn [sp_times]. unfold spread_times. destruct (negb _); auto.
  destruct (Nat.eqb_spec (nx_in * nt_in) 0); cbn; [nia|auto].
Qed.
Print Assumptions C99_numpy_refuted.

(** A 2 by 2 input, two output rows and three columns, with a NaN: accepted, no
    negative entry, and the result is not zero. *)
Example C99_nonvacuous : let tb := Table3 (2, 2, 2)%nat (fun i j k => if (Nat.eqb i 1 && Nat.eqb k 1)%bool then None else Some (Z.of_nat (i + j))) in
  exists T y, spread_with_table true (-5) (2, 2)%nat (2, 3)%nat tb tb = SpreadOk T /\
  entries 2 2 2 (t_val tb) (fun z => (0 <= z < 3)%Z) /\ sp_times T [1; 2; 3; 4] = Some y /\ y 0%nat 1%nat = 7.
Proof.
  intros tb. exists (SpreadOp (spread_times true (-5) 2 2 2 3 (t_val tb)) spread_trans ((2, 3)%nat, (2, 2)%nat)). eexists.
  split; [reflexivity|]. split.
  { intros i j k Hi Hj Hk. unfold tb. cbn [t_val]. destruct (_ && _); auto. lia. }
  split; [reflexivity|]. cbn. change (Pos.to_nat 1) with 1%nat. change (Pos.to_nat 2) with 2%nat. cbn. ring.
Qed.
