(** C27: the values of the smooth functions, entry by entry. *)
From Coq Require Import List Arith Bool Reals Lia Lra.
From Verif Require Import Scalar Vec RVec RMat Loop OptModel OptSpec OptProofs PerfProofs.
Import ListNotations.
Local Open Scope R_scope.

Lemma rlsum_nth (v : vec) : rlsum v = rsum (length v) (fun i => v@i).
Proof.
  assert (G : forall k, rlsum (firstn k v) = rsum (Nat.min k (length v)) (fun i => v@i)).
  { induction v as [|a v IH]; intros k; [now rewrite firstn_nil, Nat.min_0_r|].
    destruct k as [|k]; [reflexivity|]. cbn [firstn rlsum length Nat.min]. rewrite IH.
    clear IH. induction (Nat.min k (length v)) as [|m IH]; [cbn; ring|].
    change (rsum (S m) (fun i => v@i)) with (rsum m (fun i => v@i) + v@m).
    change (rsum (S (S m)) (fun i => (a :: v)@i)) with (rsum (S m) (fun i => (a :: v)@i) + (a :: v)@(S m)).
    rewrite <- IH. cbn [nth]. ring. }
  specialize (G (length v)). now rewrite firstn_all, Nat.min_id in G.
Qed.
Theorem C27_values : forall n x, length x = n ->
  (forall c, sfunc (smooth_constant c) x = c) /\
  (forall C D, length C = n -> sfunc (smooth_linear C D) x = rsum n (fun i => C@i * x@i) + D) /\
  (forall q r, (forall v, q = Some v -> length v = n) ->
     sfunc (smooth_quad_matrix None q r) x =
       1 / 2 * rsum n (fun i => x@i * x@i) + match q with Some v => rsum n (fun i => v@i * x@i) | None => 0 end + match r with Some c => c | None => 0 end) /\
  (forall P q r, shape n n P -> (forall v, q = Some v -> length v = n) ->
     sfunc (smooth_quad_matrix (Some P) q r) x =
       1 / 2 * rsum n (fun i => (mv P x)@i * x@i) + match q with Some v => rsum n (fun i => v@i * x@i) | None => 0 end + match r with Some c => c | None => 0 end) /\
  (forall A b, sfunc (smooth_quad_error n A b) x = 1 / 2 * nrm2 (rsub (mv A x) b)) /\
  (forall tau, sfunc (smooth_huber tau) x =
     rsum n (fun i => if Rle_dec (Rabs (x@i)) tau then x@i * x@i / (2 * tau) else Rabs (x@i) - tau / 2)).
Proof.
  intros n x L. split; [reflexivity|]. split.
  { intros C D LC. cbn. now rewrite (@rdot_sum n) by auto. }
  split.
  { intros q r Hq. cbn. destruct q as [v|], r as [c|]; rewrite ?(@rdot_sum n) by auto; lra. }
  split.
  { intros P q r HP Hq. cbn. assert (LP : length (mv P x) = n) by (unfold mv; rewrite map_length; apply HP).
    destruct q as [v|], r as [c|]; rewrite ?(@rdot_sum n) by auto; lra. }
  split; [intros A b; cbn; unfold nrm2; lra|].
  intros tau. subst n.
  assert (E : sfunc (smooth_huber tau) x = rlsum (map (fun a => if Rleb (Rabs a) tau then / 2 * (Rabs a * Rabs a) / tau else Rabs a - tau / 2) x)).
  { cbn. f_equal. induction x as [|a x IH]; [reflexivity|]. cbn. rewrite IH. reflexivity. }
  rewrite E, rlsum_nth, map_length. apply rsum_ext. intros i Hi.
  rewrite nth_indep with (d' := (fun a => if Rleb (Rabs a) tau then / 2 * (Rabs a * Rabs a) / tau else Rabs a - tau / 2) 0) by now rewrite map_length.
  rewrite (map_nth (fun a => if Rleb (Rabs a) tau then / 2 * (Rabs a * Rabs a) / tau else Rabs a - tau / 2)).
  destruct (Rleb_spec (Rabs (x@i)) tau); destruct (Rle_dec (Rabs (x@i)) tau); try contradiction; [|reflexivity].
  rewrite <- Rabs_mult, (Rabs_right (x@i * x@i)) by (apply Rle_ge, Rle_0_sqr). unfold Rdiv. rewrite Rinv_mult. ring.
Qed.
Print Assumptions C27_values.
Example C27_values_nonvacuous : sfunc (smooth_linear [1; 2] 3) [4; 5] = 17 /\ sfunc (smooth_huber 1) [2] = 3 / 2.
Proof.
  destruct (C27_values 2 [4; 5] eq_refl) as (_ & H & _). destruct (C27_values 1 [2] eq_refl) as (_ & _ & _ & _ & _ & H').
  split; [rewrite H by reflexivity; cbn; ring|]. rewrite H'. cbn. destruct (Rle_dec (Rabs 2) 1) as [C|_].
  - rewrite Rabs_right in C by lra. lra.
  - rewrite Rabs_right by lra. field.
Qed.
