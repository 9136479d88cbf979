(** Finite systems of linear equations: more unknowns than equations have a
    nonzero solution, and nonsingular square systems can be solved. *)
From Coq Require Import List Arith Bool Reals Lia Lra Psatz.
From Verif Require Import Vec RVec Loop FocussSpec.
Local Open Scope R_scope.

(** the indices other than i0, in order *)
Definition skip (i0 j : nat) : nat := if Nat.ltb j i0 then j else S j.

Lemma skip_lt i0 m j : (j < m)%nat -> (skip i0 j < S m)%nat.
Proof. unfold skip. destruct (Nat.ltb_spec j i0); lia. Qed.
Lemma skip_ne i0 j : skip i0 j <> i0.
Proof. unfold skip. destruct (Nat.ltb_spec j i0); lia. Qed.

(** the inverse of [skip] *)
Definition unskip (i0 i : nat) : nat := if Nat.ltb i i0 then i else pred i.
Lemma unskip_skip i0 j : unskip i0 (skip i0 j) = j.
Proof.
  unfold unskip, skip. destruct (Nat.ltb_spec j i0) as [H|H].
  - destruct (Nat.ltb_spec j i0); [reflexivity|lia].
  - destruct (Nat.ltb_spec (S j) i0); [lia|reflexivity].
Qed.

Lemma rsum_skip m i0 f : (i0 < S m)%nat ->
  rsum (S m) f = f i0 + rsum m (fun j => f (skip i0 j)).
Proof.
  induction m as [|m IH]; intros H.
  - replace i0 with 0%nat by lia. cbn. ring.
  - destruct (Nat.eq_dec i0 (S m)) as [->|Hne].
    + cbn [rsum]. rewrite (rsum_ext (n := m) (fun j => f (skip (S m) j)) f).
      * unfold skip. destruct (Nat.ltb_spec m (S m)); [ring|lia].
      * intros i Hi. unfold skip. destruct (Nat.ltb_spec i (S m)); [reflexivity|lia].
    + cbn [rsum] in *. rewrite IH by lia.
      replace (skip i0 m) with (S m); [ring|].
      unfold skip. destruct (Nat.ltb_spec m i0); [lia|reflexivity].
Qed.

Lemma zero_row_dec m (f : nat -> R) :
  (forall i, (i < m)%nat -> f i = 0) \/ exists i, (i < m)%nat /\ f i <> 0.
Proof.
  induction m as [|m IH]; [left; intros; lia|].
  destruct IH as [H|[i [Hi H]]].
  - destruct (Req_dec (f m) 0) as [E|E].
    + left. intros i Hi. destruct (Nat.eq_dec i m) as [->|]; [auto|apply H; lia].
    + right. exists m. split; [lia|auto].
  - right. exists i. split; [lia|auto].
Qed.

Lemma kernel_nontrivial r : forall m (B : nat -> nat -> R), (r < m)%nat ->
  exists v : nat -> R, (exists i, (i < m)%nat /\ v i <> 0) /\
    forall k, (k < r)%nat -> rsum m (fun i => B k i * v i) = 0.
Proof.
  induction r as [|r IH]; intros m B Hm.
  - exists (fun _ => 1). split; [exists 0%nat; split; [lia|lra]|intros; lia].
  - destruct (zero_row_dec m (B r)) as [Hz|[i0 [Hi0 Hp]]].
    + destruct (IH m B ltac:(lia)) as [v [Hv HB]]. exists v. split; auto.
      intros k Hk. destruct (Nat.eq_dec k r) as [->|]; [|apply HB; lia].
      apply rsum_0'. intros i Hi. rewrite Hz by auto. ring.
    + destruct m as [|m]; [lia|].
      destruct (IH m (fun k j => B k (skip i0 j) - B k i0 * B r (skip i0 j) / B r i0)
                  ltac:(lia)) as [v' [[j [Hj Hv]] HB]].
      set (c := - rsum m (fun j => B r (skip i0 j) * v' j) / B r i0).
      exists (fun i => if Nat.eqb i i0 then c else v' (unskip i0 i)).
      assert (Hs : forall k, rsum (S m) (fun i => B k i *
          (if Nat.eqb i i0 then c else v' (unskip i0 i)))
          = B k i0 * c + rsum m (fun j => B k (skip i0 j) * v' j)).
      { intros k. rewrite (rsum_skip m i0) by auto. rewrite Nat.eqb_refl. f_equal.
        apply rsum_ext. intros i Hi.
        destruct (Nat.eqb_spec (skip i0 i) i0) as [E|_]; [exfalso; now apply (skip_ne i0 i)|].
        now rewrite unskip_skip. }
      split.
      * exists (skip i0 j). split; [now apply skip_lt|].
        destruct (Nat.eqb_spec (skip i0 j) i0) as [E|_]; [exfalso; now apply (skip_ne i0 j)|].
        now rewrite unskip_skip.
      * intros k Hk. rewrite Hs. destruct (Nat.eq_dec k r) as [->|Hne].
        -- unfold c. field. exact Hp.
        -- specialize (HB k ltac:(lia)).
           rewrite (rsum_ext (n := m) _ (fun j => B k (skip i0 j) * v' j
              - (B k i0 / B r i0) * (B r (skip i0 j) * v' j))) in HB
             by (intros; field; exact Hp).
           rewrite rsum_sub, rsum_mul_l in HB. unfold c.
           match goal with |- ?g = 0 => replace g with
             (rsum m (fun j => B k (skip i0 j) * v' j) - B k i0 / B r i0 *
              rsum m (fun j => B r (skip i0 j) * v' j)); [exact HB|] end.
           field. exact Hp.
Qed.

Lemma nonsingular_solvable m G y : nonsingular m G ->
  exists z : nat -> R, forall i, (i < m)%nat -> rsum m (fun j => G i j * z j) = y i.
Proof.
  intros HG.
  destruct (kernel_nontrivial m (S m)
    (fun i j => if Nat.eqb j m then - y i else G i j) ltac:(lia)) as [v [[i [Hi Hv]] HB]].
  assert (HE : forall k, (k < m)%nat -> rsum m (fun j => G k j * v j) = y k * v m).
  { intros k Hk. specialize (HB k Hk). cbn [rsum] in HB. rewrite Nat.eqb_refl in HB.
    rewrite (rsum_ext (n := m) _ (fun j => G k j * v j)) in HB.
    - lra.
    - intros j Hj. destruct (Nat.eqb_spec j m); [lia|reflexivity]. }
  assert (Hc : v m <> 0).
  { intros Hc. apply Hv. destruct (Nat.eq_dec i m) as [->|]; [auto|].
    apply (HG v); [|lia]. intros k Hk. rewrite HE by auto. rewrite Hc. ring. }
  exists (fun j => v j / v m). intros k Hk.
  rewrite (rsum_ext (n := m) _ (fun j => (G k j * v j) * / v m))
    by (intros; unfold Rdiv; ring).
  rewrite rsum_mul_r, HE by auto. field. exact Hc.
Qed.
