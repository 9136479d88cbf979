(** More than n vectors of R^n are linearly dependent. *)
From Coq Require Import List Arith Bool Lia Reals Lra.
From Verif Require Import Vec RVec SolverSpec.
Import ListNotations.
Set Implicit Arguments.
Local Open Scope R_scope.

Definition skip (i0 i : nat) : nat := if (i <? i0)%nat then i else S i.
Lemma skip_neq i0 i : skip i0 i <> i0.
Proof. unfold skip. destruct (Nat.ltb_spec i i0); lia. Qed.
Lemma skip_lt i0 i k : (i < k)%nat -> (skip i0 i < S k)%nat.
Proof. unfold skip. destruct (Nat.ltb_spec i i0); lia. Qed.
Lemma rsum_skip k i0 f : (i0 <= k)%nat -> rsum (S k) f = f i0 + rsum k (fun i => f (skip i0 i)).
Proof.
  intros H. replace (S k) with (i0 + S (k - i0))%nat by lia. rewrite rsum_split, rsum_S_l.
  replace k with (i0 + (k - i0))%nat at 2 by lia. rewrite rsum_split.
  rewrite (@rsum_ext i0 (fun i => f (skip i0 i)) f).
  - rewrite (@rsum_ext (k - i0) (fun i => f (skip i0 (i0 + i))) (fun i => f (i0 + S i)%nat)).
    + rewrite Nat.add_0_r. ring.
    + intros i Hi. unfold skip. destruct (Nat.ltb_spec (i0 + i) i0); [lia|]. f_equal; lia.
  - intros i Hi. unfold skip. destruct (Nat.ltb_spec i i0); [auto|lia].
Qed.
Lemma find_nz k (f : nat -> R) : (forall i, (i < k)%nat -> f i = 0) \/ exists i, (i < k)%nat /\ f i <> 0.
Proof.
  induction k as [|k [IH|[i [Hi IH]]]]; [left; lia| |right; exists i; split; auto; lia].
  destruct (Req_dec (f k) 0) as [E|E]; [left|right; exists k; split; auto].
  intros i Hi. destruct (Nat.eq_dec i k) as [->|]; auto. apply IH; lia.
Qed.
Lemma lin_dep n : forall k (v : nat -> nat -> R), (n < k)%nat ->
  exists c : nat -> R, (exists i, (i < k)%nat /\ c i <> 0) /\
    forall j, (j < n)%nat -> rsum k (fun i => c i * v i j) = 0.
Proof.
  induction n as [|n IH]; intros k v Hk.
  - exists (fun _ => 1). split; [exists 0%nat; split; [lia|lra]|lia].
  - destruct (find_nz k (fun i => v i n)) as [Z|[i0 [Hi0 NZ]]].
    + destruct (IH k v ltac:(lia)) as [c [H1 H2]]. exists c. split; auto. intros j Hj.
      destruct (Nat.eq_dec j n) as [->|]; [|apply H2; lia].
      apply rsum_0'. intros i Hi. rewrite Z by auto. ring.
    + destruct k as [|k]; [lia|].
      set (q := fun i => v (skip i0 i) n / v i0 n).
      destruct (IH k (fun i j => v (skip i0 i) j - q i * v i0 j) ltac:(lia)) as [c [[i1 [Hi1 NZ1]] H2]].
      set (c0 := - rsum k (fun i => c i * q i)).
      set (unskip := fun i => if (i <? i0)%nat then i else (i - 1)%nat).
      assert (US : forall i, unskip (skip i0 i) = i).
      { intros i. unfold unskip, skip. destruct (Nat.ltb_spec i i0); [destruct (Nat.ltb_spec i i0); lia|].
        destruct (Nat.ltb_spec (S i) i0); lia. }
      exists (fun i => if (i =? i0)%nat then c0 else c (unskip i)). split.
      * exists (skip i0 i1). split; [now apply skip_lt|].
        destruct (Nat.eqb_spec (skip i0 i1) i0) as [E|_]; [now apply skip_neq in E|]. now rewrite US.
      * intros j Hj. rewrite (rsum_skip (i0 := i0)) by lia. rewrite Nat.eqb_refl.
        rewrite (@rsum_ext k _ (fun i => c i * v (skip i0 i) j)).
        2:{ intros i Hi. destruct (Nat.eqb_spec (skip i0 i) i0) as [E|_]; [now apply skip_neq in E|]. now rewrite US. }
        destruct (Nat.eq_dec j n) as [->|].
        -- unfold c0, q. rewrite Ropp_mult_distr_l_reverse, <- rsum_mul_r.
           rewrite (@rsum_ext k (fun i => c i * (v (skip i0 i) n / v i0 n) * v i0 n) (fun i => c i * v (skip i0 i) n)); [ring|].
           intros; field; auto.
        -- specialize (H2 j ltac:(lia)). 
           rewrite (@rsum_ext k _ (fun i => c i * v (skip i0 i) j - c i * q i * v i0 j)) in H2 by (intros; ring).
           rewrite rsum_sub, rsum_mul_r in H2. unfold c0. lra.
Qed.
(** conjugate directions are independent, so there are at most n of them *)
Lemma conj_count n k (A : vec -> vec) (p : nat -> vec) : linear_op n n A ->
  (forall i, (i < k)%nat -> length (p i) = n) ->
  (forall i j, (i < k)%nat -> (j < k)%nat -> i <> j -> rdot (p i) (A (p j)) = 0) ->
  (forall i, (i < k)%nat -> rdot (p i) (A (p i)) <> 0) -> (k <= n)%nat.
Proof.
  intros [LA _] HL HO HN. destruct (le_lt_dec k n) as [|Hk]; auto. exfalso.
  destruct (@lin_dep n k (fun i j => (p i)@j) Hk) as [c [[i0 [Hi0 NZ]] HZ]].
  assert (E : rsum k (fun i => c i * rdot (p i) (A (p i0))) = 0).
  { rewrite (@rsum_ext k _ (fun i => rsum n (fun j => c i * (p i)@j * (A (p i0))@j))).
    - rewrite rsum_exchange. apply rsum_0'. intros j Hj. rewrite rsum_mul_r, HZ by auto. ring.
    - intros i Hi. rewrite (@rdot_sum n) by auto. rewrite <- rsum_mul_l. apply rsum_ext; intros; ring. }
  rewrite (@rsum_single k i0) in E; auto.
  - apply Rmult_integral in E as [E|E]; [auto|now apply (HN i0)].
  - intros i Hi Ne. rewrite HO by auto. ring.
Qed.
