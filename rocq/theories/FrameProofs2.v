From Coq Require Import List Arith Bool ZArith Permutation Reals Lra Lia Psatz.
From Verif Require Import Vec RVec Loop OptModel OptSpec OptProofs2 BsblModel DictModel ProblemModel ProblemProofs SubspSpec SensingSpec SensingProofs FrameSpec FrameModel FrameProofs.
Import ListNotations.
Local Open Scope R_scope.

Lemma abs_entries_tab n g : tab (n * n) (fun p => Rabs (g (p / n) (p mod n))%nat) = abs_entries n g.
Proof. reflexivity. Qed.
Lemma n_off_is n : n_off n = INR n * INR n - INR n.
Proof.
  unfold n_off. cbn [Nat.pow]. rewrite Nat.mul_1_r. rewrite minus_INR by nia. now rewrite mult_INR.
Qed.
Lemma py_get_threshold n f g : (0 < n)%nat -> 0 <= f <= 1 ->
  threshold n f g (py_get (n * n) (rsort (tab (n * n) (fun p => Rabs (g (p / n) (p mod n))%nat))) (py_round (f * n_off n) - 1)).
Proof.
  intros Hn Hf. exists (py_round (f * n_off n)). rewrite <- n_off_is.
  split; [apply py_round_near|].
  assert (N0 : 0 <= n_off n) by (unfold n_off; apply pos_INR).
  assert (K0 : (0 <= py_round (f * n_off n))%Z).
  { pose proof (rnd_mono (INR 0) (f * n_off n)) as Q. rewrite rnd_int in Q. apply Q. change (INR 0) with 0. apply Rmult_le_pos; lra. }
  assert (K1 : (py_round (f * n_off n) <= Z.of_nat (n * n - n))%Z).
  { rewrite <- (rnd_int (n * n - n)). apply rnd_mono. unfold n_off in *. cbn [Nat.pow] in *. rewrite Nat.mul_1_r in *. nra. }
  split; [exact K0|]. rewrite abs_entries_tab.
  assert (L : length (rsort (abs_entries n g)) = (n * n)%nat)
    by (rewrite rsort_len; unfold abs_entries; now rewrite map_length, seq_length).
  exists (rsort (abs_entries n g)). split; [apply rsort_perm|]. split; [apply rsort_asc|]. rewrite L.
  set (K := py_round (f * n_off n)) in *.
  assert (Hnn : (n <= n * n)%nat) by nia. clearbody K.
  unfold py_get. destruct (Z.eqb_spec K 0) as [->|NZ].
  - split; [lia|]. cbn [Z.ltb Z.sub Z.add Z.opp Z.compare]. f_equal. lia.
  - split; [lia|]. destruct (Z.ltb_spec (K - 1) 0); [lia|]. f_equal. lia.
Qed.

Lemma grass_body_step svd m n frac mu off g g' : (m <= n)%nat -> (0 < n)%nat -> 0 <= frac <= 1 -> mu <> 0 ->
  (forall G, svd_ok svd n G) -> grass_body svd m n frac mu off g = Some g' ->
  grass_step m n frac mu (fun i j => off i j = true) g g'.
Proof.
  intros Hmn Hn Hf Hmu HV. unfold grass_body. set (E := grass_entries n frac mu off g).
  specialize (HV E). unfold svd_ok in HV. destruct (svd E) as [[U s] VT]. cbv zeta.
  destruct (forallb _ _) eqn:F; [|discriminate]. intros [= <-].
  rewrite forallb_forall in F.
  eexists _, _, E, U, s, VT. split; [apply (py_get_threshold n frac g Hn Hf)|].
  split; [apply (py_get_threshold n (1 - frac) g Hn); lra|]. split; [|split; [exact HV|]].
  - intros i j Hi Hj. unfold E, grass_entries, upper_ind, lower_ind.
    set (tu := py_get _ _ (py_round (frac * n_off n) - 1)). set (tl := py_get _ _ (py_round ((1 - frac) * n_off n) - 1)).
    exists (if off i j && Rltb tu (Rabs (g i j)) then mu else 1), (if Rltb (Rabs (g i j)) tl then / mu else 1).
    destruct (Rltb_spec tu (Rabs (g i j))), (Rltb_spec (Rabs (g i j)) tl), (off i j); cbn [andb];
      (split; [first [field; assumption | ring]|]); repeat split; intros; try lra; try tauto; try (destruct H; try lra; try congruence); intuition (try lra; try congruence).
  - intros i j Hi Hj. cbv zeta. specialize (F j ltac:(apply in_seq; lia)). cbv beta in F.
    assert (RE : forall i j, rsum n (fun k => U i k * (if (k <? m)%nat then s k else 0) * VT k j) = rsum m (fun k => U i k * s k * VT k j)).
    { intros a b. rewrite (rsum_prefix n m); [|auto|intros k Hk; destruct (Nat.ltb_spec k m); [lia|ring]].
      apply rsum_ext. intros k Hk. destruct (Nat.ltb_spec k m); [ring|lia]. }
    rewrite !RE in *. set (d := rsum m (fun k => U j k * s k * VT k j)) in *.
    destruct (Rltb_spec 0 d) as [P|]; [|discriminate]. split; [exact P|].
    assert (Q : 0 < sqrt d) by (apply sqrt_lt_R0; auto). pose proof (sqrt_sqrt d ltac:(lra)) as Ed.
    rewrite <- Ed at 3. field. lra.
Qed.

Lemma grass_build_spec svd m n frac mu init it r c F : (m <= n)%nat -> (0 < n)%nat -> 0 <= frac <= 1 -> mu <> 0 ->
  (forall G, svd_ok svd n G) -> build_grassmannian_frame svd m n frac mu init it = Some (r, c, F) ->
  exists gs : nat -> nat -> nat -> R,
    (forall i j, gs 0%nat i j = ip m (column init i) (column init j)) /\
    (forall k, (k < it)%nat -> grass_step m n frac mu (fun i j => / 10 ^ 6 < Rabs (ip m (column init i) (column init j) - 1)) (gs k) (gs (S k))) /\
    r = m /\ c = n /\ exists U s VT, svd_of n (gs it) U s VT /\ forall k j, F k j = sqrt (s k) * U j k.
Proof.
  intros Hmn Hn Hf Hmu HV. unfold build_grassmannian_frame. set (g0 := fmul m (ftr init) init). set (off := off_ind g0).
  destruct (grass_loop _ _ _ _ _ _ _ _) as [g|] eqn:L; [|discriminate].
  pose proof (HV g) as Hg. unfold svd_ok in Hg. destruct (svd g) as [[U s] VT] eqn:ES. intros [= <- <- <-].
  assert (HL : forall w h, grass_loop svd m n frac mu off w h = Some g -> exists gs : nat -> nat -> nat -> R, gs 0%nat = h /\ gs w = g /\
     forall k, (k < w)%nat -> grass_step m n frac mu (fun i j => off i j = true) (gs k) (gs (S k))).
  { clear L. induction w as [|w IH]; intros h L.
    - injection L as ->. exists (fun _ => g). repeat split; auto. lia.
    - cbn [grass_loop] in L. destruct (grass_body _ _ _ _ _ _ h) as [h'|] eqn:B; [|discriminate].
      destruct (IH h' L) as [gs [E0 [E1 S1]]]. exists (fun k => match k with O => h | S k => gs k end).
      split; [reflexivity|]. split; [exact E1|]. intros [|k] Hk.
      + rewrite E0. eapply grass_body_step; eauto.
      + apply S1. lia. }
  destruct (HL it g0 L) as [gs [E0 [E1 S1]]]. exists gs. split; [intros; rewrite E0; reflexivity|]. split.
  - intros k Hk. specialize (S1 k Hk). destruct S1 as [tu [tl [E [U' [s' [VT' [T1 [T2 [T3 T4]]]]]]]]].
    exists tu, tl, E, U', s', VT'. split; [auto|]. split; [auto|]. split; [|auto].
    intros i j Hi Hj. destruct (T3 i j Hi Hj) as [a [b [EE [A1 [A2 AB]]]]]. exists a, b. split; [auto|].
    change (ip m (column init i) (column init j)) with (g0 i j).
    assert (OE : off i j = true <-> / 10 ^ 6 < Rabs (g0 i j - 1)).
    { unfold off, off_ind. destruct (Rltb_spec (/ 10 ^ 6) (Rabs (g0 i j - 1))); intuition (try lra; try discriminate). }
    rewrite <- OE. auto.
  - split; [apply Nat.min_l; auto|]. split; [auto|]. exists U, s, VT. rewrite E1. auto.
Qed.
