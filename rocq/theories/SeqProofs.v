(** Bounded sequences of vectors have convergent subsequences; iterates of nonexpansive maps
    with vanishing steps converge. *)
From Coq Require Import List Arith Bool Lia Reals Lra Psatz ConstructiveEpsilon.
From Verif Require Import Scalar Vec RVec OptProofs SeqSpec.
Import ListNotations.
Set Implicit Arguments. Unset Strict Implicit.
Local Open Scope R_scope.

Lemma nrm_sub_bound n (x y : vec) (d : R) : length x = n -> length y = n -> 0 <= d -> (forall i, (i < n)%nat -> Rabs (x@i - y@i) <= d) ->
  nrm (rsub x y) <= INR n * d.
Proof.
  intros Lx Ly Hd H. assert (Ls : length (rsub x y) = n) by vl.
  assert (P : 0 <= INR n * d) by (apply Rmult_le_pos; auto; apply pos_INR).
  apply Rle_trans with (nrm1 (rsub x y)).
  - unfold nrm. rewrite <- (sqrt_square (nrm1 (rsub x y))) by apply nrm1_pos. apply sqrt_le_1_alt. generalize (rsub x y). clear.
    intros v. induction v as [|a v IH]; simpl; [lra|]. pose proof (nrm1_pos v). pose proof (Rabs_pos a).
    assert (a * a = Rabs a * Rabs a). { rewrite <- Rabs_mult. symmetry. apply Rabs_pos_eq, Rle_0_sqr. } nra.
  - rewrite (@nrm1_sum n _ Ls), <- rsum_const. apply rsum_le. intros i Hi. rewrite rsub_nth by lia. auto.
Qed.
Lemma entry_nrm x i : Rabs (x@i) <= nrm x.
Proof.
  unfold nrm. rewrite <- sqrt_Rsqr_abs. apply sqrt_le_1_alt. unfold Rsqr. revert i. induction x as [|a x IH]; intros [|i]; simpl; try lra.
  - pose proof (rdot_pos x). lra.
  - specialize (IH i). pose proof (Rle_0_sqr a). unfold Rsqr in *. lra.
Qed.

(** subsequences *)
Lemma extract (P : nat -> nat -> Prop) : (forall k p, {P k p} + {~ P k p}) -> (forall k N, exists p, (N <= p)%nat /\ P k p) ->
  exists phi, (forall k, (phi k < phi (S k))%nat) /\ forall k, P k (phi k).
Proof.
  intros dec H.
  assert (next : forall k N, {p | (N <= p)%nat /\ P k p}).
  { intros k N. apply (@constructive_indefinite_ground_description_nat (fun p => (N <= p)%nat /\ P k p)).
    - intros p. destruct (le_dec N p), (dec k p); [left|right|right|right]; tauto.
    - apply H. }
  pose (phi := fix f k := match k with O => proj1_sig (next O O) | S k' => proj1_sig (next (S k') (S (f k'))) end).
  exists phi. split.
  - intros k. cbn. destruct (proj2_sig (next (S k) (S (phi k)))) as [Q _]. unfold phi in *. lia.
  - intros [|k]; cbn; [apply (proj2_sig (next O O))|apply (proj2_sig (next (S k) (S (phi k))))].
Qed.
Lemma phi_ge phi : (forall k, (phi k < phi (S k))%nat) -> forall k, (k <= phi k)%nat.
Proof. intros H. induction k; [lia|]. specialize (H k). lia. Qed.
Lemma phi_mono phi : (forall k, (phi k < phi (S k))%nat) -> forall k j, (k < j)%nat -> (phi k < phi j)%nat.
Proof. intros H k j. induction 1; auto. specialize (H m). lia. Qed.
Lemma bw_real (u : nat -> R) B : (forall k, Rabs (u k) <= B) -> exists phi l, (forall k, (phi k < phi (S k))%nat) /\
  forall k, Rabs (u (phi k) - l) < / (INR k + 1).
Proof.
  intros H. assert (B0 : 0 <= B) by (specialize (H O); pose proof (Rabs_pos (u O)); lra).
  destruct (@Bolzano_Weierstrass u (fun c => - B <= c <= B)) as [l Hl].
  - apply compact_P3.
  - intros k. specialize (H k). pose proof (Rle_abs (u k)). pose proof (Rle_abs (- u k)) as Q. rewrite Rabs_Ropp in Q. lra.
  - destruct (@extract (fun k p => Rabs (u p - l) < / (INR k + 1))) as (phi & P1 & P2).
    + intros. apply Rlt_dec.
    + intros k N. assert (Pk : 0 < / (INR k + 1)) by (apply Rinv_0_lt_compat; pose proof (pos_INR k); lra).
      destruct (Hl (disc l (mkposreal _ Pk)) N) as (p & Hp & D).
      * exists (mkposreal _ Pk). intros y Hy. exact Hy.
      * exists p. split; auto.
    + exists phi, l. auto.
Qed.
Lemma bw_coords n (x : nat -> vec) B : (forall k i, (i < n)%nat -> Rabs ((x k)@i) <= B) -> forall d, (d <= n)%nat ->
  exists phi l, (forall k, (phi k < phi (S k))%nat) /\ forall k i, (i < d)%nat -> Rabs ((x (phi k))@i - l i) <= / (INR k + 1).
Proof.
  intros H. induction d as [|d IH]; intros Hd.
  - exists (fun k => k), (fun _ => 0). split; [lia|]. intros; lia.
  - destruct IH as (phi & l & P1 & P2); [lia|].
    destruct (@bw_real (fun k => (x (phi k))@d) B) as (psi & c & Q1 & Q2); [intros; apply H; lia|].
    exists (fun k => phi (psi k)), (fun i => if Nat.eqb i d then c else l i). split.
    + intros k. apply phi_mono; auto.
    + intros k i Hi. destruct (Nat.eqb_spec i d) as [->|N]; [left; apply Q2|].
      eapply Rle_trans; [apply P2; lia|]. apply Rinv_le_contravar; [pose proof (pos_INR k); lra|].
      apply Rplus_le_compat_r, le_INR, phi_ge. exact Q1.
Qed.
Lemma bw n (x : nat -> vec) B : (forall k, length (x k) = n) -> (forall k, nrm (x k) <= B) ->
  exists phi l, (forall k, (phi k < phi (S k))%nat) /\ converges n (fun k => x (phi k)) l.
Proof.
  intros L H. destruct (@bw_coords n x B) with (d := n) as (phi & l & P1 & P2); auto.
  { intros k i Hi. eapply Rle_trans; [apply entry_nrm|auto]. }
  exists phi, (tab n l). split; auto. split; [apply tab_length|]. intros eps He.
  destruct (archimed_cor1 (eps / (INR n + 1))) as (N & HN & N0).
  { apply Rmult_lt_0_compat; auto. apply Rinv_0_lt_compat. pose proof (pos_INR n). lra. }
  exists N. intros k Hk. eapply Rle_lt_trans; [apply (@nrm_sub_bound n) with (d := / (INR k + 1))|].
  - apply L.
  - apply tab_length.
  - left. apply Rinv_0_lt_compat. pose proof (pos_INR k). lra.
  - intros i Hi. rewrite nth_tab by auto. auto.
  - assert (A1 : / (INR k + 1) <= / INR N). { apply Rinv_le_contravar; [now apply lt_0_INR|]. apply le_INR in Hk. lra. }
    pose proof (pos_INR n) as Pn. assert (A2 : / (INR k + 1) < eps / (INR n + 1)) by lra.
    apply Rle_lt_trans with ((INR n + 1) * / (INR k + 1)).
    + apply Rmult_le_compat_r; [|lra]. left. apply Rinv_0_lt_compat. pose proof (pos_INR k). lra.
    + replace eps with ((INR n + 1) * (eps / (INR n + 1))) by (field; lra). apply Rmult_lt_compat_l; lra.
Qed.
Lemma nrm_sub_triang n x y z : length x = n -> length y = n -> length z = n -> nrm (rsub x z) <= nrm (rsub x y) + nrm (rsub y z).
Proof. intros. replace (rsub x z) with (radd (rsub x y) (rsub y z)) by veq. apply nrm_triang. vl. Qed.
Lemma nrm_sub0 n x y : length x = n -> length y = n -> nrm (rsub x y) <= 0 -> x = y.
Proof.
  intros Lx Ly H. assert (E : nrm (rsub x y) = 0) by (pose proof (nrm_pos (rsub x y)); lra).
  apply rdot_sub_eq0; [congruence|]. rewrite <- nrm_sq, E. ring.
Qed.
Lemma limit_unique n x l l' : (forall k, length (x k) = n) -> converges n x l -> converges n x l' -> l = l'.
Proof.
  intros L [L1 H1] [L2 H2]. apply (@nrm_sub0 n); auto. apply Rnot_lt_le. intros C. set (e := nrm (rsub l l') / 2).
  destruct (H1 e) as [N1 Q1]; [unfold e; lra|]. destruct (H2 e) as [N2 Q2]; [unfold e; lra|].
  specialize (Q1 (N1 + N2)%nat ltac:(lia)). specialize (Q2 (N1 + N2)%nat ltac:(lia)).
  pose proof (@nrm_sub_triang n l (x (N1 + N2)%nat) l' L1 (L _) L2) as T. rewrite (@nrm_sub_sym l (x (N1 + N2)%nat)) in T by (rewrite L; auto). unfold e in *. lra.
Qed.

(** iterates of a nonexpansive map *)
Section Orbit.
  Variables (n : nat) (P : vec -> vec) (x : nat -> vec).
  Hypothesis LP : forall u, length u = n -> length (P u) = n.
  Hypothesis NE : forall u v, length u = n -> length v = n -> nrm (rsub (P u) (P v)) <= nrm (rsub u v).
  Hypothesis L0 : length (x O) = n.
  Hypothesis SX : forall k, x (S k) = P (x k).
  Lemma orbit_len k : length (x k) = n. Proof. induction k; auto. rewrite SX. auto. Qed.
  Lemma orbit_fejer q : length q = n -> P q = q -> forall j k, (j <= k)%nat -> nrm (rsub (x k) q) <= nrm (rsub (x j) q).
  Proof.
    intros Lq Eq j k. induction 1 as [|k H IH]; [lra|]. eapply Rle_trans; [|exact IH]. rewrite SX. rewrite <- Eq at 1. apply NE; auto. apply orbit_len.
  Qed.
  (** bounded orbits with vanishing steps converge to a fixed point *)
  Lemma orbit_converges B : (forall k, nrm (x k) <= B) ->
    (forall eps, 0 < eps -> exists N, forall k, (N <= k)%nat -> nrm (rsub (x (S k)) (x k)) < eps) ->
    exists l, length l = n /\ P l = l /\ converges n x l.
  Proof.
    intros HB HS. destruct (@bw n x B orbit_len HB) as (phi & l & M & Ll & HC). exists l. split; auto.
    assert (E : P l = l).
    { apply (@nrm_sub0 n); auto. apply Rnot_lt_le. intros C. set (e := nrm (rsub (P l) l) / 3).
      destruct (HC e) as [N1 Q1]; [unfold e; lra|]. destruct (HS e) as [N2 Q2]; [unfold e; lra|].
      set (k := (N1 + N2)%nat). specialize (Q1 k ltac:(unfold k; lia)).
      assert (Hp : (k <= phi k)%nat) by now apply phi_ge. specialize (Q2 (phi k) ltac:(unfold k in *; lia)).
      pose proof (@nrm_sub_triang n (P l) (P (x (phi k))) l (LP Ll) (LP (orbit_len _)) Ll) as T1.
      pose proof (@nrm_sub_triang n (P (x (phi k))) (x (phi k)) l (LP (orbit_len _)) (orbit_len _) Ll) as T2.
      pose proof (NE Ll (orbit_len (phi k))) as T3. rewrite (@nrm_sub_sym l) in T3 by (rewrite orbit_len; auto). rewrite SX in Q2. unfold e in *. lra. }
    split; auto. split; auto. intros eps He. destruct (HC eps He) as [N Q]. exists (phi N). intros k Hk.
    eapply Rle_lt_trans; [apply orbit_fejer; eauto|]. now apply Q.
  Qed.
End Orbit.
(** a nonincreasing sequence bounded below has vanishing decrements *)
Lemma decrements (u d : nat -> R) c : (forall k, 0 <= d k) -> (forall k, u (S k) <= u k - d k) -> (forall k, c <= u k) ->
  forall eps, 0 < eps -> exists N, forall k, (N <= k)%nat -> d k < eps.
Proof.
  intros Hd Hu Hc eps He.
  destruct (@decreasing_cv u) as [l Hl].
  - intros k. specialize (Hu k). specialize (Hd k). lra.
  - exists (- c). intros y [k ->]. unfold opp_seq. specialize (Hc k). lra.
  - destruct (Hl (eps / 2)) as [N HN]; [lra|]. exists N. intros k Hk.
    pose proof (HN k ltac:(lia)) as A1. pose proof (HN (S k) ltac:(lia)) as A2. unfold R_dist in *.
    apply Rabs_def2 in A1. apply Rabs_def2 in A2. specialize (Hu k). lra.
Qed.

(** minimisers: closed domains and functions with a subgradient bound *)
From Coq Require Import ClassicalEpsilon.
Section Min.
  Variables (n : nat) (dom : vec -> Prop) (F : vec -> R).
  Definition closed : Prop := forall x l, (forall k, length (x k) = n) -> (forall k, dom (x k)) -> converges n x l -> dom l.
  Definition calm : Prop := forall l, length l = n -> exists K, 0 <= K /\ forall x, length x = n -> F l <= F x + K * nrm (rsub x l).
  Notation minimises := (SeqSpec.minimises n dom F).
  Hypothesis HC : closed.
  Hypothesis HF : calm.
  Lemma calm_limit x l c : (forall k, length (x k) = n) -> converges n x l ->
    (forall eps, 0 < eps -> exists N, forall k, (N <= k)%nat -> F (x k) <= c + eps) -> F l <= c.
  Proof.
    intros L [Ll H] HV. destruct (HF Ll) as (K & K0 & HK). apply Rnot_lt_le. intros C. set (e := F l - c) in *. assert (He : 0 < e) by (unfold e; lra).
    destruct (HV (e / 2)) as [N1 Q1]; [lra|]. destruct (H (e / (2 * (K + 1)))) as [N2 Q2].
    { apply Rmult_lt_0_compat; auto. apply Rinv_0_lt_compat. lra. }
    specialize (Q1 (N1 + N2)%nat ltac:(lia)). specialize (Q2 (N1 + N2)%nat ltac:(lia)). specialize (HK (x (N1 + N2)%nat) (L _)).
    set (r := nrm (rsub (x (N1 + N2)%nat) l)) in *. assert (0 <= r) by apply nrm_pos.
    assert (K * r <= (K + 1) * r) by (apply Rmult_le_compat_r; lra).
    assert ((K + 1) * r < e / 2). { replace (e / 2) with ((K + 1) * (e / (2 * (K + 1)))) by (field; lra). apply Rmult_lt_compat_l; lra. }
    unfold e in *. lra.
  Qed.
  (** bounded sequences of points of the domain whose values approach c have a cluster point of value at most c *)
  Lemma cluster x B c : (forall k, length (x k) = n) -> (forall k, dom (x k)) -> (forall k, nrm (x k) <= B) ->
    (forall eps, 0 < eps -> exists N, forall k, (N <= k)%nat -> F (x k) <= c + eps) ->
    exists l, length l = n /\ dom l /\ F l <= c /\ forall eps N, 0 < eps -> exists k, (N <= k)%nat /\ nrm (rsub (x k) l) < eps.
  Proof.
    intros L D HB HV. destruct (@bw n x B L HB) as (phi & l & M & HL). pose proof (phi_ge M) as PG. exists l. split; [apply HL|]. split; [|split].
    - apply HC with (x := fun k => x (phi k)); auto.
    - apply calm_limit with (x := fun k => x (phi k)); auto. intros eps He. destruct (HV eps He) as [N Q]. exists N. intros k Hk. apply Q. specialize (PG k). lia.
    - intros eps N He. destruct HL as [_ HL]. destruct (HL eps He) as [N2 Q]. exists (phi (N + N2)%nat). split; [specialize (PG (N + N2)%nat); lia|apply Q; lia].
  Qed.
  Lemma attains x0 c B : length x0 = n -> dom x0 -> (forall z, length z = n -> dom z -> c <= F z) ->
    (forall z, length z = n -> dom z -> F z <= F x0 -> nrm z <= B) -> exists q, minimises q.
  Proof.
    intros L0 D0 HL HB.
    destruct (completeness (fun r => exists z, length z = n /\ dom z /\ r = - F z)) as [s [S1 S2]].
    - exists (- c). intros r (z & Lz & Dz & ->). specialize (HL z Lz Dz). lra.
    - exists (- F x0). exists x0. auto.
    - assert (A1 : forall z, length z = n -> dom z -> - s <= F z).
      { intros z Lz Dz. assert (- F z <= s); [|lra]. apply S1. exists z. auto. }
      assert (A2 : forall k : nat, exists z, length z = n /\ dom z /\ F z <= F x0 /\ F z <= - s + / (INR k + 1)).
      { intros k. assert (P : 0 < / (INR k + 1)) by (apply Rinv_0_lt_compat; pose proof (pos_INR k); lra).
        destruct (classic (exists z, length z = n /\ dom z /\ F z < - s + / (INR k + 1))) as [(z & Lz & Dz & Fz)|C].
        - destruct (Rle_dec (F z) (F x0)); [exists z; repeat split; auto; lra|exists x0; repeat split; auto; lra].
        - exfalso. assert (s <= s - / (INR k + 1)); [|lra]. apply S2. intros r (z & Lz & Dz & ->).
          apply Rnot_lt_le. intros Q. apply C. exists z. repeat split; auto. lra. }
      pose (x := fun k => proj1_sig (constructive_indefinite_description _ (A2 k))).
      assert (X : forall k, length (x k) = n /\ dom (x k) /\ F (x k) <= F x0 /\ F (x k) <= - s + / (INR k + 1)).
      { intros k. unfold x. apply (proj2_sig (constructive_indefinite_description _ (A2 k))). }
      destruct (@cluster x B (- s)) as (l & Ll & Dl & Fl & _); try (intros k; apply X).
      + intros k. destruct (X k) as (X1 & X2 & X3 & _). auto.
      + intros eps He. destruct (archimed_cor1 eps He) as (N & HN & N0). exists N. intros k Hk. destruct (X k) as (_ & _ & _ & X4).
        assert (/ (INR k + 1) <= / INR N). { apply Rinv_le_contravar; [now apply lt_0_INR|]. apply le_INR in Hk. lra. } lra.
      + exists l. split; auto. split; auto. intros z Lz Dz. specialize (A1 z Lz Dz). lra.
  Qed.
  (** iterates whose values approach the least value approach the set of minimisers *)
  Lemma approach (R : nat -> vec -> Prop) q B g : minimises q ->
    (forall k x, R k x -> length x = n /\ dom x /\ nrm x <= B /\ F x <= F q + g k) ->
    (forall eps, 0 < eps -> exists N, forall k, (N <= k)%nat -> g k <= eps) ->
    forall eps, 0 < eps -> exists N, forall k x, (N <= k)%nat -> R k x -> exists p, minimises p /\ nrm (rsub x p) < eps.
  Proof.
    intros Hq HR Hg eps He. apply Classical_Prop.NNPP. intros C.
    assert (X : forall N, exists x, length x = n /\ dom x /\ nrm x <= B /\ (exists k, (N <= k)%nat /\ F x <= F q + g k) /\ forall p, minimises p -> eps <= nrm (rsub x p)).
    { intros N. apply Classical_Prop.NNPP. intros C2. apply C. exists N. intros k x Hk Rx. apply Classical_Prop.NNPP. intros C3. apply C2.
      exists x. destruct (HR k x Rx) as (R1 & R2 & R3 & R4). repeat split; eauto. intros p Hp. apply Rnot_lt_le. intros C4. apply C3. eauto. }
    pose (x := fun k => proj1_sig (constructive_indefinite_description _ (X k))).
    assert (Y : forall k, length (x k) = n /\ dom (x k) /\ nrm (x k) <= B /\ (exists j, (k <= j)%nat /\ F (x k) <= F q + g j) /\ forall p, minimises p -> eps <= nrm (rsub (x k) p)).
    { intros k. unfold x. apply (proj2_sig (constructive_indefinite_description _ (X k))). }
    destruct (@cluster x B (F q)) as (l & Ll & Dl & Fl & Cl); try (intros k; apply Y).
    - intros e E. destruct (Hg e E) as [N Q]. exists N. intros k Hk. destruct (Y k) as (_ & _ & _ & (j & Hj & Fj) & _). specialize (Q j ltac:(lia)). lra.
    - assert (Ml : minimises l). { split; auto. split; auto. intros z Lz Dz. destruct Hq as (_ & _ & Q). specialize (Q z Lz Dz). lra. }
      destruct (Cl eps O He) as (k & _ & Hk). destruct (Y k) as (_ & _ & _ & _ & Q). specialize (Q l Ml). lra.
  Qed.
End Min.
