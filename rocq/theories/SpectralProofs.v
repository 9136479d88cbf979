(** Spectral clustering: the embedding, and k-means on points that coincide
    within the groups. *)
From Coq Require Import List Arith Bool Lia Reals Lra Psatz.
From Verif Require Import Vec RVec RMat Loop LoopLemmas SelModel KMeansModel KMeansSpec KMeansProofs SolverSpec SpectralSpec.
Import ListNotations.
Set Implicit Arguments.
Local Open Scope R_scope.

(** *** the projection onto vectors proportional to s on the groups of c *)
Lemma delta_sum n i (f : nat -> R) : (i < n)%nat -> rsum n (fun j => delta i j * f j) = f i.
Proof.
  intros Hi. rewrite (@rsum_single n i); auto.
  - unfold delta. rewrite Nat.eqb_refl. ring.
  - intros j Hj Hne. unfold delta. destruct (Nat.eqb_spec i j); [lia|ring].
Qed.
Section Proj.
  Variables (n : nat) (c : nat -> nat) (s : nat -> R) (V : nat -> nat -> R) (sel : nat -> bool).
  Hypothesis Hs : forall i, (i < n)%nat -> 0 < s i.
  Hypothesis HV1 : forall l m, (l < n)%nat -> (m < n)%nat -> rsum n (fun i => V l i * V m i) = delta l m.
  Hypothesis HV2 : forall i j, (i < n)%nat -> (j < n)%nat -> rsum n (fun l => V l i * V l j) = delta i j.
  Definition prop_on (x : nat -> R) : Prop := forall i j, (i < n)%nat -> (j < n)%nat -> c i = c j -> x i * s j = x j * s i.
  Hypothesis H1 : forall l, (l < n)%nat -> sel l = true -> prop_on (V l).
  Hypothesis H2 : forall l x, (l < n)%nat -> sel l = false -> prop_on x -> rsum n (fun i => V l i * x i) = 0.
  Definition vol (a : nat) : R := rsum n (fun m => if Nat.eqb (c m) a then s m * s m else 0).
  Lemma vol_pos i : (i < n)%nat -> 0 < vol (c i).
  Proof.
    intros Hi. apply Rlt_le_trans with (s i * s i); [pose proof (Hs Hi); nra|].
    replace (s i * s i) with (if Nat.eqb (c i) (c i) then s i * s i else 0) by (rewrite Nat.eqb_refl; auto).
    unfold vol. apply (@rsum_ge_term n (fun m => if Nat.eqb (c m) (c i) then s m * s m else 0) i Hi).
    intros m Hm. destruct (Nat.eqb _ _); [pose proof (Hs Hm); nra|lra].
  Qed.
  Definition q (j m : nat) : R := if Nat.eqb (c m) (c j) then s m * s j / vol (c j) else 0.
  Lemma q_prop j : (j < n)%nat -> prop_on (q j).
  Proof.
    intros Hj a b Ha Hb E. unfold q. rewrite E. destruct (Nat.eqb (c b) (c j)); [|ring]. unfold Rdiv. ring.
  Qed.
  Lemma q_coef l j : (l < n)%nat -> (j < n)%nat -> sel l = true -> rsum n (fun m => V l m * q j m) = V l j.
  Proof.
    intros Hl Hj E. pose proof (vol_pos Hj) as P.
    rewrite (rsum_ext _ (fun m => V l j / vol (c j) * (if Nat.eqb (c m) (c j) then s m * s m else 0))).
    - rewrite rsum_mul_l. fold (vol (c j)). field. lra.
    - intros m Hm. unfold q. destruct (Nat.eqb_spec (c m) (c j)) as [C|C]; [|ring].
      pose proof (H1 Hl E Hm Hj C) as K. unfold Rdiv. transitivity (V l m * s j * s m * / vol (c j)); [ring|]. rewrite K. ring.
  Qed.
  Lemma gram i j : (i < n)%nat -> (j < n)%nat ->
    rsum n (fun l => if sel l then V l i * V l j else 0) = if Nat.eqb (c i) (c j) then s i * s j / vol (c j) else 0.
  Proof.
    intros Hi Hj. change (if Nat.eqb (c i) (c j) then s i * s j / vol (c j) else 0) with (q j i).
    transitivity (rsum n (fun l => V l i * rsum n (fun m => V l m * q j m))).
    - apply rsum_ext. intros l Hl. destruct (sel l) eqn:E; [now rewrite q_coef|]. rewrite H2; auto; [ring|now apply q_prop].
    - rewrite (rsum_ext _ (fun l => rsum n (fun m => V l i * V l m * q j m))).
      + rewrite rsum_exchange. rewrite (rsum_ext _ (fun m => delta i m * q j m)); [now apply delta_sum|].
        intros m Hm. rewrite rsum_mul_r. now rewrite HV2.
      + intros l Hl. rewrite <- rsum_mul_l. apply rsum_ext. intros. ring.
  Qed.
  Variable k : nat.
  Hypothesis Hc : forall i, (i < n)%nat -> (c i < k)%nat.
  Hypothesis Honto : forall a, (a < k)%nat -> exists i, (i < n)%nat /\ c i = a.
  Lemma trace_count : rsum n (fun l => if sel l then 1 else 0) = INR k.
  Proof.
    transitivity (rsum n (fun i => rsum n (fun l => if sel l then V l i * V l i else 0))).
    - rewrite rsum_exchange. apply rsum_ext. intros l Hl. destruct (sel l); [|now rewrite rsum_0].
      rewrite HV1 by auto. unfold delta. now rewrite Nat.eqb_refl.
    - rewrite (rsum_ext _ (fun i => rsum k (fun a => if Nat.eqb (c i) a then s i * s i / vol a else 0))).
      + rewrite rsum_exchange. rewrite (rsum_ext _ (fun _ => 1)).
        * rewrite rsum_const. ring.
        * intros a Ha. destruct (Honto Ha) as [i [Hi Ei]]. pose proof (vol_pos Hi) as P. rewrite Ei in P.
          rewrite (rsum_ext _ (fun i0 => / vol a * (if Nat.eqb (c i0) a then s i0 * s i0 else 0))).
          -- rewrite rsum_mul_l. fold (vol a). field. lra.
          -- intros m Hm. destruct (Nat.eqb _ _); unfold Rdiv; ring.
      + intros i Hi. rewrite gram, Nat.eqb_refl by auto. rewrite (@rsum_single k (c i)); auto.
        * now rewrite Nat.eqb_refl.
        * intros a Ha Hne. destruct (Nat.eqb_spec (c i) a); [lia|auto].
  Qed.
End Proj.

Lemma rsum_S n f : rsum (S n) f = rsum n f + f n.
Proof. reflexivity. Qed.
(** *** boolean predicates closed upwards or downwards *)
Lemma count_last n r : (r <= n)%nat -> rsum n (fun l => if Nat.leb r l then 1 else 0) = INR (n - r).
Proof.
  intros H. induction n as [|n IH]; [replace r with 0%nat by lia; reflexivity|].
  rewrite rsum_S. destruct (Nat.eq_dec r (S n)) as [->|].
  - rewrite (rsum_ext _ (fun _ => 0)), rsum_0.
    + destruct (Nat.leb_spec (S n) n); [lia|]. rewrite Nat.sub_diag. simpl. ring.
    + intros l Hl. destruct (Nat.leb_spec (S n) l); [lia|auto].
  - rewrite IH by lia. destruct (Nat.leb_spec r n); [|lia]. replace (S n - r)%nat with (S (n - r)) by lia. now rewrite S_INR.
Qed.
Lemma count_first n r : (r <= n)%nat -> rsum n (fun l => if Nat.ltb l r then 1 else 0) = INR r.
Proof.
  intros H. induction n as [|n IH]; [replace r with 0%nat by lia; reflexivity|].
  rewrite rsum_S. destruct (Nat.eq_dec r (S n)) as [->|].
  - rewrite (rsum_ext _ (fun l => if Nat.leb 0 l then 1 else 0)), count_last by (try lia; intros l Hl; destruct (Nat.ltb_spec l (S n)); auto; lia).
    destruct (Nat.ltb_spec n (S n)); [|lia]. rewrite Nat.sub_0_r. now rewrite S_INR.
  - rewrite IH by lia. destruct (Nat.ltb_spec n r); [lia|]. ring.
Qed.
Lemma up_closed n (f : nat -> bool) : (forall i j, (i <= j)%nat -> (j < n)%nat -> f i = true -> f j = true) ->
  exists r, (r <= n)%nat /\ forall l, (l < n)%nat -> f l = Nat.leb r l.
Proof.
  induction n as [|n IH]; intros H; [exists 0%nat; split; [lia|intros; lia]|].
  destruct IH as [r [Hr Hf]]; [intros i j Hij Hj; apply H; lia|].
  destruct (f n) eqn:E.
  - exists r. split; [lia|]. intros l Hl. destruct (Nat.eq_dec l n) as [->|]; [rewrite E; symmetry; now apply Nat.leb_le|apply Hf; lia].
  - destruct (Nat.eq_dec r n) as [->|].
    + exists (S n). split; [lia|]. intros l Hl. destruct (Nat.leb_spec (S n) l); [lia|].
      destruct (Nat.eq_dec l n) as [->|]; auto. rewrite Hf by lia. apply Nat.leb_gt. lia.
    + exfalso. rewrite (H r n) in E; [discriminate|lia|lia|]. rewrite Hf by lia. apply Nat.leb_refl.
Qed.
Lemma up_closed_count n k (f : nat -> bool) : (forall i j, (i <= j)%nat -> (j < n)%nat -> f i = true -> f j = true) ->
  rsum n (fun l => if f l then 1 else 0) = INR k -> (k <= n)%nat /\ forall l, (l < n)%nat -> f l = Nat.leb (n - k) l.
Proof.
  intros H E. destruct (@up_closed n f H) as [r [Hr Hf]].
  rewrite (rsum_ext _ (fun l => if Nat.leb r l then 1 else 0)) in E by (intros l Hl; now rewrite Hf).
  rewrite count_last in E by auto. apply INR_eq in E. split; [lia|]. replace (n - k)%nat with r by lia. auto.
Qed.
Lemma down_closed_count n k (f : nat -> bool) : (forall i j, (i <= j)%nat -> (j < n)%nat -> f j = true -> f i = true) ->
  rsum n (fun l => if f l then 1 else 0) = INR k -> (k <= n)%nat /\ forall l, (l < n)%nat -> f l = Nat.ltb l k.
Proof.
  intros H E. destruct (@up_closed n (fun l => negb (f l))) as [r [Hr Hf]].
  - intros i j Hij Hj Hi. destruct (f j) eqn:Ej; auto. rewrite (H i j) in Hi; auto.
  - assert (Hg : forall l, (l < n)%nat -> f l = Nat.ltb l r).
    { intros l Hl. specialize (Hf l Hl). destruct (Nat.leb_spec r l), (Nat.ltb_spec l r); try lia; destruct (f l); auto; discriminate. }
    rewrite (rsum_ext _ (fun l => if Nat.ltb l r then 1 else 0)) in E by (intros l Hl; now rewrite Hg).
    rewrite count_first in E by auto. apply INR_eq in E. subst r. auto.
Qed.

(** *** k-means on points that coincide within groups *)
Lemma nrm_zero_eq (x y : vec) : length x = length y -> nrm (rsub x y) = 0 -> x = y.
Proof.
  intros L H. assert (Z : nrm2 (rsub x y) = 0).
  { unfold nrm in H. apply sqrt_eq_0 in H; auto. apply rdot_pos. }
  assert (L2 : length (rsub x y) = length x) by (rewrite rsub_len, L; apply Nat.min_id).
  apply vec_eq; auto. intros i Hi. unfold nrm2 in Z. rewrite (@rdot_sum (length x)) in Z by auto.
  assert (T := @rsum_eq0 (length x) (fun i => (rsub x y)@i * (rsub x y)@i) (fun i _ => Rle_0_sqr _) Z i Hi). cbv beta in T.
  rewrite rsub_nth in T by auto. apply Rmult_integral in T as [T|T]; lra.
Qed.
Lemma nrm_self (x : vec) : nrm (rsub x x) = 0.
Proof.
  transitivity (sqrt 0); [|apply sqrt_0]. unfold nrm. f_equal.
  rewrite (@rdot_sum (length x)) by (rewrite rsub_len, Nat.min_id; auto). apply rsum_0'. intros i Hi. rewrite rsub_nth by auto. ring.
Qed.
Section KMrec.
  Variables (n d k : nat) (P : mat) (c : nat -> nat) (keys : list (list nat)) (thresh : R) (mi fuel : nat).
  Hypothesis HP : shape n d P.
  Hypothesis Hsame : forall i j, (i < n)%nat -> (j < n)%nat -> (row P i = row P j <-> c i = c j).
  Hypothesis Hn : (0 < n)%nat.
  Hypothesis Hck : forall i, (i < n)%nat -> (c i < k)%nat.
  Hypothesis Hkeys : forall idx, In idx keys -> picks n k idx.
  Lemma reach_assign idx j s : reaches (km_cond thresh mi) (km_body d P k) (km_init idx P) j s ->
    km_assignment s = fst (find_assignment P (km_centroids s)).
  Proof.
    intros H. destruct H as [|j s s' H C B]; [now rewrite init_eq|]. rewrite body_eq in B. injection B as <-. reflexivity.
  Qed.
  Let L : length P = n := proj1 HP.
  Let Hk : (0 < k)%nat. Proof. pose proof (Hck Hn). lia. Qed.
  Lemma final_zero idx s : picks n k idx -> picks_every_component n k c idx ->
    kmeans_with_seed d idx P k thresh mi fuel = Done s -> km_distortion s = 0.
  Proof.
    intros [Hl Hb] Hp HR. destruct (@km_final n d k P HP Hn Hk thresh mi idx Hl Hb fuel s HR) as [[I1 [I2 [I3 I4]]] [_ [Q _]]].
    assert (Z : sq_cost P (map (row P) idx) (km_assignment (km_init idx P)) <= 0).
    { rewrite init_eq. cbn [km_assignment]. unfold sq_cost. apply Req_le, rsum_0'. intros i Hi. rewrite L in Hi.
      set (C := map (row P) idx). assert (LC : length C = k) by (unfold C; now rewrite map_length).
      destruct (@assign_nearest n d k P HP Hn Hk C i LC Hi) as [_ Nr].
      destruct (Hp (c i) (Hck Hi)) as [m [Hm Em]]. destruct (In_nth _ _ 0%nat Hm) as [p [Lp Ep]].
      assert (D : row_dist P i C p = 0).
      { unfold row_dist, C. rewrite (nth_map_lt (row P) idx _ 0%nat) by auto. rewrite Ep.
        replace (row P m) with (row P i) by (symmetry; apply Hsame; auto). apply nrm_self. }
      assert (E : row_dist P i C (nth i (fst (find_assignment P C)) 0%nat) = 0).
      { apply Rle_antisym; [rewrite <- D; apply Nr; lia|apply row_dist_pos]. }
      rewrite E. ring. }
    rewrite I4. unfold mean_dist. rewrite rsum_0'; [unfold Rdiv; ring|]. intros i Hi.
    assert (ZZ : sq_cost P (km_centroids s) (km_assignment s) = 0).
    { apply Rle_antisym; [lra|]. unfold sq_cost. apply rsum_pos. intros. apply Rle_0_sqr. }
    assert (T := @rsum_eq0 (length P) (fun i => row_dist P i (km_centroids s) (nth i (km_assignment s) 0%nat) * row_dist P i (km_centroids s) (nth i (km_assignment s) 0%nat)) (fun i _ => Rle_0_sqr _) ZZ i Hi). cbv beta in T.
    apply Rmult_integral in T as [T|T]; exact T.
  Qed.
  Lemma kmeans_recovers i s : (exists idx, In idx keys /\ picks_every_component n k c idx) ->
    kmeans d keys P k thresh mi fuel = Some (i, s) ->
    length (km_assignment s) = n /\
    forall p q, (p < n)%nat -> (q < n)%nat -> (nth p (km_assignment s) 0%nat = nth q (km_assignment s) 0%nat <-> c p = c q).
  Proof.
    intros [idx [Hin Hp]] HR. destruct (kmeans_best _ _ _ _ _ _ _ HR) as [Hi [Hrun Hbest]].
    destruct (In_nth _ _ ([] : list nat) Hin) as [j [Lj Ej]]. destruct (Hbest j Lj) as [s' [Hs' Hle]].
    rewrite Ej in Hs'. rewrite (final_zero (Hkeys _ Hin) Hp Hs') in Hle.
    assert (Hin2 : In (nth i keys []) keys) by now apply nth_In. destruct (Hkeys _ Hin2) as [Hl Hb].
    destruct (@km_final n d k P HP Hn Hk thresh mi _ Hl Hb fuel s Hrun) as [[I1 [I2 [I3 I4]]] _].
    assert (As : km_assignment s = fst (find_assignment P (km_centroids s))).
    { unfold kmeans_with_seed in Hrun. apply while_done in Hrun. destruct Hrun as [m [_ [H _]]]. eapply reach_assign; eauto. }
    split; [destruct I2 as [A _]; lia|].
    assert (Z : forall p, (p < n)%nat -> row (km_centroids s) (nth p (km_assignment s) 0%nat) = row P p).
    { intros p Hp'. apply nrm_zero_eq.
      - unfold row. rewrite (shape_row HP Hp'). apply (shape_row I1). apply I2. lia.
      - change (row_dist P p (km_centroids s) (nth p (km_assignment s) 0%nat) = 0).
        rewrite I4 in Hle. unfold mean_dist in Hle. rewrite L in Hle.
        assert (PI : 0 < INR n) by now apply lt_0_INR.
        assert (ZS : rsum n (fun i => row_dist P i (km_centroids s) (nth i (km_assignment s) 0%nat)) = 0).
        { apply Rle_antisym; [|apply rsum_pos; intros; apply row_dist_pos].
          apply (Rmult_le_reg_r (/ INR n)); [now apply Rinv_0_lt_compat|]. unfold Rdiv in Hle. lra. }
        exact (@rsum_eq0 n (fun i => row_dist P i (km_centroids s) (nth i (km_assignment s) 0%nat)) (fun i _ => row_dist_pos P (km_centroids s) i _) ZS p Hp'). }
    intros p r Hp' Hr. split.
    - intros E. apply Hsame; auto. rewrite <- (Z p), <- (Z r), E by auto. reflexivity.
    - intros E. apply Hsame in E; auto. rewrite As. rewrite !(@assign_nth n d k P HP Hn Hk) by auto. now rewrite E.
  Qed.
End KMrec.
