(** Lemmas about recovery performance and trials. *)
From Coq Require Import List Arith Bool Reals Lia Lra Psatz Permutation.
From Verif Require Import Vec RVec RMat Loop SelModel SelSpec SelProofs PursuitModel PursuitSpec PursuitProofs4 PursuitLemmas3 PerfModel.
Import ListNotations.
Local Open Scope R_scope.

Lemma Reqb_refl0 : Reqb 0 0 = true.
Proof. destruct (Reqb_spec 0 0); [auto|lra]. Qed.
Lemma nz_in x i : In i (nonzero_indices x) <-> (i < length x)%nat /\ x@i <> 0.
Proof.
  unfold nonzero_indices. rewrite filter_In, in_seq. destruct (Reqb_spec (x@i) 0) as [E|E]; cbn; intuition; try lia; discriminate.
Qed.
Lemma nz_nodup x : NoDup (nonzero_indices x).
Proof. apply NoDup_filter, seq_NoDup. Qed.
Lemma nz_support x : support (nonzero_indices x) x.
Proof.
  split; [apply nz_nodup|]. split; [intros i H; now apply nz_in in H|].
  intros i Hi. rewrite nz_in. tauto.
Qed.
Lemma nz_len_le x : (length (nonzero_indices x) <= length x)%nat.
Proof.
  transitivity (length (seq 0 (length x))); [|rewrite seq_length; apply le_n].
  apply NoDup_incl_length; [apply nz_nodup|].
  intros i H. apply nz_in in H. apply in_seq. lia.
Qed.
Lemma in_existsb i J : existsb (Nat.eqb i) J = true <-> In i J.
Proof. exact (mem_in i J). Qed.
Lemma setdiff_in i I J : In i (setdiff I J) <-> In i I /\ ~ In i J.
Proof.
  unfold setdiff. rewrite filter_In. destruct (existsb (Nat.eqb i) J) eqn:E; cbn.
  - apply in_existsb in E. intuition discriminate.
  - assert (~ In i J) by (intros C; apply in_existsb in C; congruence). intuition.
Qed.
Lemma intersect_in i I J : In i (intersect I J) <-> In i I /\ In i J.
Proof. unfold intersect. rewrite filter_In, in_existsb. tauto. Qed.
Lemma filter_len_le {A} (f : A -> bool) l : (length (filter f l) <= length l)%nat.
Proof. induction l as [|a l IH]; cbn; auto. destruct (f a); cbn; lia. Qed.
Lemma filter_len_all {A} (f : A -> bool) l : (length l <= length (filter f l))%nat <-> forall a, In a l -> f a = true.
Proof.
  induction l as [|a l IH]; cbn; [intuition|]. pose proof (filter_len_le f l). destruct (f a) eqn:E; cbn.
  - split.
    + intros H1 b [<-|Hb]; auto. apply IH; [lia|auto].
    + intros H1. assert (length l <= length (filter f l))%nat by (apply IH; auto). lia.
  - split; [lia|]. intros H1. rewrite H1 in E by auto. discriminate.
Qed.

Section RP.
  Variables (phi : vec -> vec) (y x x_hat : vec).
  Hypothesis Lx : length x_hat = length x.
  Let rp := recovery_performance phi y x x_hat.

  Lemma rp_R0_spec : NoDup (rp_R0 rp) /\ length (rp_R0 rp) = rp_K rp /\
    (forall i, In i (rp_R0 rp) -> (i < length x)%nat) /\
    forall i j, In i (rp_R0 rp) -> (j < length x)%nat -> ~ In j (rp_R0 rp) -> Rabs (x_hat@j) <= Rabs (x_hat@i).
  Proof.
    assert (HK : (length (nonzero_indices x) <= length x_hat)%nat) by (rewrite Lx; apply nz_len_le).
    pose proof (largest_top x_hat HK) as (ND & HL & HB & HT).
    pose proof (nsort_perm (largest_indices x_hat (length (nonzero_indices x)))) as P.
    change (rp_R0 rp) with (nsort (largest_indices x_hat (length (nonzero_indices x)))).
    change (rp_K rp) with (length (nonzero_indices x)).
    split; [exact (Permutation_NoDup (Permutation_sym P) ND)|].
    split; [rewrite (Permutation_length P); exact HL|].
    split.
    - intros i Hi. apply (Permutation_in i P) in Hi. apply HB in Hi. rewrite map_length, Lx in Hi. auto.
    - intros i j Hi Hj Hn. apply (Permutation_in i P) in Hi.
      specialize (HT i j Hi ltac:(rewrite map_length, Lx; auto) ltac:(intros C; apply Hn; exact (Permutation_in j (Permutation_sym P) C))).
      rewrite !map_nth0 in HT by apply Rabs_R0. exact HT.
  Qed.

  Lemma perfect_iff : perfect_support_recovery rp = true <->
    (forall i, (i < length x)%nat -> (x@i <> 0 <-> In i (rp_R0 rp))).
  Proof.
    unfold perfect_support_recovery. rewrite Nat.leb_le.
    change (rp_num_correct rp) with (length (intersect (nonzero_indices x) (rp_R0 rp))).
    change (rp_K rp) with (length (nonzero_indices x)). unfold intersect. rewrite filter_len_all.
    destruct rp_R0_spec as (ND & HL & HB & HT). change (rp_K rp) with (length (nonzero_indices x)) in HL.
    split.
    - intros H.
      assert (Hincl : incl (nonzero_indices x) (rp_R0 rp)) by (intros i Hi; apply in_existsb, H, Hi).
      assert (Hincl' : incl (rp_R0 rp) (nonzero_indices x)).
      { apply NoDup_length_incl; auto; [apply nz_nodup|lia]. }
      intros i Hi. split; intros H1.
      + apply Hincl, nz_in. auto.
      + apply Hincl', nz_in in H1. tauto.
    - intros H i Hi. apply in_existsb. apply nz_in in Hi. apply H; tauto.
  Qed.

  Lemma ratio_bounds q : support_recovery_ratio rp = Some q ->
    0 <= q <= 1 /\ (q = 1 <-> perfect_support_recovery rp = true) /\ q * INR (rp_K rp) = INR (rp_num_correct rp).
  Proof.
    unfold support_recovery_ratio. destruct (Nat.eqb_spec (rp_K rp) 0) as [E|E]; [discriminate|].
    intros H. assert (Eq : q = INR (rp_num_correct rp) / INR (rp_K rp)) by congruence. rewrite Eq. clear H.
    assert (Hp : 0 < INR (rp_K rp)) by (apply lt_0_INR; lia).
    assert (Hle : (rp_num_correct rp <= rp_K rp)%nat) by apply filter_len_le.
    pose proof (le_INR _ _ Hle) as Hle'. pose proof (pos_INR (rp_num_correct rp)) as H0.
    assert (Hi : 0 < / INR (rp_K rp)) by now apply Rinv_0_lt_compat.
    assert (Hk : INR (rp_K rp) * / INR (rp_K rp) = 1) by (field; lra).
    split.
    { split.
      - apply Rmult_le_pos; lra.
      - rewrite <- Hk. apply Rmult_le_compat_r; lra. }
    split; [|field; lra].
    unfold perfect_support_recovery. rewrite Nat.leb_le. split; intros H.
    - apply INR_le. assert (INR (rp_num_correct rp) = INR (rp_K rp)); [|lra].
      rewrite <- (Rmult_1_l (INR (rp_K rp))), <- H. field. lra.
    - assert (E1 : rp_num_correct rp = rp_K rp) by (apply Nat.le_antisymm; assumption). rewrite E1. field. lra.
  Qed.
  Lemma ratio_none : support_recovery_ratio rp = None <-> forall i, (i < length x)%nat -> x@i = 0.
  Proof.
    unfold support_recovery_ratio. change (rp_K rp) with (length (nonzero_indices x)).
    destruct (Nat.eqb_spec (length (nonzero_indices x)) 0) as [E|E]; split; intros H; auto; try discriminate.
    - intros i Hi. destruct (Req_dec (x@i) 0) as [|Hn]; auto. exfalso.
      assert (Hin : In i (nonzero_indices x)) by (apply nz_in; auto).
      destruct (nonzero_indices x); [contradiction|discriminate].
    - exfalso. apply E. destruct (nonzero_indices x) as [|i l] eqn:El; auto. exfalso.
      assert (Hin : In i (nonzero_indices x)) by (rewrite El; now left). apply nz_in in Hin.
      destruct Hin as [Hi Hn]. apply Hn, H, Hi.
  Qed.

  Lemma ln10_pos : 0 < ln 10.
  Proof. rewrite <- ln_1. apply ln_increasing; lra. Qed.
  Lemma snr_iff a b : 0 < a -> 0 < b -> (30 < 20 * (ln (a / b) / ln 10) <-> 1000 * (b * b) < a * a).
  Proof.
    intros Ha Hb. pose proof ln10_pos as HL.
    assert (Hq : 0 < a / b) by (apply Rdiv_lt_0_compat; auto).
    assert (E1 : ln (a / b) + ln (a / b) = ln ((a * a) / (b * b))).
    { rewrite <- ln_mult by auto. f_equal. field. lra. }
    assert (E2 : ln 1000 = 3 * ln 10).
    { replace 1000 with (10 * (10 * 10)) by ring. rewrite !ln_mult by lra. ring. }
    assert (Hqq : 0 < a * a / (b * b)) by (apply Rdiv_lt_0_compat; nra).
    assert (S1 : 30 < 20 * (ln (a / b) / ln 10) <-> ln 1000 < ln (a * a / (b * b))).
    { rewrite <- E1, E2. set (L := ln (a / b)). split; intros H.
      - assert (H1 : 3 / 2 < L / ln 10) by lra. apply (Rmult_lt_compat_r (ln 10)) in H1; auto.
        replace (L / ln 10 * ln 10) with L in H1 by (field; lra). lra.
      - assert (H1 : 3 / 2 < L / ln 10); [|lra]. apply (Rmult_lt_reg_r (ln 10)); auto.
        replace (L / ln 10 * ln 10) with L by (field; lra). lra. }
    rewrite S1. split; intros H.
    - apply ln_lt_inv in H; try lra. apply (Rmult_lt_compat_r (b * b)) in H; [|nra].
      replace (a * a / (b * b) * (b * b)) with (a * a) in H by (field; lra). lra.
    - apply ln_increasing; [lra|]. apply (Rmult_lt_reg_r (b * b)); [nra|].
      replace (a * a / (b * b) * (b * b)) with (a * a) by (field; lra). lra.
  Qed.

  Lemma nrm_sq v : nrm v * nrm v = nrm2 v.
  Proof. unfold nrm, nrm2. apply sqrt_sqrt, rdot_pos. Qed.
  Lemma snr_model : 0 < nrm x -> (snr_above_30 rp = true <-> 1000 * nrm2 (rsub x x_hat) < nrm2 x).
  Proof.
    intros Hx. unfold snr_above_30. change (rp_x_norm rp) with (nrm x). change (rp_h_norm rp) with (nrm (rsub x x_hat)).
    rewrite <- !nrm_sq. destruct (Reqb_spec (nrm x) 0) as [E|E]; [lra|].
    assert (Hh : 0 <= nrm (rsub x x_hat)) by apply sqrt_pos.
    destruct (Reqb_spec (nrm (rsub x x_hat)) 0) as [E'|E'].
    - rewrite E'. split; auto. intros _. nra.
    - rewrite <- (snr_iff (nrm x) (nrm (rsub x x_hat))) by lra.
      destruct (Rltb_spec 30 (20 * (ln (nrm x / nrm (rsub x x_hat)) / ln 10))); split; intros; auto; try discriminate; lra.
  Qed.
  Lemma nrm2_rsum v : nrm2 v = rsum (length v) (fun i => v@i * v@i).
  Proof.
    unfold nrm2. rewrite (@rdot_sum (length v)) by auto. reflexivity.
  Qed.
  Lemma nrm_pos_nz : rp_K rp <> 0%nat -> 0 < nrm x.
  Proof.
    change (rp_K rp) with (length (nonzero_indices x)). intros H.
    destruct (nonzero_indices x) as [|i l] eqn:El; [contradiction|].
    assert (Hin : In i (nonzero_indices x)) by (rewrite El; now left). apply nz_in in Hin.
    destruct Hin as [Hi Hn]. apply sqrt_lt_R0. change (0 < nrm2 x). rewrite nrm2_rsum.
    assert (Hnn : forall i, (i < length x)%nat -> 0 <= x@i * x@i) by (intros; nra).
    pose proof (@rsum_ge_term (length x) (fun i => x@i * x@i) i Hi Hnn) as G. cbn beta in G. nra.
  Qed.

  Lemma success_iff b : success rp = Some b ->
    (b = true <-> 3 * INR (rp_K rp) < 4 * INR (rp_num_correct rp) /\ 1000 * nrm2 (rsub x x_hat) < nrm2 x).
  Proof.
    unfold success. destruct (support_recovery_ratio rp) as [q|] eqn:E; [|discriminate].
    intros H. assert (Eb : b = (Rltb (75 / 100) q && snr_above_30 rp)%bool) by congruence. rewrite Eb. clear H Eb. destruct (ratio_bounds q E) as (_ & _ & Hq).
    unfold support_recovery_ratio in E. destruct (Nat.eqb_spec (rp_K rp) 0) as [E0|E0]; [discriminate|].
    assert (Hp : 0 < INR (rp_K rp)) by (apply lt_0_INR; lia).
    rewrite andb_true_iff, (snr_model (nrm_pos_nz E0)).
    destruct (Rltb_spec (75 / 100) q) as [Hl|Hl]; split; intros [A B]; split; auto; try discriminate; try nra.
  Qed.

  (** ** Splitting the error *)
  Lemma rp_T1_spec : NoDup (rp_T1 rp) /\ length (rp_T1 rp) = rp_K rp /\ forall i, In i (rp_T1 rp) -> (i < length x)%nat.
  Proof.
    change (rp_T1 rp) with (largest_indices (zero_at (rsub x x_hat) (nonzero_indices x)) (length (nonzero_indices x))).
    change (rp_K rp) with (length (nonzero_indices x)).
    assert (Lz : length (zero_at (rsub x x_hat) (nonzero_indices x)) = length x).
    { unfold zero_at. rewrite tab_length, rsub_len, Lx. apply Nat.min_id. }
    split; [apply li_nodup|]. split; [rewrite li_len, Lz; pose proof (nz_len_le x); lia|].
    intros i Hi. apply li_lt in Hi. lia.
  Qed.

  Lemma isum_rsum I f : NoDup I -> (forall i, In i I -> (i < length x)%nat) ->
    rlsum (map f I) = rsum (length x) (fun i => if mem i I then f i else 0).
  Proof. intros. now apply (@isum_indicator (length x) I f). Qed.

  Lemma take_nrm2 h I : nrm2 (take_at h I) = rlsum (map (fun i => h@i * h@i) I).
  Proof. unfold take_at, nrm2. induction I as [|a I IH]; [reflexivity|]. cbn [map rdot rlsum]. now rewrite IH. Qed.

  Lemma split_energy : (forall i, In i (rp_T1 rp) -> x@i = 0) ->
    nrm2 (rp_h rp) = nrm2 (rp_h_T0 rp) + nrm2 (rp_h_T1 rp) + nrm2 (rp_h_TRest rp).
  Proof.
    intros Hd. destruct rp_T1_spec as (ND & HL & HB).
    set (h := rp_h rp). assert (Lh : length h = length x) by (unfold h, rp; cbn [rp_h recovery_performance]; rewrite rsub_len, Lx; apply Nat.min_id).
    change (rp_h_T0 rp) with (take_at h (nonzero_indices x)). change (rp_h_T1 rp) with (take_at h (rp_T1 rp)).
    change (rp_h_TRest rp) with (take_at h (rp_TRest rp)). rewrite !take_nrm2, nrm2_rsum, Lh.
    assert (NDr : NoDup (rp_TRest rp)).
    { apply NoDup_filter. apply NoDup_filter. apply seq_NoDup. }
    assert (Hr : forall i, In i (rp_TRest rp) <-> (i < length x)%nat /\ x@i = 0 /\ ~ In i (rp_T1 rp)).
    { intros i. change (rp_TRest rp) with (setdiff (setdiff (seq 0 (length x)) (nonzero_indices x)) (rp_T1 rp)).
      rewrite !setdiff_in, in_seq, nz_in. destruct (Req_dec (x@i) 0); intuition lia. }
    rewrite (isum_rsum (nonzero_indices x)) by (try apply nz_nodup; intros i Hi; now apply nz_in in Hi).
    rewrite (isum_rsum (rp_T1 rp)) by auto.
    rewrite (isum_rsum (rp_TRest rp)) by (auto; intros i Hi; now apply Hr in Hi).
    rewrite <- !rsum_add. apply rsum_ext. intros i Hi.
    destruct (mem i (nonzero_indices x)) eqn:E0, (mem i (rp_T1 rp)) eqn:E1, (mem i (rp_TRest rp)) eqn:E2; try ring; exfalso;
      try apply mem_in in E0; try apply mem_in in E1; try apply mem_in in E2.
    - apply nz_in in E0. apply Hd in E1. tauto.
    - apply nz_in in E0. apply Hd in E1. tauto.
    - apply Hr in E2. apply nz_in in E0. tauto.
    - apply Hr in E2. tauto.
    - assert (C : In i (rp_TRest rp)).
      { apply Hr. split; auto. split.
        - destruct (Req_dec (x@i) 0) as [|Hn]; auto. exfalso.
          assert (Hin : mem i (nonzero_indices x) = true) by (apply mem_in, nz_in; auto). congruence.
        - intros C. apply mem_in in C. congruence. }
      apply mem_in in C. congruence.
  Qed.

  (** T1 avoids the support when the error has at least K nonzero entries off it *)
  Lemma T1_off : (forall i, (i < length x)%nat -> x@i = 0 -> ~ In i (rp_T1 rp) -> (rp_h rp)@i = 0) \/
    forall i, In i (rp_T1 rp) -> x@i = 0.
  Proof.
    assert (Lh : length (rsub x x_hat) = length x) by (rewrite rsub_len, Lx; apply Nat.min_id).
    assert (Hk : (length (nonzero_indices x) <= length (rsub x x_hat))%nat) by (rewrite Lh; apply nz_len_le).
    destruct (reselect (rsub x x_hat) (nonzero_indices x) Hk) as [H|H].
    - right. intros i Hi. destruct (Req_dec (x@i) 0) as [|Hn]; auto. exfalso.
      apply (H i); auto. apply nz_in. split; auto. apply rp_T1_spec. auto.
    - left. intros i Hi H0 Hn. apply H; auto; [now rewrite Lh|]. rewrite nz_in. tauto.
  Qed.
End RP.

Lemma exact_recovery phi x : let rp := recovery_performance phi (phi x) x x in
  (exists i, (i < length x)%nat /\ x@i <> 0) ->
  success rp = Some true /\ perfect_support_recovery rp = true /\ nrm2 (rp_r rp) = 0 /\ nrm2 (rp_h rp) = 0.
Proof.
  intros rp [i0 [Hi0 Hn0]].
  assert (Hz : forall v, nrm2 (rsub v v) = 0).
  { intros v. rewrite nrm2_rsum. apply rsum_0'. intros i Hi. rewrite rsub_len in Hi.
    rewrite rsub_nth by auto. ring. }
  assert (HP : perfect_support_recovery rp = true).
  { apply (perfect_iff phi (phi x) x x eq_refl). fold rp.
    destruct (rp_R0_spec phi (phi x) x x eq_refl) as (ND & HL & HB & HT). fold rp in ND, HL, HB, HT.
    assert (Hincl : forall i, x@i <> 0 -> (i < length x)%nat -> In i (rp_R0 rp)).
    { intros i Hn Hi. destruct (in_dec Nat.eq_dec i (rp_R0 rp)) as [|Hni]; auto. exfalso.
      assert (Hall : incl (rp_R0 rp) (nonzero_indices x)).
      { intros j Hj. apply nz_in. split; auto. intros E. specialize (HT j i Hj Hi Hni).
        rewrite E, Rabs_R0 in HT. apply Rabs_pos_lt in Hn. lra. }
      assert (Hall' : incl (nonzero_indices x) (rp_R0 rp)).
      { apply NoDup_length_incl; auto. rewrite HL. apply le_n. }
      apply Hni, Hall', nz_in. auto. }
    intros i Hi. split; auto. intros Hin.
    assert (Hall : incl (nonzero_indices x) (rp_R0 rp)) by (intros j Hj; apply nz_in in Hj; apply Hincl; tauto).
    assert (Hall' : incl (rp_R0 rp) (nonzero_indices x)).
    { apply NoDup_length_incl; auto; [apply nz_nodup|]. rewrite HL. apply le_n. }
    apply Hall', nz_in in Hin. tauto. }
  split; [|split; [auto|split; apply Hz]].
  destruct (success rp) as [b|] eqn:Es.
  - f_equal. apply (success_iff phi (phi x) x x eq_refl b Es). fold rp.
    destruct (support_recovery_ratio rp) as [q|] eqn:Eq; [|unfold success in Es; rewrite Eq in Es; discriminate].
    destruct (ratio_bounds phi (phi x) x x eq_refl q Eq) as (_ & H1 & H2). fold rp in H1, H2.
    assert (q = 1) by tauto. subst q.
    assert (HK : rp_K rp <> 0%nat).
    { unfold support_recovery_ratio in Eq. destruct (Nat.eqb_spec (rp_K rp) 0); [discriminate|auto]. }
    assert (Hp : 0 < INR (rp_K rp)) by (apply lt_0_INR; lia).
    split; [lra|]. rewrite Hz. pose proof (nrm_pos_nz phi (phi x) x x HK) as Hx. rewrite <- nrm_sq. nra.
  - exfalso. unfold success in Es. destruct (support_recovery_ratio rp) as [q|] eqn:Eq; [discriminate|].
    pose proof (proj1 (ratio_none phi (phi x) x x) Eq) as Hall. apply Hn0, Hall, Hi0.
Qed.

(** ** Trials *)
Lemma rlsum_INR_bounds lo hi l : (forall v, In v l -> (lo <= v <= hi)%nat) ->
  INR lo * INR (length l) <= rlsum (map INR l) <= INR hi * INR (length l).
Proof.
  induction l as [|a l IH]; intros H; [cbn; lra|]. cbn [map rlsum length]. rewrite S_INR.
  assert (Ha : (lo <= a <= hi)%nat) by (apply H; now left). destruct Ha as [A B]. apply le_INR in A. apply le_INR in B.
  assert (IH' := IH ltac:(intros; apply H; now right)). lra.
Qed.
Lemma fold_min_le d l v : In v l -> (fold_right Nat.min d l <= v)%nat.
Proof. induction l as [|a l IH]; cbn; [tauto|]. intros [<-|H]; [lia|]. specialize (IH H). lia. Qed.
Lemma fold_max_ge l v : In v l -> (v <= fold_right Nat.max 0%nat l)%nat.
Proof. induction l as [|a l IH]; cbn; [tauto|]. intros [<-|H]; [lia|]. specialize (IH H). lia. Qed.
Lemma fold_min_in d l : fold_right Nat.min d l = d \/ In (fold_right Nat.min d l) l.
Proof.
  induction l as [|a l IH]; cbn; auto. destruct (Nat.min_spec a (fold_right Nat.min d l)) as [[_ ->]|[_ ->]]; intuition.
Qed.
Lemma fold_max_in l : l <> [] -> In (fold_right Nat.max 0%nat l) l.
Proof.
  induction l as [|a l IH]; [tauto|]. intros _. cbn [fold_right].
  destruct (Nat.max_spec a (fold_right Nat.max 0%nat l)) as [[H ->]|[_ ->]]; [|now left].
  right. apply IH. intros ->. cbn in H. lia.
Qed.

  Lemma make_row_ok K res r : make_row K res = Some r ->
    row_k r = K /\ row_trials r = length res /\ (row_successes r + row_failures r = row_trials r)%nat /\
    row_successes r = length (filter (fun p => fst p) res) /\
    row_success_rate r = INR (row_successes r) / INR (row_trials r) /\
    0 <= row_success_rate r <= 1 /\
    INR (row_min_iters r) <= row_mean_iters r <= INR (row_max_iters r) /\
    (exists b, In (b, row_min_iters r) res) /\ (exists b, In (b, row_max_iters r) res) /\
    (forall b it, In (b, it) res -> (row_min_iters r <= it <= row_max_iters r)%nat).
  Proof.
    unfold make_row. destruct (Nat.leb_spec (length res) 1) as [|Hl]; [discriminate|].
    intros H. inversion H; subst r; clear H. cbn [row_k row_trials row_successes row_failures row_success_rate row_min_iters row_max_iters row_mean_iters].
    pose proof (filter_len_le (fun p : bool * nat => fst p) res) as Hf.
    assert (Hp : 0 < INR (length res)) by (apply lt_0_INR; lia).
    assert (Hi : 0 < / INR (length res)) by now apply Rinv_0_lt_compat.
    assert (Hk : INR (length res) * / INR (length res) = 1) by (field; lra).
    set (lo := fold_right Nat.min (hd 0%nat (map snd res)) (map snd res)).
    set (hi := fold_right Nat.max 0%nat (map snd res)).
    assert (HB : forall v, In v (map snd res) -> (lo <= v <= hi)%nat).
    { intros v Hv. split; [now apply fold_min_le|now apply fold_max_ge]. }
    assert (Hne : map snd res <> []) by (destruct res; [cbn in Hl; lia|discriminate]).
    assert (Hin : forall v, In v (map snd res) -> exists b, In (b, v) res).
    { intros v Hv. apply in_map_iff in Hv. destruct Hv as [[b v'] [E Hv]]. cbn in E. subst v'. now exists b. }
    repeat split; auto.
    - lia.
    - apply Rmult_le_pos; [apply pos_INR|lra].
    - rewrite <- Hk. apply Rmult_le_compat_r; [lra|]. now apply le_INR.
    - destruct (rlsum_INR_bounds lo hi (map snd res) HB) as [G _]. rewrite map_length in G.
      apply (Rmult_le_reg_r (INR (length res))); auto. unfold Rdiv. rewrite Rmult_assoc, Rinv_l by lra. lra.
    - destruct (rlsum_INR_bounds lo hi (map snd res) HB) as [_ G]. rewrite map_length in G.
      apply (Rmult_le_reg_r (INR (length res))); auto. unfold Rdiv. rewrite Rmult_assoc, Rinv_l by lra. lra.
    - apply Hin. unfold lo. destruct (fold_min_in (hd 0%nat (map snd res)) (map snd res)) as [->|]; auto.
      destruct (map snd res); [tauto|now left].
    - apply Hin, fold_max_in, Hne.
    - apply (HB it). apply in_map_iff. now exists (b, it).
    - apply (HB it). apply in_map_iff. now exists (b, it).
  Qed.

Section TrialProofs.
  Context {key : Type}.
  Variables (key0 : key) (split : key -> nat -> list key) (trial : nat -> key -> key -> bool * nat) (nd ns : nat).

  Lemma trials_len K k : length (trials_of key key0 split trial nd ns K k) = (nd * ns)%nat.
  Proof.
    unfold trials_of. cbv zeta. rewrite flat_map_concat_map. generalize (split k nd) as dk. intros dk.
    assert (G : forall l, length (concat (map (fun ndt => map (fun nst => trial K (clamped key0 dk ndt)
      (clamped key0 (split (clamped key0 dk ndt) nd) nst)) (seq 0 ns)) l)) = (length l * ns)%nat).
    { induction l as [|a l IH]; [reflexivity|]. cbn [map concat length]. rewrite app_length, map_length, seq_length, IH. lia. }
    rewrite G, seq_length. reflexivity.
  Qed.
  Lemma process_rows : (1 < nd * ns)%nat -> forall Ks k, exists rows, process key key0 split trial nd ns k Ks = (rows, true) /\
    Forall2 (fun K r => exists k', make_row K (trials_of key key0 split trial nd ns K k') = Some r) Ks rows.
  Proof.
    intros Hn Ks. induction Ks as [|K Ks IH]; intros k; [exists []; split; auto|]. cbn [process].
    set (k1 := nth 0 (split k 2) key0). destruct (make_row K (trials_of key key0 split trial nd ns K k1)) as [r|] eqn:E.
    - destruct (IH k1) as [rows [E1 F]]. rewrite E1. exists (r :: rows). split; auto. constructor; auto. now exists k1.
    - exfalso. unfold make_row in E. rewrite trials_len in E. destruct (Nat.leb_spec (nd * ns) 1); [lia|discriminate].
  Qed.
  Lemma process_short : (nd * ns <= 1)%nat -> forall K Ks k, process key key0 split trial nd ns k (K :: Ks) = ([], false).
  Proof.
    intros Hn K Ks k. cbn [process]. unfold make_row. rewrite trials_len.
    destruct (Nat.leb_spec (nd * ns) 1); [reflexivity|lia].
  Qed.
  (** every signal key of a dictionary beyond the number of dictionaries is the last one *)
  Lemma trials_one_dict K k : nd = 1%nat -> (forall k n, length (split k n) = n) ->
    exists d s, trials_of key key0 split trial nd ns K k = repeat (trial K d s) ns.
  Proof.
    intros -> HL. unfold trials_of. cbv zeta. cbn [seq flat_map]. rewrite app_nil_r.
    set (d := clamped key0 (split k 1) 0). exists d, (clamped key0 (split d 1) 0).
    assert (G : forall l, map (fun nst => trial K d (clamped key0 (split d 1) nst)) l = repeat (trial K d (clamped key0 (split d 1) 0)) (length l)).
    { induction l as [|a l IH]; [reflexivity|]. cbn [map length repeat]. rewrite IH. f_equal. f_equal. unfold clamped.
      rewrite HL. replace (Nat.min a (1 - 1)) with 0%nat by lia. reflexivity. }
    rewrite G, seq_length. reflexivity.
  Qed.
  (** the trial of dictionary i and signal j *)
  Lemma nth_flat_map_const {A B} (f : A -> list B) m l d a0 i j : (forall a, length (f a) = m) -> (i < length l)%nat -> (j < m)%nat ->
    nth (i * m + j) (flat_map f l) d = nth j (f (nth i l a0)) d.
  Proof.
    intros HL. revert i. induction l as [|a l IH]; intros i Hi Hj; [cbn in Hi; lia|]. cbn [flat_map]. destruct i as [|i].
    - cbn [Nat.mul Nat.add nth]. rewrite app_nth1 by (rewrite HL; lia). reflexivity.
    - rewrite app_nth2 by (rewrite HL; nia). rewrite HL. replace (S i * m + j - m)%nat with (i * m + j)%nat by nia.
      cbn [nth]. apply IH; auto. cbn in Hi. lia.
  Qed.
  Lemma trials_nth K k i j d : (forall k n, length (split k n) = n) -> (i < nd)%nat -> (j < ns)%nat ->
    let dk := nth i (split k nd) key0 in
    nth (i * ns + j) (trials_of key key0 split trial nd ns K k) d =
    trial K dk (nth (Nat.min j (nd - 1)) (split dk nd) key0).
  Proof.
    intros HL Hi Hj dk. unfold trials_of. cbv zeta.
    rewrite (@nth_flat_map_const _ _ _ ns _ d 0%nat i j) by (try (intros; now rewrite map_length, seq_length); rewrite ?seq_length; auto).
    rewrite seq_nth by auto. cbn [Nat.add].
    assert (Ed : clamped key0 (split k nd) i = dk).
    { unfold clamped. rewrite HL. replace (Nat.min i (nd - 1)) with i by lia. reflexivity. }
    rewrite Ed. rewrite (@nth_indep _ _ j d (trial K dk (clamped key0 (split dk nd) 0))) by now rewrite map_length, seq_length.
    rewrite (map_nth (fun nst => trial K dk (clamped key0 (split dk nd) nst)) (seq 0 ns) 0%nat j).
    rewrite seq_nth by auto. cbn [Nat.add]. unfold clamped. now rewrite HL.
  Qed.
End TrialProofs.
