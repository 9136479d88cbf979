From Coq Require Import List Arith Bool Lia Reals Lra Psatz.
From Verif Require Import Vec RVec RMat Loop LoopLemmas XReal SolverSpec SolverLemmas OptProofs FomProofs2 SpglProofs YallModel YallSpec.
Import ListNotations.
Set Implicit Arguments.
Local Open Scope R_scope.

Section Sets.
  Variables (n : nat) (nonneg : bool) (w : vec).
  Hypothesis Lw : length w = n.
  Hypothesis Hw : forall i, (i < n)%nat -> 0 <= w@i.
  Notation C := (in_dual_set n nonneg w).
  Definition proj_of (z : vec) : option vec := if nonneg then Some (project_to_real_upper_limit z w) else project_to_box z w.
  Lemma box_entry a c v : 0 <= c -> Rmax c (Rabs a) <> 0 -> Rabs v <= c ->
    let p := a * (c / Rmax c (Rabs a)) in Rabs p <= c /\ (a - p) * (v - p) <= 0.
  Proof.
    intros Hc N Hv. cbv zeta. pose proof (Rabs_pos a). destruct (Rle_dec (Rabs a) c) as [L|L].
    - rewrite Rmax_left in * by auto. replace (a * (c / c)) with a by (field; auto). split; auto. lra.
    - rewrite Rmax_right in * by lra.
      pose proof (Rle_abs v). pose proof (Rle_abs (- v)) as V3. rewrite Rabs_Ropp in V3.
      destruct (Rle_dec 0 a).
      + rewrite (Rabs_pos_eq a) in * by auto. replace (a * (c / a)) with c by (field; lra). split; [rewrite (Rabs_pos_eq c); lra|].
        assert (0 <= (a - c) * (c - v)) by (apply Rmult_le_pos; lra). lra.
      + rewrite (Rabs_left a) in * by lra. replace (a * (c / - a)) with (- c) by (field; lra). split; [rewrite Rabs_Ropp, Rabs_pos_eq; lra|].
        assert (0 <= (- c - a) * (v + c)) by (apply Rmult_le_pos; lra). lra.
  Qed.
  Lemma proj_len z p : length z = n -> proj_of z = Some p -> length p = n.
  Proof.
    intros Lz. unfold proj_of, project_to_real_upper_limit, project_to_box. destruct nonneg; [intros [= <-]; now rewrite tab_length|].
    destruct (forallb _ _); [|discriminate]. intros [= <-]. now rewrite tab_length.
  Qed.
  (** the projection step returns the nearest point of the dual set *)
  Lemma proj_vi z p : length z = n -> proj_of z = Some p -> C p /\ forall v, C v -> rdot (rsub z p) (rsub v p) <= 0.
  Proof.
    intros Lz E. pose proof (@proj_len z p Lz E) as Lp.
    assert (Q : forall i, (i < n)%nat -> (if nonneg then p@i <= w@i else Rabs (p@i) <= w@i) /\
      forall v, C v -> (z@i - p@i) * (v@i - p@i) <= 0).
    { intros i Hi. unfold proj_of, project_to_real_upper_limit, project_to_box in E. unfold in_dual_set. destruct nonneg.
      - injection E as <-. rewrite nth_tab by lia. split; [apply Rmin_l|]. intros v [_ V]. specialize (V i Hi).
        unfold Rmin. destruct (Rle_dec (w@i) (z@i)); [|lra]. assert (0 <= (z@i - w@i) * (w@i - v@i)) by (apply Rmult_le_pos; lra). lra.
      - destruct (forallb _ _) eqn:F; [|discriminate]. injection E as <-. rewrite nth_tab by lia. rewrite forallb_forall in F.
        specialize (F i ltac:(apply in_seq; lia)). destruct (Reqb_spec (Rmax (w@i) (Rabs (z@i))) 0) as [F'|F']; [discriminate|].
        split; [apply (@box_entry (z@i) (w@i) 0); auto; rewrite Rabs_R0; auto|]. intros v [_ V]. apply box_entry; auto. }
    split; [split; [auto|]; intros i Hi; apply (Q i Hi)|]. intros v V. rewrite (@rdot_sum n) by (destruct V; vl).
    eapply Rle_trans; [|right; apply (rsum_0 n)]. apply rsum_le. intros i Hi. pose proof V as [Lv _]. rewrite !rsub_nth by vl. now apply (Q i Hi).
  Qed.
  Lemma proj_defined z : (forall i, (i < n)%nat -> 0 < w@i) -> length z = n -> proj_of z <> None.
  Proof.
    intros Pw Lz. unfold proj_of, project_to_box. destruct nonneg; [discriminate|]. destruct (forallb _ _) eqn:F; [discriminate|].
    exfalso. apply Bool.not_true_iff_false in F. apply F. apply forallb_forall. intros i Hi. apply in_seq in Hi.
    destruct (Reqb_spec (Rmax (w@i) (Rabs (z@i))) 0) as [E|E]; auto. pose proof (Rmax_l (w@i) (Rabs (z@i))). specialize (Pw i ltac:(lia)). lra.
  Qed.
  (** projections are unique *)
  Lemma proj_unique z p q : length z = n -> proj_of z = Some p -> C q -> (forall v, C v -> rdot (rsub z q) (rsub v q) <= 0) -> p = q.
  Proof.
    intros Lz E Cq Hq. destruct (@proj_vi z p Lz E) as [Cp Hp]. specialize (Hq p Cp). specialize (Hp q Cq).
    destruct Cp as [Lp _], Cq as [Lq _]. apply rdot_sub_eq0; [congruence|]. pose proof (rdot_pos (rsub p q)).
    rewrite !rdot_sub_l, !rdot_sub_r in * by vl. rewrite (rdot_sym q p) in *. lra.
  Qed.
  (** support function of the dual set *)
  Lemma wnorm_sum x : length x = n -> wnorm w x = rsum n (fun i => w@i * Rabs (x@i)).
  Proof.
    intros Lx. unfold wnorm. rewrite (@nrm1_sum n) by vl. apply rsum_ext. intros i Hi. rewrite rmul_nth by vl. rewrite Rabs_mult, (Rabs_pos_eq (w@i)); auto.
  Qed.
  Lemma pairing_le v z : candidate n nonneg v -> C z -> rdot v z <= wnorm w v.
  Proof.
    intros [Lv Cv] [Lz Cz]. rewrite wnorm_sum, (@rdot_sum n) by auto. apply rsum_le. intros i Hi. specialize (Cz i Hi). specialize (Hw Hi). destruct nonneg.
    - specialize (Cv eq_refl i Hi). rewrite Rabs_pos_eq by auto. rewrite (Rmult_comm (w@i)). apply Rmult_le_compat_l; auto.
    - pose proof (Rle_abs (v@i * z@i)) as Q. rewrite Rabs_mult in Q. pose proof (Rmult_le_compat_l _ _ _ (Rabs_pos (v@i)) Cz). lra.
  Qed.
  Lemma normal_cone x z : length x = n -> C z -> (forall v, C v -> rdot x v <= rdot x z) -> candidate n nonneg x /\ rdot x z = wnorm w x.
  Proof.
    intros Lx Cz H. assert (Cx : candidate n nonneg x).
    { split; auto. intros E i Hi. destruct (Rle_dec 0 (x@i)); auto. exfalso.
      specialize (H (tab n (fun j => if Nat.eq_dec j i then z@j - 1 else z@j))).
      assert (V : C (tab n (fun j => if Nat.eq_dec j i then z@j - 1 else z@j))).
      { destruct Cz as [Lz Cz]. split; [apply tab_length|]. intros j Hj. specialize (Cz j Hj). rewrite nth_tab by auto. rewrite E in *. destruct (Nat.eq_dec j i); lra. }
      specialize (H V). destruct Cz as [Lz _]. rewrite !(@rdot_sum n) in H by (auto; apply tab_length).
      assert (D : rsum n (fun j => x@j * (tab n (fun j => if Nat.eq_dec j i then z@j - 1 else z@j))@j - x@j * z@j) = - x@i).
      { rewrite (@rsum_single n i).
        - rewrite nth_tab by auto. destruct (Nat.eq_dec i i); [ring|lia].
        - auto.
        - intros j Hj N. rewrite nth_tab by auto. destruct (Nat.eq_dec j i); [lia|ring]. }
      rewrite rsum_sub in D. lra. }
    split; auto. apply Rle_antisym; [now apply pairing_le|].
    assert (V : C (tab n (fun i => if nonneg then w@i else if Rle_dec 0 (x@i) then w@i else - w@i))).
    { split; [apply tab_length|]. intros i Hi. rewrite nth_tab by auto. specialize (Hw Hi). destruct nonneg; [lra|].
      destruct (Rle_dec 0 (x@i)); rewrite ?Rabs_Ropp, Rabs_pos_eq; lra. }
    eapply Rle_trans; [|apply (H _ V)]. rewrite wnorm_sum, (@rdot_sum n) by (auto; apply tab_length). apply rsum_le. intros i Hi. rewrite nth_tab by auto.
    destruct Cx as [_ Cx]. destruct nonneg.
    - specialize (Cx eq_refl i Hi). rewrite Rabs_pos_eq by auto. lra.
    - destruct (Rle_dec 0 (x@i)); [rewrite Rabs_pos_eq by auto; lra|]. rewrite Rabs_left by lra. lra.
  Qed.
End Sets.

(** *** the residual condition of each problem *)
Definition resid_ok (m : nat) (p : yall_problem) (r y : vec) : Prop :=
  length r = m /\ length y = m /\
  match p with
  | BP => r = rzero m
  | L1L2 rho => r = rscale rho y
  | L1L2con delta => nrm r <= delta /\ rdot r y = delta * nrm y
  end.
Lemma resid_monotone m p r y r' y' : problem_ok p -> resid_ok m p r y -> resid_ok m p r' y' -> 0 <= rdot (rsub r r') (rsub y y').
Proof.
  intros P [Lr [Ly H]] [Lr' [Ly' H']]. destruct p as [|rho|delta]; cbn in P.
  - subst r r'. rewrite rdot_sub_l, !rdot_zero_l by vl. lra.
  - replace (rsub r r') with (rscale rho (rsub y y')) by (subst r r'; veq). rewrite rdot_scale_l. apply Rmult_le_pos; [lra|apply rdot_pos].
  - destruct H as [H1 H2], H' as [H1' H2']. rewrite rdot_sub_l, !rdot_sub_r by vl.
    pose proof (cauchy_le r y') as C1. pose proof (cauchy_le r' y) as C2. pose proof (nrm_pos y). pose proof (nrm_pos y').
    pose proof (Rmult_le_compat_r _ _ _ H H1'). pose proof (Rmult_le_compat_r _ _ _ H0 H1). lra.
Qed.
Lemma y_step_ok m b p q : length b = m -> length q = m -> 0 < ya_mu b -> problem_ok p ->
  resid_ok m p (rscale (ya_mu b) (rsub q (y_step b p q))) (y_step b p q).
Proof.
  intros Lb Lq Hm P. set (mu := ya_mu b) in *. unfold y_step. fold mu. destruct p as [|rho|delta]; cbn in P.
  - split; [vl|]. split; [vl|]. veq.
  - split; [vl|]. split; [vl|]. assert (0 < rho / mu + 1) by (pose proof (Rdiv_lt_0_compat rho mu P Hm); lra).
    apply vec_eq; [vl|]. intros i Hi. rewrite !rscale_nth, rsub_nth, rscale_nth by vl. field. split; lra.
  - assert (Hd : 0 < delta / mu) by now apply Rdiv_lt_0_compat. destruct (Reqb_spec (nrm q) 0) as [E|E].
    + split; [vl|]. split; [vl|]. assert (Z : q = rzero m) by (rewrite <- Lq; now apply nrm_eq0). rewrite Z.
      replace (rscale 0 (rzero m)) with (rzero m) by veq. replace (rscale mu (rsub (rzero m) (rzero m))) with (rzero m) by veq.
      rewrite nrm_rzero, rdot_zero_l. lra.
    + pose proof (nrm_pos q) as Pq. set (c := 1 - delta / mu / nrm q).
      assert (Ec : (1 - c) * nrm q = delta / mu) by (unfold c; field; lra).
      split; [vl|]. split; [vl|]. destruct (Rle_dec c 0) as [L|L].
      * rewrite Rmax_left by auto. replace (rsub q (rscale 0 q)) with q by veq. rewrite nrm_scale, Rabs_pos_eq by lra. rewrite !rdot_scale_r, nrm_scale, Rabs_R0.
        split; [|ring]. assert (nrm q <= delta / mu). { rewrite <- Ec. assert (0 <= - c * nrm q) by (apply Rmult_le_pos; lra). lra. }
        replace delta with (mu * (delta / mu)) by (field; lra). apply Rmult_le_compat_l; lra.
      * rewrite Rmax_right by lra. replace (rsub q (rscale c q)) with (rscale (1 - c) q) by veq.
        assert (Hc : 0 <= 1 - c) by (unfold c; assert (0 < delta / mu / nrm q) by (apply Rdiv_lt_0_compat; lra); lra).
        assert (Em : mu * ((1 - c) * nrm q) = delta) by (rewrite Ec; field; lra).
        rewrite !nrm_scale, !Rabs_pos_eq by lra. split; [lra|]. rewrite !rdot_scale_l, rdot_scale_r, <- nrm_sq, <- Em. ring.
Qed.
