(** Matching pursuit converges geometrically on every dictionary. *)
From Coq Require Import List Arith Bool Lia Reals Lra.
From Verif Require Import Scalar Vec RVec RMat Loop LoopLemmas SlsModel SolverSpec SolverLemmas CondProofs3 PursuitModel PursuitSpec PursuitProofs PursuitProofs2 SelModel SelProofs SeqSpec SeqProofs EigenProofs LsqrMinNorm.
Import ListNotations.
Set Implicit Arguments.
Local Open Scope R_scope.

Lemma geometric_limit n (x : nat -> vec) C p : 0 <= C -> 0 <= p < 1 -> (forall k, length (x k) = n) ->
  (forall k, nrm (rsub (x (S k)) (x k)) <= C * p ^ k) -> exists l, length l = n /\ forall k, nrm (rsub (x k) l) <= C / (1 - p) * p ^ k.
Proof.
  intros C0 [P0 P1] L H. assert (Q : 0 < 1 - p) by lra.
  assert (G : forall k d, nrm (rsub (x (k + d)%nat) (x k)) <= C / (1 - p) * (p ^ k - p ^ (k + d))).
  { intros k d. induction d as [|d IH].
    - rewrite Nat.add_0_r, Rminus_eq_0, Rmult_0_r. replace (rsub (x k) (x k)) with (rzero n) by (pose proof (L k); veq). rewrite nrm_rzero. lra.
    - rewrite Nat.add_succ_r. pose proof (@nrm_sub_triang n (x (S (k + d))) (x (k + d)%nat) (x k) (L _) (L _) (L _)) as T. specialize (H (k + d)%nat).
      assert (E : C * p ^ (k + d) = C / (1 - p) * (p ^ (k + d) - p ^ S (k + d))) by (simpl; field; lra). lra. }
  destruct (@bw n x (nrm (x O) + C / (1 - p))) as (phi & l & P2 & [Ll P3]); auto.
  - intros k. pose proof (G O k) as B. simpl in B. pose proof (@nrm_sub_triang n (x k) (x O) (rzero n) (L _) (L _) (rzero_len n)) as T.
    replace (rsub (x k) (rzero n)) with (x k) in T by (pose proof (L k); veq). replace (rsub (x O) (rzero n)) with (x O) in T by (pose proof (L O); veq).
    assert (0 <= C / (1 - p)) by (apply Rmult_le_pos; [lra|]; now left; apply Rinv_0_lt_compat).
    assert (0 <= p ^ k) by now apply pow_le. assert (C / (1 - p) * (1 - p ^ k) <= C / (1 - p) * 1) by (apply Rmult_le_compat_l; lra). lra.
  - exists l. split; auto. intros k. apply Rnot_lt_le. intros N. destruct (P3 _ (Rlt_Rminus _ _ N)) as [N0 Hs]. specialize (Hs (N0 + k)%nat ltac:(lia)). cbv beta in Hs.
    pose proof (phi_ge P2 (N0 + k)%nat) as Pg. pose proof (G k (phi (N0 + k)%nat - k)%nat) as B. replace (k + (phi (N0 + k)%nat - k))%nat with (phi (N0 + k)%nat) in B by lia.
    pose proof (@nrm_sub_triang n (x k) (x (phi (N0 + k)%nat)) l (L _) (L _) Ll) as T. rewrite (@nrm_sub_sym (x k) (x _)) in T by (rewrite !L; auto).
    assert (0 <= C / (1 - p)) by (apply Rmult_le_pos; [lra|]; now left; apply Rinv_0_lt_compat).
    assert (0 <= p ^ phi (N0 + k)%nat) by now apply pow_le. assert (C / (1 - p) * (p ^ k - p ^ phi (N0 + k)%nat) <= C / (1 - p) * p ^ k) by (apply Rmult_le_compat_l; lra). lra.
Qed.

Section Dict.
  Variables (m : nat) (D : dictionary).
  Hypothesis U : unit_dict m D.
  Hypothesis Hn : (0 < d_n D)%nat.
  Let V := proj1 U.
  Let n := d_n D.
  Let Phi := combine_atoms m D.
  Lemma dict_adjoint : adjoint_ops m n (d_trans D) Phi.
  Proof.
    split; [|split].
    - split; [|split].
      + intros x Lx. now apply (trans_len V).
      + intros x y Lx Ly. assert (La : length (radd x y) = m) by (rewrite radd_len; lia).
        apply vec_eq; rewrite ?radd_len, !(trans_len V); auto; [lia|]. intros i Hi. rewrite radd_nth by (rewrite !(trans_len V); auto).
        rewrite !(trans_nth V) by auto. apply rdot_add_r. congruence.
      + intros c x Lx. assert (La : length (rscale c x) = m) by (rewrite rscale_len; lia).
        apply vec_eq; rewrite ?rscale_len, !(trans_len V); auto. intros i Hi. rewrite rscale_nth, !(trans_nth V) by auto. apply rdot_scale_r.
    - apply (combine_linear V).
    - intros x y Lx Ly. rewrite rdot_sym, (rdot_sym x). symmetry. now apply (combine_adj V).
  Qed.
  Lemma best_fit_exists y : length y = m -> exists z, length z = n /\ forall w, length w = n -> nrm2 (rsub y (Phi z)) <= nrm2 (rsub y (Phi w)).
  Proof.
    intros Ly. destruct exact_lstsq_ok as [H _]. specialize (H m (map (d_atom D) (seq 0 n)) y Ly (all_len V)) as [L M].
    rewrite map_length, seq_length in L, M. exists (exact_lstsq (map (d_atom D) (seq 0 n)) y). split; [exact L|exact M].
  Qed.
  Lemma best_fit_orth y z : length y = m -> length z = n -> (forall w, length w = n -> nrm2 (rsub y (Phi z)) <= nrm2 (rsub y (Phi w))) ->
    forall i, (i < n)%nat -> rdot (d_atom D i) (rsub y (Phi z)) = 0.
  Proof.
    intros Ly Lz M i Hi. set (r := rsub y (Phi z)) in *. set (t := rdot (d_atom D i) r).
    assert (LP : length (Phi z) = m) by apply (combine_len V). assert (La : length (d_atom D i) = m) by now apply (atom_len V).
    specialize (M (radd z (rscale t (onehot n i)))). rewrite radd_len, rscale_len, onehot_len in M. specialize (M ltac:(lia)).
    unfold Phi in M. rewrite (combine_add V), (combine_scale V) in M by (rewrite rscale_len, onehot_len; auto). unfold n in M. rewrite (combine_onehot V) in M by auto. fold n Phi in M.
    replace (rsub y (radd (Phi z) (rscale t (d_atom D i)))) with (rsub r (rscale t (d_atom D i))) in M by (unfold r; veq).
    assert (Lr : length r = m) by (unfold r; rewrite rsub_len; lia).
    unfold nrm2 in M. rewrite rdot_sub_l, !rdot_sub_r, !rdot_scale_l, !rdot_scale_r in M by (rewrite rscale_len; lia).
    rewrite (rdot_sym r (d_atom D i)) in M. fold t in M. assert (E := proj2 U i Hi). unfold nrm2 in E. rewrite E in M. nra.
  Qed.
  Lemma captures : exists c, 0 < c <= 1 /\ forall w, length w = n -> exists i, (i < n)%nat /\ c * nrm2 (Phi w) <= rdot (d_atom D i) (Phi w) * rdot (d_atom D i) (Phi w).
  Proof.
    destruct (row_space_bounds dict_adjoint) as (mu & L & [P _] & B). assert (N0 : 0 < INR n) by (apply lt_0_INR; exact Hn).
    exists (Rmin 1 (mu / INR n)). split; [split; [|apply Rmin_l]; apply Rmin_glb_lt; [lra|]; now apply Rdiv_lt_0_compat|].
    intros w Lw. specialize (B w Lw) as [B _]. assert (LP : length (Phi w) = m) by apply (combine_len V).
    destruct (@abs_max_spec (d_trans D (Phi w))) as [Hi Mx].
    { intros C. apply (f_equal (@length R)) in C. rewrite (trans_len V) in C by auto. simpl in C. lia. }
    set (i := abs_max_idx _) in *. rewrite (trans_len V) in Hi by auto. exists i. split; auto.
    apply Rle_trans with (mu / INR n * nrm2 (Phi w)); [apply Rmult_le_compat_r; [apply rdot_pos|apply Rmin_r]|].
    apply Rmult_le_reg_l with (INR n); auto. replace (INR n * (mu / INR n * nrm2 (Phi w))) with (mu * nrm2 (Phi w)) by (field; lra).
    eapply Rle_trans; [exact B|]. unfold nrm2 at 1. rewrite (@rdot_sum n) by (now apply (trans_len V)). rewrite <- rsum_const. apply rsum_le. intros j Hj.
    rewrite <- (trans_nth V) by auto. specialize (Mx j). rewrite <- (Rabs_right ((d_trans D (Phi w))@j * _)), <- (Rabs_right ((d_trans D (Phi w))@i * _)) by (apply Rle_ge, Rle_0_sqr).
    rewrite !Rabs_mult. apply Rmult_le_compat; auto; apply Rabs_pos.
  Qed.
  (** k iterations *)
  Fixpoint st (y : vec) (k : nat) : mp_state :=
    match k with O => mp_init D y | S k => match mp_body D y (st y k) with Some s => s | None => st y k end end.
  Lemma st_body y k : mp_body D y (st y k) = Some (st y (S k)). Proof. reflexivity. Qed.
  Lemma st_inv y k : length y = m -> mp_inv m D y (st y k).
  Proof. intros Ly. induction k as [|k IH]; [now apply mp_inv_init|]. exact (mp_inv_step V Ly Hn IH (st_body y k)). Qed.
  Lemma st_reach y mx rtol k s : reaches (mp_cond y mx rtol) (mp_body D y) (mp_init D y) k s -> s = st y k.
  Proof. induction 1 as [|k s s' H -> C B]; auto. rewrite st_body in B. congruence. Qed.
  Section Run.
    Variables (y z : vec) (mx : nat) (rtol c : R).
    Hypothesis Ly : length y = m.
    Hypothesis Lz : length z = n.
    Hypothesis M : forall w, length w = n -> nrm2 (rsub y (Phi z)) <= nrm2 (rsub y (Phi w)).
    Hypothesis C1 : c <= 1.
    Hypothesis Hc : forall w, length w = n -> exists i, (i < n)%nat /\ c * nrm2 (Phi w) <= rdot (d_atom D i) (Phi w) * rdot (d_atom D i) (Phi w).
    Lemma orth_all w : rdot (Phi w) (rsub y (Phi z)) = 0.
    Proof.
      assert (LP : length (Phi z) = m) by apply (combine_len V). assert (Lr : length (rsub y (Phi z)) = m) by (rewrite rsub_len; lia).
      unfold Phi at 1. rewrite (combine_adj V) by auto. replace (d_trans D (rsub y (Phi z))) with (rzero n); [apply rdot_zero_r|].
      symmetry. apply vec_eq; rewrite ?rzero_len, !(trans_len V) by auto; auto. intros i Hi. rewrite (trans_nth V), rzero_nth by auto. now apply best_fit_orth.
    Qed.
    Lemma split_residual x : length x = n -> rsub y (Phi x) = radd (rsub y (Phi z)) (Phi (rsub z x)) /\
      nrm2 (rsub y (Phi x)) = nrm2 (rsub y (Phi z)) + nrm2 (Phi (rsub z x)).
    Proof.
      intros Lx. assert (LP : forall w, length (Phi w) = m) by (intros; apply (combine_len V)).
      assert (E : rsub y (Phi x) = radd (rsub y (Phi z)) (Phi (rsub z x))).
      { unfold Phi. rewrite (combine_sub V) by congruence. fold Phi. pose proof (LP x). pose proof (LP z). veq. }
      split; auto. rewrite E. assert (Lr : length (rsub y (Phi z)) = length (Phi (rsub z x))) by (rewrite rsub_len, !LP; lia).
      unfold nrm2. rewrite rdot_add_l, !rdot_add_r by auto. rewrite (rdot_sym (rsub y (Phi z)) (Phi (rsub z x))), orth_all. ring.
    Qed.
    Lemma mp_rate k : nrm2 (rsub (Phi z) (Phi (mp_x (st y k)))) <= (1 - c) ^ k * nrm2 (Phi z).
    Proof.
      assert (LP : forall w, length (Phi w) = m) by (intros; apply (combine_len V)).
      assert (ES : forall x, length x = n -> rsub (Phi z) (Phi x) = Phi (rsub z x)) by (intros x Lx; unfold Phi; rewrite (combine_sub V); congruence).
      induction k as [|k IH].
      - cbn [st mp_init mp_x pow]. unfold Phi at 2. unfold n. rewrite (combine_zero V). fold Phi. replace (rsub (Phi z) (rzero m)) with (Phi z); [lra|]. pose proof (LP z). veq.
      - pose proof (st_inv y k Ly) as Inv. pose proof (st_inv y (S k) Ly) as Inv'. pose proof (st_body y k) as B. set (s := st y k) in *. set (s' := st y (S k)) in *. destruct (mp_energy V Ly Hn (proj2 U) Inv B) as (i & Hi & Mx & _ & E).
        destruct Inv as (L1 & L2 & Er & _). destruct Inv' as (L1' & L2' & Er' & _).
        rewrite Er in E, Mx. rewrite Er' in E. fold Phi n in E, Mx, L1, L1'. destruct (split_residual _ L1) as [S1 S2]. destruct (split_residual _ L1') as [S1' S2']. rewrite S2, S2' in E.
        rewrite ES in * by auto. destruct (Hc (rsub z (mp_x s))) as (j & Hj & Cj); [rewrite rsub_len; lia|].
        assert (Ed : forall q, (q < n)%nat -> rdot (d_atom D q) (rsub y (Phi (mp_x s))) = rdot (d_atom D q) (Phi (rsub z (mp_x s)))).
        { intros q Hq. rewrite S1, rdot_add_r by (rewrite rsub_len, !LP; lia). rewrite (best_fit_orth y z Ly Lz M Hq). ring. }
        specialize (Mx j Hj). rewrite !Ed in Mx by auto. rewrite !Ed in E by auto.
        set (a := rdot (d_atom D i) _) in *. set (b := rdot (d_atom D j) _) in *.
        assert (b * b <= a * a).
        { rewrite <- (Rabs_right (b * b)), <- (Rabs_right (a * a)) by (apply Rle_ge, Rle_0_sqr). rewrite !Rabs_mult. apply Rmult_le_compat; auto; apply Rabs_pos. }
        cbn [pow]. apply Rle_trans with ((1 - c) * nrm2 (Phi (rsub z (mp_x s)))); [lra|]. rewrite Rmult_assoc. apply Rmult_le_compat_l; lra.
    Qed.
  End Run.
  Theorem mp_converges : exists q, 0 <= q < 1 /\ forall y z mx rtol k s, length y = m -> length z = n ->
    (forall w, length w = n -> nrm2 (rsub y (Phi z)) <= nrm2 (rsub y (Phi w))) ->
    reaches (mp_cond y mx rtol) (mp_body D y) (mp_init D y) k s ->
    nrm2 (rsub (Phi z) (Phi (mp_x s))) <= q ^ k * nrm2 (Phi z) /\
    nrm2 (mp_r s) <= nrm2 (rsub y (Phi z)) + q ^ k * nrm2 (Phi z).
  Proof.
    destruct captures as (c & [C0 C1] & Hc). exists (1 - c). split; [lra|]. intros y z mx rtol k s Ly Lz M H.
    rewrite (st_reach H). pose proof (mp_rate y z Ly Lz M C1 Hc k) as R. split; auto. destruct (st_inv y k Ly) as (L1 & _ & E & _). rewrite E. fold Phi n in L1 |- *.
    destruct (split_residual y z Ly Lz M _ L1) as [_ S2]. rewrite S2. unfold Phi in R. rewrite <- (combine_sub V) in R by congruence. fold Phi in R. lra.
  Qed.
  (** the coefficients move by at most the remaining error, so they converge as well *)
  Theorem mp_limit : exists q, 0 <= q < 1 /\ forall y, length y = m -> exists x, length x = n /\
    (forall w, length w = n -> nrm2 (rsub y (Phi x)) <= nrm2 (rsub y (Phi w))) /\
    forall mx rtol k s, reaches (mp_cond y mx rtol) (mp_body D y) (mp_init D y) k s -> nrm (rsub (mp_x s) x) <= / (1 - q) * q ^ k * nrm y.
  Proof.
    destruct captures as (c & [C0 C1] & Hc). set (q := sqrt (1 - c)). assert (Q2 : q * q = 1 - c) by (apply sqrt_sqrt; lra).
    assert (Q0 : 0 <= q) by apply sqrt_pos. assert (Q1 : q < 1) by (apply Rnot_le_lt; intros F; nra).
    exists q. split; [lra|]. intros y Ly. destruct (best_fit_exists _ Ly) as (z & Lz & M).
    assert (LP : forall w, length (Phi w) = m) by (intros; apply (combine_len V)).
    assert (LX : forall k, length (mp_x (st y k)) = n) by (intros k; apply (st_inv y k Ly)).
    assert (R : forall k, nrm (rsub (Phi z) (Phi (mp_x (st y k)))) <= q ^ k * nrm (Phi z)).
    { intros k. pose proof (mp_rate y z Ly Lz M C1 Hc k) as R. rewrite <- Q2 in R. rewrite Rpow_mult_distr in R. unfold nrm2 in R. rewrite <- !nrm_sq in R.
      pose proof (nrm_pos (Phi z)). assert (0 <= q ^ k) by now apply pow_le. apply Rsqr_incr_0; try apply nrm_pos; [unfold Rsqr; lra|]. now apply Rmult_le_pos. }
    assert (NZ : nrm (Phi z) <= nrm y).
    { destruct (split_residual y z Ly Lz M _ (rzero_len n)) as [_ S2]. assert (Z : Phi (rzero n) = rzero m) by apply (combine_zero V). rewrite Z in S2.
      replace (rsub y (rzero m)) with y in S2 by veq. replace (rsub z (rzero n)) with z in S2 by veq. unfold nrm2 in S2. pose proof (rdot_pos (rsub y (Phi z))).
      unfold nrm. apply sqrt_le_1_alt. lra. }
    assert (N0 : 0 <= nrm (Phi z)) by apply nrm_pos.
    destruct (@geometric_limit n (fun k => mp_x (st y k)) (nrm (Phi z)) q N0 (conj Q0 Q1) LX) as (x & L & HL).
    { intros k. destruct (mp_energy V Ly Hn (proj2 U) (st_inv y k Ly) (st_body y k)) as (i & Hi & _ & Ex & _). rewrite Ex, add_at_eq, LX.
      set (t := rdot (d_atom D i) (mp_r (st y k))). assert (Lo : length (onehot n i) = n) by apply onehot_len. pose proof (LX k) as Lk.
      replace (rsub (radd (mp_x (st y k)) (rscale t (onehot n i))) (mp_x (st y k))) with (rscale t (onehot n i)) by veq.
      rewrite nrm_scale. replace (nrm (onehot n i)) with 1.
      2:{ unfold nrm. rewrite onehot_dot by auto. rewrite onehot_nth, Nat.eqb_refl by auto. now rewrite sqrt_1. }
      rewrite Rmult_1_r, Rmult_comm. eapply Rle_trans; [|apply R].
      assert (Et : t = rdot (d_atom D i) (rsub (Phi z) (Phi (mp_x (st y k))))).
      { unfold t. destruct (st_inv y k Ly) as (_ & _ & Er & _). rewrite Er. fold Phi. pose proof (LP z). pose proof (LP (mp_x (st y k))).
        replace (rsub y (Phi (mp_x (st y k)))) with (radd (rsub y (Phi z)) (rsub (Phi z) (Phi (mp_x (st y k))))) by veq.
        rewrite rdot_add_r by (rewrite !rsub_len; lia). rewrite (best_fit_orth y z Ly Lz M Hi). ring. }
      rewrite Et. eapply Rle_trans; [apply cauchy|]. replace (nrm (d_atom D i)) with 1; [lra|]. assert (Eu := proj2 U i Hi). unfold nrm2 in Eu. unfold nrm. now rewrite Eu, sqrt_1. }
    cbv beta in HL. exists x. split; auto. split.
    - assert (E : Phi z = Phi x).
      { destruct (op_bounded (conj (combine_linear V) (conj (proj1 dict_adjoint) (fun x r _ Lr => combine_adj V x r Lr)))) as (B & B0 & HB). fold n Phi in HB.
        apply (@nrm_sub0 m); auto. apply Rnot_lt_le. intros F.
        set (G := nrm (Phi z) * (1 + B * / (1 - q)) + 1). assert (I0 : 0 < / (1 - q)) by (apply Rinv_0_lt_compat; lra).
        assert (G0 : 0 < G). { unfold G. assert (0 <= B * / (1 - q)) by (apply Rmult_le_pos; lra). assert (0 <= nrm (Phi z) * (1 + B * / (1 - q))) by (apply Rmult_le_pos; lra). lra. }
        destruct (pow_lt_1_zero q ltac:(rewrite Rabs_pos_eq; lra) (nrm (rsub (Phi z) (Phi x)) / G) (Rdiv_lt_0_compat _ _ F G0)) as [N HN].
        specialize (HN N (le_n N)). rewrite Rabs_pos_eq in HN by now apply pow_le. specialize (R N). specialize (HL N).
        pose proof (@nrm_sub_triang m (Phi z) (Phi (mp_x (st y N))) (Phi x) (LP _) (LP _) (LP _)) as T.
        assert (E2 : rsub (Phi (mp_x (st y N))) (Phi x) = Phi (rsub (mp_x (st y N)) x)) by (unfold Phi; rewrite (combine_sub V); auto; rewrite LX; auto).
        rewrite E2 in T. assert (Lsub : length (rsub (mp_x (st y N)) x) = n) by (rewrite rsub_len, LX; lia). pose proof (HB _ Lsub) as T2.
        assert (T3 : B * nrm (rsub (mp_x (st y N)) x) <= B * (nrm (Phi z) / (1 - q) * q ^ N)) by now apply Rmult_le_compat_l.
        assert (T4 : q ^ N * G < nrm (rsub (Phi z) (Phi x))). { apply Rmult_lt_compat_r with (r := G) in HN; auto. replace (nrm (rsub (Phi z) (Phi x)) / G * G) with (nrm (rsub (Phi z) (Phi x))) in HN by (field; lra). exact HN. }
        assert (T5 : q ^ N * G = q ^ N * nrm (Phi z) + B * (nrm (Phi z) / (1 - q) * q ^ N) + q ^ N) by (unfold G; field; lra). assert (0 <= q ^ N) by now apply pow_le. lra. }
      intros w Lw. rewrite <- E. now apply M.
    - intros mx rtol k s H. rewrite (st_reach H). eapply Rle_trans; [apply HL|]. unfold Rdiv. rewrite (Rmult_comm (nrm (Phi z))), !Rmult_assoc.
      apply Rmult_le_compat_l; [left; apply Rinv_0_lt_compat; lra|]. rewrite Rmult_comm. apply Rmult_le_compat_l; [now apply pow_le|exact NZ].
  Qed.
End Dict.
