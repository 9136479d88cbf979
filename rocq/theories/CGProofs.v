(** Conjugate gradients: orthogonality, conjugacy, optimality, termination. *)
From Coq Require Import List Arith Bool Lia Reals Lra.
From Verif Require Import Vec RVec RMat Loop SolverSpec LoopLemmas LinDep CGModel.
Import ListNotations.
Set Implicit Arguments.
Local Open Scope R_scope.

Lemma lin_sub n m A x y : linear_op n m A -> length x = n -> length y = n -> A (rsub x y) = rsub (A x) (A y).
Proof.
  intros [L [H1 H2]] Hx Hy. replace (rsub x y) with (radd x (rscale (-1) y)) by veq.
  rewrite H1, H2 by vl. pose proof (L x Hx). pose proof (L y Hy). veq.
Qed.
Lemma lin_zero n m A : linear_op n m A -> A (rzero n) = rzero m.
Proof.
  intros [L [H1 H2]]. replace (rzero n) with (rscale 0 (rzero n)) by veq. rewrite H2 by vl.
  assert (length (A (rzero n)) = m) by (apply L; vl). veq.
Qed.
Lemma fdiv_some a b c : fdiv a b = Some c -> b <> 0 /\ c = a / b.
Proof. unfold fdiv. destruct (Reqb_spec b 0); [discriminate|]. intros [= <-]. auto. Qed.
Lemma fdiv_ok a b : b <> 0 -> fdiv a b = Some (a / b).
Proof. unfold fdiv. destruct (Reqb_spec b 0); [contradiction|auto]. Qed.

Section Seq.
  Variables (n K : nat) (A M : vec -> vec) (x r p : nat -> vec) (g : nat -> R).
  Hypothesis LA : linear_op n n A.
  Hypothesis SA : symmetric_op n A.
  Hypothesis LM : forall x, length x = n -> length (M x) = n.
  Hypothesis SM : symmetric_op n M.
  Let al k := g k / rdot (p k) (A (p k)).
  Let be k := g (S k) / g k.
  Hypothesis Hr : forall k, (k <= K)%nat -> length (r k) = n.
  Hypothesis Hx : forall k, (k <= K)%nat -> length (x k) = n.
  Hypothesis Hp : forall k, (k <= K)%nat -> length (p k) = n.
  Hypothesis Hg : forall k, (k <= K)%nat -> g k = rdot (r k) (M (r k)).
  Hypothesis Hp0 : p 0%nat = M (r 0%nat).
  Hypothesis NZ : forall k, (k < K)%nat -> rdot (p k) (A (p k)) <> 0 /\ g k <> 0.
  Hypothesis Sx : forall k, (k < K)%nat -> x (S k) = radd (x k) (rscale (al k) (p k)).
  Hypothesis Sr : forall k, (k < K)%nat -> r (S k) = rsub (r k) (rscale (al k) (A (p k))).
  Hypothesis Sp : forall k, (k < K)%nat -> p (S k) = radd (M (r (S k))) (rscale (be k) (p k)).
  Let LAn : forall x, length x = n -> length (A x) = n. Proof. apply LA. Qed.

  Lemma cg_al k : (k < K)%nat -> al k <> 0.
  Proof. intros H. destruct (NZ H) as [H1 H2]. unfold al, Rdiv. apply Rmult_integral_contrapositive_currified; auto. now apply Rinv_neq_0_compat. Qed.
  (** the preconditioned residual in terms of directions *)
  Lemma cg_z0 w : length w = n -> rdot (M (r 0%nat)) w = rdot (p 0%nat) w.
  Proof. now rewrite Hp0. Qed.
  Lemma cg_zS k w : (k < K)%nat -> length w = n -> rdot (M (r (S k))) w = rdot (p (S k)) w - be k * rdot (p k) w.
  Proof.
    intros H Hw. rewrite Sp by auto.
    assert (length (M (r (S k))) = n) by (apply LM, Hr; lia). assert (length (p k) = n) by (apply Hp; lia).
    vdot. ring.
  Qed.
  Lemma cg_Ap k w : (k < K)%nat -> rdot w (A (p k)) = (rdot w (r k) - rdot w (r (S k))) / al k.
  Proof.
    intros H. rewrite Sr by auto. assert (length (r k) = n) by (apply Hr; lia).
    assert (length (A (p k)) = n) by (apply LAn, Hp; lia). vdot. field. now apply cg_al.
  Qed.
  Theorem cg_seq : forall k, (k <= K)%nat ->
    (forall i j, (i < j <= k)%nat -> rdot (M (r i)) (r j) = 0) /\
    (forall i j, (i < j <= k)%nat -> rdot (p i) (A (p j)) = 0).
  Proof.
    induction k as [|k IH]; intros Hk; [split; lia|].
    destruct (IH ltac:(lia)) as [IR IP]. destruct (@NZ k ltac:(lia)) as [NP NG].
    assert (LAp : forall i, (i <= K)%nat -> length (A (p i)) = n) by (intros; apply LAn, Hp; lia).
    assert (LMr : forall i, (i <= K)%nat -> length (M (r i)) = n) by (intros; apply LM, Hr; lia).
    assert (ZP : rdot (M (r k)) (A (p k)) = rdot (p k) (A (p k))).
    { destruct k as [|k'].
      - apply cg_z0. apply LAp; lia.
      - rewrite cg_zS by (try apply LAp; lia). rewrite (IP k' (S k')) by lia. ring. }
    assert (R1 : forall i, (i <= k)%nat -> rdot (M (r i)) (r (S k)) = 0).
    { intros i Hi. rewrite (@Sr k) by lia. pose proof (Hr (k:=k) ltac:(lia)). pose proof (LAp k ltac:(lia)).
      rewrite rdot_sub_r by vl. rewrite rdot_scale_r.
      destruct (Nat.eq_dec i k) as [->|Ni].
      - rewrite ZP, rdot_sym, <- Hg by lia. unfold al. field. auto.
      - rewrite IR by lia. destruct i as [|i'].
        + rewrite cg_z0 by auto. rewrite IP by lia. ring.
        + rewrite cg_zS by (auto; lia). rewrite !IP by lia. ring. }
    assert (P1 : forall i, (i <= k)%nat -> rdot (p (S k)) (A (p i)) = 0).
    { intros i Hi. rewrite (@Sp k) by lia.
      pose proof (LMr (S k) ltac:(lia)). pose proof (Hp (k:=k) ltac:(lia)).
      rewrite rdot_add_l by vl. rewrite rdot_scale_l.
      rewrite cg_Ap by lia.
      destruct (Nat.eq_dec i k) as [->|Ni].
      - assert (E : rdot (M (r (S k))) (r k) = 0).
        { rewrite SM by (apply Hr; lia). rewrite rdot_sym. apply R1; lia. }
        rewrite E. rewrite (rdot_sym (M (r (S k)))), <- Hg by lia. unfold al, be. field. split; auto.
      - assert (E : forall j, (j <= k)%nat -> rdot (M (r (S k))) (r j) = 0).
        { intros j Hj. rewrite SM by (apply Hr; lia). rewrite rdot_sym. apply R1; lia. }
        rewrite (E i), (E (S i)) by lia.
        rewrite <- SA by (apply Hp; lia). rewrite (rdot_sym (A (p k))), IP by lia. 
        unfold Rdiv. ring. }
    split.
    - intros i j Hij. destruct (Nat.eq_dec j (S k)) as [->|]; [apply R1; lia|apply IR; lia].
    - intros i j Hij. destruct (Nat.eq_dec j (S k)) as [->|]; [|apply IP; lia].
      rewrite <- SA by (apply Hp; lia). rewrite rdot_sym. apply P1. lia.
  Qed.
  (** the residual is orthogonal to all earlier directions *)
  Lemma cg_rp : forall j, (j <= K)%nat -> forall i, (i < j)%nat -> rdot (p i) (r j) = 0.
  Proof.
    intros j Hj. destruct (cg_seq Hj) as [IR IP]. induction i as [|i IH]; intros Hi.
    - rewrite Hp0. apply IR; lia.
    - rewrite Sp by lia. pose proof (Hr (k:=S i) ltac:(lia)) as L1. apply LM in L1.
      pose proof (Hp (k:=i) ltac:(lia)). vdot. rewrite IR, IH by lia. ring.
  Qed.
  (** p_k . r_k = g_k *)
  Lemma cg_pr : forall k, (k <= K)%nat -> rdot (p k) (r k) = g k.
  Proof.
    intros [|k] Hk; [now rewrite Hp0, rdot_sym, Hg by lia|].
    rewrite Sp by lia. pose proof (Hr (k:=S k) ltac:(lia)) as L1. apply LM in L1.
    pose proof (Hp (k:=k) ltac:(lia)). vdot. rewrite cg_rp by lia. rewrite rdot_sym, <- Hg by lia. ring.
  Qed.
  (** Krylov vectors *)
  Lemma kry_len i : length (Nat.iter i (fun v => M (A v)) (M (r 0%nat))) = n.
  Proof. induction i as [|i IH]; simpl; apply LM; [apply Hr; lia|apply LAn, IH]. Qed.
  Lemma kry_orth : forall i, (i < K)%nat -> forall w, length w = n -> (forall j, (j <= i)%nat -> rdot (p j) w = 0) ->
    rdot (Nat.iter i (fun v => M (A v)) (M (r 0%nat))) w = 0.
  Proof.
    induction i as [|i IH]; intros Hi w Hw HO.
    - simpl. rewrite <- Hp0. apply HO. lia.
    - simpl. pose proof (kry_len i) as Lk. pose proof (LM _ Hw). rewrite SM, SA by auto.
      apply IH; [lia|auto|]. intros j Hj. rewrite <- SA by (auto; apply Hp; lia).
      rewrite rdot_sym, cg_Ap by lia. rewrite !SM by (auto; apply Hr; lia).
      rewrite (rdot_sym w (M (r j))), (rdot_sym w (M (r (S j)))).
      rewrite (@cg_zS j) by (auto; lia). rewrite !HO by lia.
      destruct j as [|j]; [rewrite cg_z0 by auto|rewrite cg_zS by (auto; lia)]; rewrite !HO by lia; unfold Rdiv; ring.
  Qed.
  Variable b : vec.
  Hypothesis Hb : length b = n.
  Hypothesis Res : forall k, (k <= K)%nat -> r k = rsub b (A (x k)).
  Lemma cg_energy_expand y d : length y = n -> length d = n ->
    energy A b (radd y d) = energy A b y + / 2 * rdot d (A d) - rdot d (rsub b (A y)).
  Proof.
    intros Hy Hd. destruct LA as [_ [A1 _]]. pose proof (LAn _ Hy). pose proof (LAn _ Hd). unfold energy.
    rewrite A1 by auto. vdot. rewrite (rdot_sym d b).
    assert (E : rdot y (A d) = rdot d (A y)) by (rewrite <- SA by auto; apply rdot_sym). rewrite E. field.
  Qed.
  Lemma cg_x_orth k : (k <= K)%nat -> forall j, (j <= k)%nat -> rdot (x j) (r k) = rdot (x 0%nat) (r k).
  Proof.
    intros Hk. induction j as [|j IH]; intros Hj; [auto|].
    rewrite Sx by lia. pose proof (Hx (k:=j) ltac:(lia)). pose proof (Hp (k:=j) ltac:(lia)). vdot.
    rewrite IH, cg_rp by lia. ring.
  Qed.
  Lemma lincomb_len cs : forall vs, (forall v, In v vs -> length v = n) -> length (lincomb n cs vs) = n.
  Proof.
    induction cs as [|c cs IH]; intros [|v vs] H; simpl; try apply rzero_len.
    rewrite radd_len, rscale_len, IH by (intros; apply H; now right). rewrite (H v) by now left. lia.
  Qed.
  Lemma lincomb_orth w cs : forall vs, (forall v, In v vs -> length v = n /\ rdot v w = 0) -> rdot (lincomb n cs vs) w = 0.
  Proof.
    induction cs as [|c cs IH]; intros [|v vs] H; simpl; try apply rdot_zero_l.
    destruct (H v ltac:(now left)) as [L O].
    rewrite rdot_add_l. 2:{ rewrite rscale_len, lincomb_len; auto. intros; apply H; now right. }
    rewrite rdot_scale_l, O, IH by (intros; apply H; now right). ring.
  Qed.
  Theorem cg_optimal : psd_op n A -> forall k, (k <= K)%nat -> forall d, in_span n (krylov (fun v => M (A v)) (M (r 0%nat)) k) d ->
    energy A b (x k) <= energy A b (radd (x 0%nat) d).
  Proof.
    intros PA k Hk d [cs [_ ->]]. set (vs := krylov _ _ k). set (d := lincomb n cs vs).
    assert (HV : forall v, In v vs -> length v = n /\ rdot v (r k) = 0).
    { intros v Hv. apply in_map_iff in Hv as [i [<- Hi]]. apply in_seq in Hi. split; [apply kry_len|].
      apply kry_orth; [lia|apply Hr; lia|]. intros j Hj. apply cg_rp; lia. }
    assert (Ld : length d = n) by (apply lincomb_len; intros; now apply HV).
    assert (Od : rdot d (r k) = 0) by now apply lincomb_orth.
    pose proof (Hx (k:=k) Hk). pose proof (Hx (k:=0%nat) ltac:(lia)).
    set (e := rsub (radd (x 0%nat) d) (x k)). assert (Le : length e = n) by (unfold e; vl).
    replace (radd (x 0%nat) d) with (radd (x k) e) by (unfold e; veq).
    rewrite cg_energy_expand by auto. rewrite <- Res by auto. pose proof (PA e Le).
    assert (E : rdot e (r k) = 0).
    { unfold e. vdot. rewrite Od, (@cg_x_orth k Hk k) by lia. ring. }
    rewrite E. lra.
  Qed.
  Lemma cg_descent k : (k < K)%nat -> energy A b (x (S k)) = energy A b (x k) - / 2 * (g k * g k) / rdot (p k) (A (p k)).
  Proof.
    intros Hk. pose proof (Hx (k:=k) ltac:(lia)). pose proof (Hp (k:=k) ltac:(lia)).
    rewrite Sx by auto. rewrite cg_energy_expand by vl. rewrite <- Res by lia.
    destruct LA as [_ [_ A2]]. rewrite A2 by auto. vdot. rewrite cg_pr by lia. unfold al.
    destruct (NZ Hk). field. auto.
  Qed.
  Theorem cg_count : (K <= n)%nat.
  Proof.
    apply (@conj_count n K A p LA).
    - intros; apply Hp; lia.
    - intros i j Hi Hj Ne. destruct (cg_seq (le_n K)) as [_ HP].
      destruct (lt_dec i j); [apply HP; lia|]. rewrite <- SA by (apply Hp; lia). rewrite rdot_sym. apply HP. lia.
    - intros i Hi. now apply NZ.
  Qed.
  Theorem cg_count_last : positive_op n A -> rdot (p K) (A (p K)) <> 0 -> (S K <= n)%nat.
  Proof.
    intros PA HK. apply (@conj_count n (S K) A p LA).
    - intros; apply Hp; lia.
    - intros i j Hi Hj Ne. destruct (cg_seq (le_n K)) as [_ HP].
      destruct (lt_dec i j); [apply HP; lia|]. rewrite <- SA by (apply Hp; lia). rewrite rdot_sym. apply HP. lia.
    - intros i Hi. destruct (Nat.eq_dec i K) as [->|]; auto. apply NZ. lia.
  Qed.
End Seq.

(** *** pcg *)
Lemma pcg_body_inv A M s s' : pcg_body A M s = Some s' ->
  rdot (pcg_p s) (A (pcg_p s)) <> 0 /\ pcg_gamma s <> 0 /\
  let al := pcg_gamma s / rdot (pcg_p s) (A (pcg_p s)) in
  let be := pcg_gamma s' / pcg_gamma s in
  pcg_x s' = radd (pcg_x s) (rscale al (pcg_p s)) /\
  pcg_r s' = rsub (pcg_r s) (rscale al (A (pcg_p s))) /\
  pcg_gamma s' = rdot (pcg_r s') (M (pcg_r s')) /\
  pcg_p s' = radd (M (pcg_r s')) (rscale be (pcg_p s)) /\
  pcg_it s' = S (pcg_it s).
Proof.
  unfold pcg_body. cbv zeta. destruct (fdiv _ (rdot _ _)) as [al|] eqn:E; [|discriminate].
  apply fdiv_some in E as [E1 ->].
  destruct (fdiv _ (pcg_gamma s)) as [be|] eqn:E; [|discriminate]. apply fdiv_some in E as [E2 ->].
  intros [= <-]. cbn. repeat split; auto.
Qed.
Lemma pcg_body_ok A M s : rdot (pcg_p s) (A (pcg_p s)) <> 0 -> pcg_gamma s <> 0 -> pcg_body A M s <> None.
Proof. intros H1 H2. unfold pcg_body. cbv zeta. now rewrite fdiv_ok, fdiv_ok. Qed.

(** *** cg is pcg with the identity preconditioner *)
Definition cg2pcg (s : cg_state) : pcg_state := PCGState (cg_x s) (cg_r s) (cg_p s) (cg_rn2 s) (S (cg_it s)).
Lemma cg_iter_pcg A s : pcg_body (mv A) (fun x => x) (cg2pcg s) = option_map cg2pcg (cg_iteration A s).
Proof.
  unfold pcg_body, cg_iteration, cg2pcg. cbn. destruct (fdiv _ (rdot _ _)); cbn; auto. destruct (fdiv _ _); cbn; auto.
Qed.
Lemma cg_reaches A b x0 mx rt k s :
  reaches (cg_cond (cg_max_rn2 b rt) mx) (cg_iteration A) (cg_init A b x0) k s ->
  reaches (pcg_cond true (cg_max_rn2 b rt) (S mx)) (pcg_body (mv A) (fun x => x)) (pcg_init (mv A) (fun x => x) b x0) k (cg2pcg s).
Proof.
  induction 1 as [|k s s' H IH C B]; [constructor|]. econstructor; [eassumption| |].
  - unfold pcg_cond, cg2pcg, cg_cond in *. cbn. exact C.
  - now rewrite cg_iter_pcg, B.
Qed.

Section Pcg.
  Variables (n : nat) (A M : vec -> vec) (b x0 : vec) (isid : bool) (mg : R) (mx : nat).
  Hypothesis LA : linear_op n n A.
  Hypothesis LM : forall x, length x = n -> length (M x) = n.
  Hypothesis Hb : length b = n.
  Hypothesis Hx0 : length x0 = n.
  Notation Rch := (reaches (pcg_cond isid mg mx) (pcg_body A M) (pcg_init A M b x0)).
  Let LAn : forall x, length x = n -> length (A x) = n. Proof. apply LA. Qed.
  Definition pcg_ok (s : pcg_state) : Prop :=
    length (pcg_x s) = n /\ length (pcg_p s) = n /\ pcg_r s = rsub b (A (pcg_x s)) /\
    pcg_gamma s = rdot (pcg_r s) (M (pcg_r s)).
  Lemma pcg_ok_init : pcg_ok (pcg_init A M b x0).
  Proof. unfold pcg_ok, pcg_init; cbn. pose proof (LAn _ Hx0). repeat split; auto. apply LM. vl. Qed.
  Lemma pcg_ok_r s : pcg_ok s -> length (pcg_r s) = n.
  Proof. intros [H [_ [-> _]]]. pose proof (LAn _ H). vl. Qed.
  Lemma pcg_ok_step s s' : pcg_ok s -> pcg_body A M s = Some s' -> pcg_ok s'.
  Proof.
    intros O B. pose proof (pcg_ok_r O) as Lr. destruct O as [Lx [Lp [Er Eg]]].
    destruct (pcg_body_inv _ _ _ B) as [N1 [N2 H]]. cbv zeta in H. destruct H as [E1 [E2 [E3 [E4 E5]]]].
    set (al := pcg_gamma s / rdot (pcg_p s) (A (pcg_p s))) in *.
    pose proof (LAn _ Lp). pose proof (LAn _ Lx).
    assert (length (pcg_r s') = n) by (rewrite E2; vl). pose proof (@LM (pcg_r s')).
    unfold pcg_ok. repeat split; auto.
    - rewrite E1. vl.
    - rewrite E4. rewrite radd_len, rscale_len, LM by auto. lia.
    - rewrite E2, E1, Er. destruct LA as [_ [A1 A2]]. rewrite A1, A2 by vl. veq.
  Qed.
  Lemma pcg_reach_ok k s : Rch k s -> pcg_ok s /\ pcg_it s = S k.
  Proof.
    induction 1 as [|k s s' H [IH I2] C B]; [split; [apply pcg_ok_init|reflexivity]|].
    split; [eapply pcg_ok_step; eauto|]. destruct (pcg_body_inv _ _ _ B) as [_ [_ HH]]. cbv zeta in HH.
    destruct HH as [_ [_ [_ [_ ->]]]]. now rewrite I2.
  Qed.
  Lemma pcg_reach_lim k s : Rch k s -> (S k <= Nat.max 1 mx)%nat.
  Proof.
    intros H. destruct H as [|k s s' H C B]; [lia|]. apply pcg_reach_ok in H as [_ E].
    unfold pcg_cond in C. apply andb_true_iff in C as [_ C]. apply Nat.ltb_lt in C. lia.
  Qed.
  Hypothesis SA : symmetric_op n A.
  Hypothesis SM : symmetric_op n M.
  Section Run.
    Variables (K : nat) (sK : pcg_state).
    Hypothesis HK : Rch K sK.
    Let st := traj (pcg_cond isid mg mx) (pcg_body A M) (pcg_init A M b x0).
    Let ok j : (j <= K)%nat -> pcg_ok (st j).
    Proof. intros Hj. eapply pcg_reach_ok. eapply traj_reaches; eauto. Qed.
    Let step j : (j < K)%nat -> pcg_body A M (st j) = Some (st (S j)).
    Proof. intros Hj. eapply traj_step; eauto. Qed.
    Let Hr k : (k <= K)%nat -> length (pcg_r (st k)) = n. Proof. intros; now apply pcg_ok_r, ok. Qed.
    Let Hx k : (k <= K)%nat -> length (pcg_x (st k)) = n. Proof. intros; now apply ok. Qed.
    Let Hp k : (k <= K)%nat -> length (pcg_p (st k)) = n. Proof. intros; now apply ok. Qed.
    Let Hg k : (k <= K)%nat -> pcg_gamma (st k) = rdot (pcg_r (st k)) (M (pcg_r (st k))). Proof. intros; now apply ok. Qed.
    Let Res k : (k <= K)%nat -> pcg_r (st k) = rsub b (A (pcg_x (st k))). Proof. intros; now apply ok. Qed.
    Let Hp0 : pcg_p (st 0) = M (pcg_r (st 0)). Proof. reflexivity. Qed.
    Let NZ k : (k < K)%nat -> rdot (pcg_p (st k)) (A (pcg_p (st k))) <> 0 /\ pcg_gamma (st k) <> 0.
    Proof. intros Hk. destruct (pcg_body_inv _ _ _ (step Hk)) as [? [? _]]. auto. Qed.
    Let Sx k : (k < K)%nat -> pcg_x (st (S k)) = radd (pcg_x (st k)) (rscale (pcg_gamma (st k) / rdot (pcg_p (st k)) (A (pcg_p (st k)))) (pcg_p (st k))).
    Proof. intros Hk. destruct (pcg_body_inv _ _ _ (step Hk)) as [? [? H]]. apply H. Qed.
    Let Sr k : (k < K)%nat -> pcg_r (st (S k)) = rsub (pcg_r (st k)) (rscale (pcg_gamma (st k) / rdot (pcg_p (st k)) (A (pcg_p (st k)))) (A (pcg_p (st k)))).
    Proof. intros Hk. destruct (pcg_body_inv _ _ _ (step Hk)) as [? [? H]]. apply H. Qed.
    Let Sp k : (k < K)%nat -> pcg_p (st (S k)) = radd (M (pcg_r (st (S k)))) (rscale (pcg_gamma (st (S k)) / pcg_gamma (st k)) (pcg_p (st k))).
    Proof. intros Hk. destruct (pcg_body_inv _ _ _ (step Hk)) as [? [? H]]. apply H. Qed.
    Lemma run_seq i j : (i < j <= K)%nat ->
      rdot (M (pcg_r (st i))) (pcg_r (st j)) = 0 /\ rdot (pcg_p (st i)) (A (pcg_p (st j))) = 0 /\ rdot (pcg_p (st i)) (pcg_r (st j)) = 0.
    Proof.
      intros H. destruct (@cg_seq n K A M (fun k => pcg_r (st k)) (fun k => pcg_p (st k)) (fun k => pcg_gamma (st k)) LA SA LM SM Hr Hp Hg Hp0 NZ Sr Sp K (le_n K)) as [H1 H2].
      repeat split; auto. apply (@cg_rp n K A M (fun k => pcg_r (st k)) (fun k => pcg_p (st k)) (fun k => pcg_gamma (st k)) LA SA LM SM Hr Hp Hg Hp0 NZ Sr Sp); lia.
    Qed.
    Lemma run_pr j : (j <= K)%nat -> rdot (pcg_p (st j)) (pcg_r (st j)) = pcg_gamma (st j).
    Proof. intros H. apply (@cg_pr n K A M (fun k => pcg_r (st k)) (fun k => pcg_p (st k)) (fun k => pcg_gamma (st k)) LA SA LM SM Hr Hp Hg Hp0 NZ Sr Sp); lia. Qed.
    Lemma run_optimal : psd_op n A -> forall d, in_span n (krylov (fun v => M (A v)) (M (rsub b (A x0))) K) d ->
      energy A b (pcg_x sK) <= energy A b (radd x0 d).
    Proof.
      intros PA d Hd.
      pose proof (@cg_optimal n K A M (fun k => pcg_x (st k)) (fun k => pcg_r (st k)) (fun k => pcg_p (st k)) (fun k => pcg_gamma (st k)) LA SA LM SM Hr Hx Hp Hg Hp0 NZ Sx Sr Sp b Hb Res PA K (le_n K) d Hd) as H. cbn in H.
      unfold st in H at 1. rewrite (reaches_traj HK) in H. exact H.
    Qed.
    Lemma run_descent j : (j < K)%nat ->
      energy A b (pcg_x (st (S j))) = energy A b (pcg_x (st j)) - / 2 * (pcg_gamma (st j) * pcg_gamma (st j)) / rdot (pcg_p (st j)) (A (pcg_p (st j))).
    Proof. intros H. apply (@cg_descent n K A M (fun k => pcg_x (st k)) (fun k => pcg_r (st k)) (fun k => pcg_p (st k)) (fun k => pcg_gamma (st k)) LA SA LM SM Hr Hx Hp Hg Hp0 NZ Sx Sr Sp b Hb Res); auto. Qed.
    Lemma run_count : (K <= n)%nat.
    Proof. exact (@cg_count n K A M (fun k => pcg_r (st k)) (fun k => pcg_p (st k)) (fun k => pcg_gamma (st k)) LA SA LM SM Hr Hp Hg Hp0 NZ Sr Sp b Hb). Qed.
    Lemma run_count_last : positive_op n A -> rdot (pcg_p sK) (A (pcg_p sK)) <> 0 -> (S K <= n)%nat.
    Proof.
      intros PA H. rewrite <- (reaches_traj HK) in H.
      exact (@cg_count_last n K A M (fun k => pcg_r (st k)) (fun k => pcg_p (st k)) (fun k => pcg_gamma (st k)) LA SA LM SM Hr Hp Hg Hp0 NZ Sr Sp b Hb PA H).
    Qed.
    Lemma run_last : st K = sK. Proof. exact (reaches_traj HK). Qed.
  End Run.
  Hypothesis PA : positive_op n A.
  Hypothesis PM : positive_op n M.
  Lemma pos_nz (P : vec -> vec) v : positive_op n P -> length v = n -> rdot v v <> 0 -> 0 < rdot v (P v).
  Proof. intros H L N. apply H; auto. intros ->. apply N. apply rdot_zero_l. Qed.
  (** while the residual is not zero the iteration is well defined *)
  Lemma run_progress k s : Rch k s -> rdot (pcg_r s) (pcg_r s) <> 0 ->
    0 < pcg_gamma s /\ 0 < rdot (pcg_p s) (A (pcg_p s)) /\ pcg_body A M s <> None /\ (S k <= n)%nat.
  Proof.
    intros H N. pose proof (proj1 (pcg_reach_ok H)) as O. pose proof (pcg_ok_r O) as Lr.
    assert (G : 0 < pcg_gamma s) by (destruct O as [_ [_ [_ ->]]]; now apply pos_nz).
    pose proof (run_pr H (le_n k)) as E. rewrite (run_last H) in E.
    assert (Lp : length (pcg_p s) = n) by apply O.
    assert (P : 0 < rdot (pcg_p s) (A (pcg_p s))).
    { apply PA; auto. intros Z. rewrite Z, rdot_zero_l in E. lra. }
    repeat split; auto; [apply pcg_body_ok; lra|]. apply (run_count_last H); auto. lra.
  Qed.
  Lemma run_zero k s : Rch k s -> (n <= k)%nat -> pcg_r s = rzero n.
  Proof.
    intros H Hk. destruct (Req_dec (rdot (pcg_r s) (pcg_r s)) 0) as [E|E].
    - apply rdot_eq0 in E. now rewrite (pcg_ok_r (proj1 (pcg_reach_ok H))) in E.
    - destruct (run_progress H E) as [_ [_ [_ L]]]. lia.
  Qed.
  Hypothesis Hmg : 0 <= mg.
  Hypothesis Hid : isid = true -> forall x, length x = n -> M x = x.
  Lemma cond_nz k s : Rch k s -> pcg_cond isid mg mx s = true -> rdot (pcg_r s) (pcg_r s) <> 0.
  Proof.
    intros H C. pose proof (proj1 (pcg_reach_ok H)) as O. pose proof (pcg_ok_r O) as Lr. destruct O as [_ [_ [_ Eg]]].
    unfold pcg_cond in C. apply andb_true_iff in C as [C _].
    apply Rltb_true in C. destruct isid; [|lra]. rewrite Eg, Hid in C by auto. lra.
  Qed.
  Lemma pcg_total fuel : (n <= fuel)%nat -> exists s, while_ (pcg_cond isid mg mx) (pcg_body A M) fuel (pcg_init A M b x0) = Done s.
  Proof.
    intros Hf. apply while_total.
    - intros k s H C. eapply run_progress; eauto. eapply cond_nz; eauto.
    - intros k s H C. destruct (run_progress H (cond_nz H C)) as [_ [_ [_ L]]]. lia.
  Qed.
End Pcg.

(** *** statements about the two solvers *)
Lemma mv_linear n A : shape n n A -> linear_op n n (mv A).
Proof.
  intros [H1 H2]. repeat split; intros.
  - now rewrite mv_len.
  - now apply (@mv_add A x y n).
  - apply mv_scale.
Qed.
Lemma id_len n (x : vec) : length x = n -> length x = n. Proof. auto. Qed.
Lemma id_sym n : symmetric_op n (fun x => x). Proof. intros x y _ _. reflexivity. Qed.
Lemma id_pos n : positive_op n (fun x => x).
Proof.
  intros x L N. pose proof (rdot_pos x) as [H|H]; auto. symmetry in H. apply rdot_eq0 in H. rewrite L in H. contradiction.
Qed.
Lemma pos_psd n A : linear_op n n A -> positive_op n A -> psd_op n A.
Proof.
  intros LA H x L. destruct (list_eq_dec Req_EM_T x (rzero n)) as [->|N].
  - rewrite rdot_zero_l. lra.
  - left. auto.
Qed.
Lemma cg_max_pos b rt : 0 <= cg_max_rn2 b rt.
Proof. unfold cg_max_rn2. apply Rmult_le_pos; [apply rdot_pos|]. pose proof (Rle_0_sqr rt). auto. Qed.
Lemma pcg_max_pos b tol atol : 0 <= pcg_max_gamma b tol atol.
Proof. unfold pcg_max_gamma. pose proof (Rmax_r (tol * tol * rdot b b) (atol * atol)). pose proof (Rle_0_sqr atol). unfold Rsqr in *. lra. Qed.

Section CgTop.
  Variables (n : nat) (A : mat) (b x0 : vec) (mi : option nat) (rt : R).
  Hypothesis HA : shape n n A.
  Hypothesis Hb : length b = n.
  Hypothesis Hx0 : length x0 = n.
  Let cond := cg_cond (cg_max_rn2 b rt) (cg_limit A mi).
  Notation Rch := (reaches cond (cg_iteration A) (cg_init A b x0)).
  Let LA := mv_linear HA.
  Lemma cg_every k s : Rch k s ->
    length (cg_x s) = n /\ cg_r s = rsub b (mv A (cg_x s)) /\ cg_rn2 s = nrm2 (rsub b (mv A (cg_x s))) /\ cg_it s = k.
  Proof.
    intros H. apply cg_reaches in H. destruct (pcg_reach_ok LA (@id_len n) Hb Hx0 H) as [[H1 [_ [H2 H3]]] H4].
    cbn in *. unfold nrm2. rewrite H3, H2. repeat split; auto.
  Qed.
  Lemma cg_cond_false k s : Rch k s -> cond s = false ->
    cg_it s = cg_limit A mi \/ nrm2 (rsub b (mv A (cg_x s))) <= rt * rt * nrm2 b.
  Proof.
    intros H C. pose proof (cg_every H) as [_ [_ [E Ek]]]. unfold cond, cg_cond in C. apply andb_false_iff in C as [C|C].
    - right. apply Rltb_false in C. rewrite E in C. unfold cg_max_rn2, nrm2 in *. lra.
    - left. apply Nat.ltb_ge in C. assert (k <= cg_limit A mi)%nat; [|lia].
      destruct H as [|k s s' H C' B]; [lia|]. pose proof (cg_every H) as [_ [_ [_ Ek']]].
      unfold cond, cg_cond in C'. apply andb_true_iff in C' as [_ C']. apply Nat.ltb_lt in C'. lia.
  Qed.
  Lemma cg_exit fuel s : cg_solve_from A b x0 mi rt fuel = Done s ->
    cg_r s = rsub b (mv A (cg_x s)) /\ cg_rn2 s = nrm2 (rsub b (mv A (cg_x s))) /\ (cg_it s <= cg_limit A mi)%nat /\
    (cg_it s = cg_limit A mi \/ nrm2 (rsub b (mv A (cg_x s))) <= rt * rt * nrm2 b).
  Proof.
    intros H. apply while_done in H as [k [_ [H C]]]. pose proof (cg_every H) as [_ [E1 [E2 E3]]].
    repeat split; auto.
    - apply cg_reaches in H. pose proof (pcg_reach_lim LA (@id_len n) Hb Hx0 H); lia.
    - eapply cg_cond_false; eauto.
  Qed.
  Lemma cg_fuel fuel : (cg_limit A mi <= fuel)%nat -> cg_solve_from A b x0 mi rt fuel <> Fuel.
  Proof.
    intros Hf H. apply (while_fuel _ (reach_0 _ _ _)) in H as [s [H C]]. simpl in H.
    pose proof (cg_every H) as [_ [_ [_ E]]]. unfold cg_cond in C.
    apply andb_true_iff in C as [_ C]. apply Nat.ltb_lt in C. lia.
  Qed.
  Hypothesis SA : symmetric_op n (mv A).
  Let st := traj (pcg_cond true (cg_max_rn2 b rt) (S (cg_limit A mi))) (pcg_body (mv A) (fun x => x)) (pcg_init (mv A) (fun x => x) b x0).
  Lemma cg_orth i j si sj : (i < j)%nat -> Rch i si -> Rch j sj ->
    rdot (cg_r si) (cg_r sj) = 0 /\ rdot (cg_p si) (mv A (cg_p sj)) = 0.
  Proof.
    intros Hij Hi Hj. apply cg_reaches in Hi, Hj.
    destruct (@run_seq n _ _ b x0 true _ _ LA (@id_len n) Hb Hx0 SA (@id_sym n) j _ Hj i j ltac:(lia)) as [H1 [H2 _]].
    rewrite (reaches_traj Hi), (reaches_traj Hj) in *. auto.
  Qed.
  Lemma cg_krylov k s : psd_op n (mv A) -> Rch k s -> forall d, in_span n (krylov (mv A) (rsub b (mv A x0)) k) d ->
    energy (mv A) b (cg_x s) <= energy (mv A) b (radd x0 d).
  Proof.
    intros P H d Hd. apply cg_reaches in H.
    exact (run_optimal LA (@id_len n) Hb Hx0 SA (@id_sym n) H P Hd).
  Qed.
  Hypothesis PA : positive_op n (mv A).
  Lemma cg_decreases k s s' : Rch k s -> cond s = true -> cg_iteration A s = Some s' ->
    energy (mv A) b (cg_x s') < energy (mv A) b (cg_x s).
  Proof.
    intros H C B. assert (H' : Rch (S k) s') by (econstructor; eauto). pose proof H as Hk.
    apply cg_reaches in H, H'.
    pose proof (run_descent LA (@id_len n) Hb Hx0 SA (@id_sym n) H' (Nat.lt_succ_diag_r k)) as E.
    rewrite (reaches_traj H), (reaches_traj H') in E. cbn in E. rewrite E.
    assert (N : rdot (pcg_r (cg2pcg s)) (pcg_r (cg2pcg s)) <> 0).
    { cbn. pose proof (cg_every Hk) as [_ [E1 [E2 _]]]. rewrite E1. fold (nrm2 (rsub b (mv A (cg_x s)))). rewrite <- E2.
      unfold cond, cg_cond in C. apply andb_true_iff in C as [C _]. apply Rltb_true in C. pose proof (cg_max_pos b rt). lra. }
    destruct (run_progress LA (@id_len n) Hb Hx0 SA (@id_sym n) PA (@id_pos n) H N) as [G [P _]]. cbn in G, P.
    assert (0 < / 2 * (cg_rn2 s * cg_rn2 s) / rdot (cg_p s) (mv A (cg_p s))); [|lra].
    apply Rdiv_lt_0_compat; auto. apply Rmult_lt_0_compat; [lra|]. now apply Rmult_lt_0_compat.
  Qed.
  Lemma cg_cond_nz k s : Rch k s -> cond s = true -> rdot (pcg_r (cg2pcg s)) (pcg_r (cg2pcg s)) <> 0.
  Proof.
    intros Hk C. cbn. pose proof (cg_every Hk) as [_ [E1 [E2 _]]]. rewrite E1. fold (nrm2 (rsub b (mv A (cg_x s)))). rewrite <- E2.
    unfold cond, cg_cond in C. apply andb_true_iff in C as [C _]. apply Rltb_true in C. pose proof (cg_max_pos b rt). lra.
  Qed.
  Lemma cg_terminates fuel : (n <= fuel)%nat -> exists s, cg_solve_from A b x0 mi rt fuel = Done s /\ (cg_it s <= n)%nat /\
    ((n <= cg_limit A mi)%nat -> nrm2 (rsub b (mv A (cg_x s))) <= rt * rt * nrm2 b).
  Proof.
    intros Hf.
    assert (PR : forall k s, Rch k s -> cond s = true -> cg_iteration A s <> None /\ (S k <= n)%nat).
    { intros k s H C. pose proof (cg_cond_nz H C) as N. apply cg_reaches in H.
      destruct (run_progress LA (@id_len n) Hb Hx0 SA (@id_sym n) PA (@id_pos n) H N) as [_ [_ [B L]]].
      split; auto. intros E. apply B. now rewrite cg_iter_pcg, E. }
    destruct (@while_total _ cond (cg_iteration A) (cg_init A b x0) fuel) as [s E].
    - intros k s H C. eapply PR; eauto.
    - intros k s H C. destruct (PR k s H C). lia.
    - exists s. split; [exact E|]. apply while_done in E as [k [_ [H C]]].
      pose proof (cg_every H) as [_ [_ [_ Ek]]].
      assert (L : (k <= n)%nat).
      { destruct H as [|k s s' H C' B]; [lia|]. destruct (PR k s H C'). lia. }
      split; [lia|]. intros HL. destruct (cg_cond_false H C) as [E|]; auto.
      assert (k = n) by lia. subst k. pose proof H as H2. apply cg_reaches in H2.
      apply (run_zero LA (@id_len n) Hb Hx0 SA (@id_sym n) PA (@id_pos n)) in H2; [|lia]. cbn in H2.
      pose proof (cg_every H) as [_ [E1 _]]. rewrite <- E1, H2. unfold nrm2. rewrite rdot_zero_l.
      apply Rmult_le_pos; [apply Rle_0_sqr|apply rdot_pos].
  Qed.
End CgTop.

Section PcgTop.
  Variables (n : nat) (A : vec -> vec) (M : option (vec -> vec)) (b x0 : vec) (mi : nat) (tol atol : R).
  Hypothesis LA : linear_op n n A.
  Hypothesis LM : forall x, length x = n -> length (pcg_M M x) = n.
  Hypothesis Hb : length b = n.
  Hypothesis Hx0 : length x0 = n.
  Let cond := pcg_cond (pcg_is_id M) (pcg_max_gamma b tol atol) mi.
  Notation Rch := (reaches cond (pcg_body A (pcg_M M)) (pcg_init A (pcg_M M) b x0)).
  Let idM : pcg_is_id M = true -> forall x, length x = n -> pcg_M M x = x.
  Proof. destruct M; [discriminate|auto]. Qed.
  Lemma pcg_stop s : pcg_ok n A (pcg_M M) b s -> cond s = false -> (mi <= pcg_it s)%nat \/
    nrm2 (rsub b (A (pcg_x s))) <= Rmax (tol * tol * nrm2 b) (atol * atol).
  Proof.
    intros O C. unfold cond, pcg_cond in C. cbv zeta in C.
    apply andb_false_iff in C as [C|C]; [right|left; now apply Nat.ltb_ge in C].
    apply Rltb_false in C. unfold pcg_max_gamma in C. unfold nrm2.
    assert (Lr : length (pcg_r s) = n) by (destruct O as [h [_ [-> _]]]; pose proof (proj1 LA _ h); vl). destruct O as [_ [_ [E1 E2]]]. rewrite <- E1.
    destruct (pcg_is_id M) eqn:I; auto. rewrite E2, idM in C by auto. exact C.
  Qed.
  Lemma pcg_exit fuel s : pcg_solve_from A b x0 mi tol atol M fuel = Done s ->
    pcg_r s = rsub b (A (pcg_x s)) /\ (pcg_it s <= Nat.max 1 mi)%nat /\
    ((mi <= pcg_it s)%nat \/ nrm2 (rsub b (A (pcg_x s))) <= Rmax (tol * tol * nrm2 b) (atol * atol)).
  Proof.
    intros H. apply while_done in H as [k [_ [H C]]]. pose proof (pcg_reach_lim LA LM Hb Hx0 H).
    apply (pcg_reach_ok LA LM Hb Hx0) in H as [O E]. split; [apply O|]. split; [lia|]. now apply pcg_stop.
  Qed.
  Lemma pcg_fuel fuel : (mi <= fuel)%nat -> pcg_solve_from A b x0 mi tol atol M fuel <> Fuel.
  Proof.
    intros Hf H. apply (while_fuel _ (reach_0 _ _ _)) in H as [s [H C]]. simpl in H.
    apply (pcg_reach_ok LA LM Hb Hx0) in H as [_ E]. unfold pcg_cond in C.
    apply andb_true_iff in C as [_ C]. apply Nat.ltb_lt in C. lia.
  Qed.
  Hypothesis SA : symmetric_op n A.
  Hypothesis SM : symmetric_op n (pcg_M M).
  Lemma pcg_orth i j si sj : (i < j)%nat -> Rch i si -> Rch j sj ->
    rdot (pcg_M M (pcg_r si)) (pcg_r sj) = 0 /\ rdot (pcg_p si) (A (pcg_p sj)) = 0.
  Proof.
    intros Hij Hi Hj. unfold cond in Hi, Hj.
    destruct (@run_seq n _ _ b x0 _ _ _ LA LM Hb Hx0 SA SM j _ Hj i j ltac:(lia)) as [H1 [H2 _]].
    rewrite (reaches_traj Hi), (reaches_traj Hj) in *. auto.
  Qed.
  Lemma pcg_krylov k s : psd_op n A -> Rch k s ->
    forall d, in_span n (krylov (fun v => pcg_M M (A v)) (pcg_M M (rsub b (A x0))) k) d ->
    energy A b (pcg_x s) <= energy A b (radd x0 d).
  Proof. intros P H d Hd. exact (run_optimal LA LM Hb Hx0 SA SM H P Hd). Qed.
  Hypothesis PA : positive_op n A.
  Hypothesis PM : positive_op n (pcg_M M).
  Lemma pcg_terminates fuel : (n <= fuel)%nat -> exists s, pcg_solve_from A b x0 mi tol atol M fuel = Done s /\
    (pcg_it s <= S n)%nat /\
    ((n < mi)%nat -> nrm2 (rsub b (A (pcg_x s))) <= Rmax (tol * tol * nrm2 b) (atol * atol)).
  Proof.
    intros Hf. destruct (@pcg_total n A (pcg_M M) b x0 (pcg_is_id M) (pcg_max_gamma b tol atol) mi LA LM Hb Hx0 SA SM PA PM (pcg_max_pos b tol atol) idM fuel Hf) as [s E].
    exists s. split; [exact E|]. apply while_done in E as [k [_ [H C]]].
    pose proof (pcg_reach_ok LA LM Hb Hx0 H) as [O E]. pose proof (run_count LA LM Hb Hx0 SA SM H).
    split; [lia|]. intros HL. destruct (pcg_stop O C) as [E2|]; auto.
    assert (k = n) by lia. subst k.
    apply (run_zero LA LM Hb Hx0 SA SM PA PM) in H; auto. destruct O as [_ [_ [O _]]].
    rewrite <- O, H. unfold nrm2 at 1. rewrite rdot_zero_l.
    pose proof (Rmax_r (tol * tol * nrm2 b) (atol * atol)). pose proof (Rle_0_sqr atol). unfold Rsqr in *. lra.
  Qed.
End PcgTop.
