(** FOCUSS: descent, the loop, and where it breaks down. *)
From Coq Require Import List Arith Bool Reals Lia Lra Psatz.
From Verif Require Import Vec RVec Loop SolverSpec LoopLemmas BsblModel BsblSpec BsblProofs
  FocussModel FocussSpec LinAlg FocussProofs.
Local Open Scope R_scope.

Section D.
  Variables (m n : nat) (Phi : fmat) (y : fvec).
  Variable solve : fmat -> fvec -> option fvec.
  Hypothesis Hsolve : exact_solver m solve.
  Variable p : R.
  Hypothesis Hp : 0 < p.

  Lemma supported_refl x : supported n x x.
  Proof. intros i _ H. exact H. Qed.

  Lemma lp_major x x1 : p <= 1 -> supported n x x1 ->
    lp_sum n (2 - 2 * p) x1 <= lp_sum n (2 - 2 * p) x +
      (1 - p) * (weighted_energy n p x x1 - weighted_energy n p x x).
  Proof.
    intros Hp1 Hs. unfold lp_sum, weighted_energy. rewrite <- rsum_sub, <- rsum_mul_l, <- rsum_add.
    apply rsum_le. intros i Hi. destruct (Req_EM_T (x i) 0) as [E|E].
    - rewrite (Hs i Hi E), E. unfold apow. destruct (Req_EM_T 0 0); lra.
    - now apply apow_major.
  Qed.

  Lemma step_descent x x1 : p < 1 -> step_noiseless m n Phi y solve p x = Some x1 ->
    solves m n Phi y x ->
    lp_sum n (2 - 2 * p) x1 <= lp_sum n (2 - 2 * p) x /\
    ((exists i, (i < n)%nat /\ x1 i <> x i) ->
     lp_sum n (2 - 2 * p) x1 < lp_sum n (2 - 2 * p) x).
  Proof.
    intros Hp1 H Hs.
    pose proof (lp_major x x1 ltac:(lra) (step_supported m n Phi y solve Hsolve p Hp x x1 H)) as HM.
    pose proof (energy_pyth m n Phi y solve Hsolve p Hp x x1 x H Hs (supported_refl x)) as HE.
    pose proof (energy_pos n p x (fun i => x i - x1 i)) as HQ.
    split; [nra|]. intros [i [Hi Hne]].
    assert (0 < weighted_energy n p x (fun i => x i - x1 i)).
    { apply energy_gt.
      - intros j Hj E. rewrite E, (step_supported m n Phi y solve Hsolve p Hp x x1 H j Hj E). ring.
      - exists i. split; auto. lra. }
    nra.
  Qed.
End D.

Lemma prod_bound x a : x <> 0 ->
  Rabs a <= Rabs x * exp ((a * a / (x * x) - 1) / 2).
Proof.
  intros Hx. assert (Ha : 0 < Rabs x) by now apply Rabs_pos_lt.
  pose proof (exp_ineq1_le ((a * a / (x * x) - 1) / 2)) as HE.
  set (u := Rabs a / Rabs x).
  assert (Hu : a * a / (x * x) = u * u).
  { unfold u. assert (a * a = Rabs a * Rabs a) by (rewrite <- Rabs_mult; rewrite Rabs_right; nra).
    assert (x * x = Rabs x * Rabs x) by (rewrite <- Rabs_mult; rewrite Rabs_right; nra).
    rewrite H, H0. field. lra. }
  rewrite Hu in *. replace (Rabs a) with (Rabs x * u) by (unfold u; field; lra).
  apply Rmult_le_compat_l; [lra|]. pose proof (Rle_0_sqr (u - 1)) as HQ. unfold Rsqr in HQ.
  apply Rle_trans with (2 := HE). lra.
Qed.

Lemma rprod_pos n f : (forall i, (i < n)%nat -> 0 <= f i) -> 0 <= rprod n f.
Proof.
  induction n as [|n IH]; intros H; cbn [rprod]; [lra|].
  apply Rmult_le_pos; [apply IH; auto|auto].
Qed.

Lemma support_product_bound n x x1 :
  support_product n x x1 <= support_product n x x *
    exp (rsum n (fun i => if Req_EM_T (x i) 0 then 0 else (x1 i * x1 i / (x i * x i) - 1) / 2)).
Proof.
  unfold support_product. induction n as [|n IH]; cbn [rprod rsum]; [rewrite exp_0; lra|].
  rewrite exp_plus.
  assert (HN : 0 <= rprod n (fun i => if Req_EM_T (x i) 0 then 1 else Rabs (x1 i))).
  { apply rprod_pos. intros i Hi. destruct (Req_EM_T (x i) 0); [lra|apply Rabs_pos]. }
  destruct (Req_EM_T (x n) 0) as [E|E].
  - rewrite exp_0. lra.
  - pose proof (prod_bound (x n) (x1 n) E) as HB.
    match goal with |- ?a * ?b <= ?c * ?d * (?e * ?f) =>
      replace (c * d * (e * f)) with ((c * e) * (d * f)) by ring end.
    apply Rmult_le_compat; auto. apply Rabs_pos.
Qed.

Section D1.
  Variables (m n : nat) (Phi : fmat) (y : fvec).
  Variable solve : fmat -> fvec -> option fvec.
  Hypothesis Hsolve : exact_solver m solve.

  Lemma Rpower_2 x : x <> 0 -> Rpower (Rabs x) (2 * 1) = x * x.
  Proof.
    intros H. replace (2 * 1) with (INR 2) by (cbn; lra).
    rewrite Rpower_pow by now apply Rabs_pos_lt. rewrite pow2_abs. ring.
  Qed.

  Lemma step_product x x1 : step_noiseless m n Phi y solve 1 x = Some x1 ->
    solves m n Phi y x -> support_product n x x1 <= support_product n x x.
  Proof.
    intros H Hs. pose proof Rlt_0_1 as H01.
    destruct (step_minimises m n Phi y solve Hsolve 1 H01 x x1 x H Hs (supported_refl n x)) as [HM _].
    pose proof (support_product_bound n x x1) as HB.
    assert (HN : 0 <= support_product n x x).
    { apply rprod_pos. intros i Hi. destruct (Req_EM_T (x i) 0); [lra|apply Rabs_pos]. }
    assert (HE : rsum n (fun i => if Req_EM_T (x i) 0 then 0 else (x1 i * x1 i / (x i * x i) - 1) / 2) <= 0).
    { apply Rle_trans with ((/ 2) * (weighted_energy n 1 x x1 - weighted_energy n 1 x x)); [|lra].
      right. unfold weighted_energy. rewrite <- rsum_sub, <- rsum_mul_l. apply rsum_ext.
      intros i Hi. destruct (Req_EM_T (x i) 0) as [E|E]; [ring|]. rewrite Rpower_2 by auto. field. auto. }
    pose proof (exp_pos (rsum n (fun i => if Req_EM_T (x i) 0 then 0 else (x1 i * x1 i / (x i * x i) - 1) / 2))).
    apply Rle_trans with (1 := HB). rewrite <- (Rmult_1_r (support_product n x x)) at 2.
    apply Rmult_le_compat_l; auto. set (q := rsum n _) in *. rewrite <- exp_0.
    destruct HE as [HE|HE]; [left; apply exp_increasing; exact HE|right; f_equal; exact HE].
  Qed.
End D1.

(** ** The loop *)
Section L.
  Variables (m n : nat) (Phi : fmat) (y : fvec).
  Variable solve : fmat -> fvec -> option fvec.
  Variables (p : R) (max_iters : nat).
  Notation body := (focuss_body m n Phi y solve p).
  Notation cond := (focuss_cond max_iters).
  Notation init := (focuss_init m n Phi y).

  Lemma reach_it k s : reaches cond body init k s -> fo_iterations s = k /\ (k <= max_iters)%nat /\
    s = focuss_at m n Phi y (fo_x s) k.
  Proof.
    induction 1 as [|k s s' H IH C B]; [split; [reflexivity|split; [lia|reflexivity]]|].
    unfold focuss_body in B. destruct (step_noiseless m n Phi y solve p (fo_x s)) as [x|]; [|discriminate].
    injection B as <-. cbn. destruct IH as [HI _]. rewrite HI.
    unfold focuss_cond in C. rewrite HI in C. apply Nat.ltb_lt in C. split; [reflexivity|]. split; [lia|reflexivity].
  Qed.

  Lemma reach_step k s : reaches cond body init (S k) s -> exists s0,
    reaches cond body init k s0 /\ step_noiseless m n Phi y solve p (fo_x s0) = Some (fo_x s).
  Proof.
    intros H. apply reaches_S_inv in H. destruct H as [s0 [H [C B]]]. exists s0. split; auto.
    unfold focuss_body in B. destruct (step_noiseless m n Phi y solve p (fo_x s0)) as [x|]; [|discriminate].
    injection B as <-. reflexivity.
  Qed.

  Lemma run_iterations fuel s : matrix_solve_noiseless m n Phi y solve p max_iters fuel = Done s ->
    fo_iterations s = max_iters /\ reaches cond body init max_iters s.
  Proof.
    intros H. destruct (@while_done _ _ _ _ _ _ H) as [j [_ [Hr Hc]]].
    destruct (reach_it j s Hr) as [HI [HL _]]. unfold focuss_cond in Hc. apply Nat.ltb_ge in Hc.
    assert (j = max_iters) by lia. split; [lia|]. rewrite H0 in Hr. exact Hr.
  Qed.

  Lemma run_fuel fuel : (max_iters <= fuel)%nat ->
    matrix_solve_noiseless m n Phi y solve p max_iters fuel <> Fuel.
  Proof.
    intros Hf H. destruct (@while_fuel _ cond body init fuel 0 init (reach_0 _ _ _) H) as [s [Hr C]].
    destruct (reach_it _ _ Hr) as [HI [HL _]]. unfold focuss_cond in C. apply Nat.ltb_lt in C. lia.
  Qed.

  Lemma not_done_fails fuel : (max_iters <= fuel)%nat ->
    (forall s, matrix_solve_noiseless m n Phi y solve p max_iters fuel <> Done s) ->
    matrix_solve_noiseless m n Phi y solve p max_iters fuel = Fail.
  Proof.
    intros Hf H. pose proof (run_fuel fuel Hf) as HF.
    destruct (matrix_solve_noiseless m n Phi y solve p max_iters fuel) as [s| |]; auto.
    - exfalso. now apply (H s).
    - contradiction.
  Qed.

  Hypothesis Hsolve : exact_solver m solve.
  Hypothesis Hp : 0 < p.

  Lemma reach_feasible k s : (0 < k)%nat -> reaches cond body init k s -> solves m n Phi y (fo_x s).
  Proof.
    intros Hk H. destruct k as [|k]; [lia|]. destruct (reach_step _ _ H) as [s0 [_ Hs]].
    eapply step_solves; eauto.
  Qed.

  Lemma run_feasible fuel s : (0 < max_iters)%nat ->
    matrix_solve_noiseless m n Phi y solve p max_iters fuel = Done s ->
    solves m n Phi y (fo_x s) /\ (forall i, (i < m)%nat -> fo_r s i = 0) /\
    fo_r_norm_sqr s = 0 /\ fo_iterations s = max_iters.
  Proof.
    intros HM H. destruct (run_iterations _ _ H) as [HI Hr].
    pose proof (reach_feasible _ _ HM Hr) as Hs. destruct (reach_it _ _ Hr) as [_ [_ HS]].
    assert (HR : forall i, (i < m)%nat -> fo_r s i = 0).
    { intros i Hi. rewrite HS. cbn. unfold fmv. rewrite (Hs i Hi). ring. }
    split; [auto|split; [auto|split; [|auto]]].
    rewrite HS. cbn. unfold fsq. apply rsum_0'. intros i Hi.
    replace (y i - fmv n Phi (fo_x s) i) with (fo_r s i) by (rewrite HS; reflexivity).
    rewrite HR by auto. ring.
  Qed.

  Lemma reach_descent j k s s' : p < 1 -> (0 < j <= k)%nat ->
    reaches cond body init j s -> reaches cond body init k s' ->
    lp_sum n (2 - 2 * p) (fo_x s') <= lp_sum n (2 - 2 * p) (fo_x s).
  Proof.
    intros Hp1 [Hj Hjk] Hr Hr'. revert s' Hr'. induction Hjk as [|k Hjk IH]; intros s' Hr'.
    - rewrite (reaches_fun Hr Hr'). lra.
    - destruct (reach_step _ _ Hr') as [s0 [H0 Hs]]. apply Rle_trans with (2 := IH s0 H0).
      eapply step_descent; eauto. eapply (reach_feasible k); eauto; lia.
  Qed.
End L.

(** ** Breakdown *)
Lemma support_dependent m n Phi x : (nnz n x < m)%nat -> ~ full_row_rank_on m n Phi x.
Proof.
  unfold nnz. set (sup := filter _ (seq 0 n)). intros Hn HF.
  destruct (kernel_nontrivial (length sup) m (fun k i => Phi i (nth k sup 0%nat)) Hn) as [v [[i [Hi Hv]] HB]].
  apply Hv. apply (HF v); auto. intros j Hj Hx.
  assert (Hin : In j sup).
  { apply filter_In. split; [apply in_seq; lia|]. destruct (Req_EM_T (x j) 0); [contradiction|reflexivity]. }
  destruct (In_nth sup j 0%nat Hin) as [k [Hk HE]]. rewrite <- HE. exact (HB k Hk).
Qed.

Lemma step_too_sparse m n Phi y solve p x : exact_solver m solve -> 0 < p -> (nnz n x < m)%nat ->
  step_noiseless m n Phi y solve p x = None.
Proof.
  intros Hs Hp Hn. destruct (step_noiseless m n Phi y solve p x) as [x1|] eqn:E; auto.
  exfalso. apply (support_dependent m n Phi x Hn).
  apply (step_defined m n Phi y solve Hs p Hp x). eauto.
Qed.

Lemma nnz_ext n x x' : (forall i, (i < n)%nat -> x i = x' i) -> nnz n x = nnz n x'.
Proof.
  intros H. unfold nnz. f_equal. apply filter_ext_in. intros i Hi. apply in_seq in Hi.
  rewrite H by lia. reflexivity.
Qed.

Lemma run_too_sparse m n Phi y solve p max_iters fuel : exact_solver m solve -> 0 < p ->
  (2 <= max_iters <= fuel)%nat ->
  (forall x1, step_noiseless m n Phi y solve p (fun _ => 1) = Some x1 -> (nnz n x1 < m)%nat) ->
  matrix_solve_noiseless m n Phi y solve p max_iters fuel = Fail.
Proof.
  intros Hs Hp [HM Hf] H1. apply not_done_fails; auto. intros s H.
  destruct (run_iterations _ _ _ _ _ _ _ _ _ H) as [_ Hr].
  destruct (reaches_le Hr (j := 2) HM) as [s2 H2].
  destruct (reach_step _ _ _ _ _ _ _ _ _ H2) as [s1 [Hr1 E2]].
  destruct (reach_step _ _ _ _ _ _ _ _ _ Hr1) as [s0 [Hr0 E1]].
  pose proof (reaches_fun Hr0 (reach_0 _ _ _)) as ->. cbn [focuss_init focuss_at fo_x] in E1.
  specialize (H1 _ E1). rewrite (step_too_sparse m n Phi y solve p (fo_x s1)) in E2 by auto. discriminate.
Qed.

Lemma nnz_zero n x : (forall i, (i < n)%nat -> x i = 0) -> nnz n x = 0%nat.
Proof.
  intros H. unfold nnz. rewrite (filter_ext_in _ (fun _ => false)).
  - induction (seq 0 n); auto.
  - intros i Hi. apply in_seq in Hi. destruct (Req_EM_T (x i) 0) as [|E]; auto. exfalso. apply E, H. lia.
Qed.

Lemma zero_data_fails m n Phi y solve p max_iters fuel : exact_solver m solve -> 0 < p ->
  (0 < m)%nat -> (forall i, (i < m)%nat -> y i = 0) -> (2 <= max_iters <= fuel)%nat ->
  matrix_solve_noiseless m n Phi y solve p max_iters fuel = Fail.
Proof.
  intros Hs Hp Hm Hy HM. apply run_too_sparse; auto. intros x1 E.
  rewrite nnz_zero; auto. intros i Hi.
  destruct (step_inv m n Phi y solve Hs p Hp _ _ E) as [HN [z [Hz Hx]]].
  rewrite Hx. replace (fmv m (ftr Phi) z i) with 0; [ring|]. symmetry.
  apply rsum_0'. intros j Hj. rewrite (HN z); [ring| |auto].
  intros k Hk. change (fmv m (sysmat n Phi p (fun _ => 1)) z k = 0). rewrite Hz by auto. auto.
Qed.

Lemma nnz_lt n x k : (k < n)%nat -> x k = 0 -> (nnz n x < n)%nat.
Proof.
  intros Hk E. unfold nnz.
  assert (H : forall l, In k l -> (length (filter (fun i => if Req_EM_T (x i) 0 then false else true) l) < length l)%nat).
  { induction l as [|a l IH]; intros Hin; [destruct Hin|]. cbn.
    destruct Hin as [->|Hin].
    - destruct (Req_EM_T (x k) 0); [|contradiction].
      clear. induction l as [|a l IH]; cbn; [lia|]. destruct (Req_EM_T (x a) 0); cbn in *; lia.
    - specialize (IH Hin). destruct (Req_EM_T (x a) 0); cbn; lia. }
  specialize (H (seq 0 n)). rewrite seq_length in H. apply H. apply in_seq. lia.
Qed.

Lemma identity_fails m y solve p max_iters fuel k : exact_solver m solve -> 0 < p ->
  (k < m)%nat -> y k = 0 -> (2 <= max_iters <= fuel)%nat ->
  matrix_solve_noiseless m m feye y solve p max_iters fuel = Fail.
Proof.
  intros Hs Hp Hk Hy HM. apply run_too_sparse; auto. intros x1 E.
  apply nnz_lt with k; auto. pose proof (step_solves m m feye y solve Hs p Hp _ _ E k Hk) as HS.
  rewrite Hy in HS. rewrite <- HS. symmetry. rewrite (rsum_single (n := m) (k := k)); auto.
  - unfold feye. rewrite Nat.eqb_refl. ring.
  - intros i Hi Hne. unfold feye. destruct (Nat.eqb_spec k i); [lia|ring].
Qed.
