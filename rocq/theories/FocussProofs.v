(** Lemmas about FOCUSS. *)
From Coq Require Import List Arith Bool Reals Lia Lra Psatz.
From Verif Require Import Vec RVec Loop SolverSpec LoopLemmas BsblModel BsblSpec BsblProofs
  FocussModel FocussSpec LinAlg.
Local Open Scope R_scope.

Lemma Rpower_pos x p : 0 < Rpower x p.
Proof. apply exp_pos. Qed.

Lemma weight_nz p x i : x i <> 0 -> weight p x i = Rpower (Rabs (x i)) p.
Proof.
  intros H. unfold weight, abs_pow. destruct (Reqb (x i) 0) eqn:E; auto.
  apply Reqb_true in E. contradiction.
Qed.
Lemma weight_z p x i : 0 < p -> x i = 0 -> weight p x i = 0.
Proof.
  intros Hp H. unfold weight, abs_pow. rewrite H.
  destruct (Reqb_spec 0 0); [|lra]. destruct (Rltb_spec 0 p); [reflexivity|lra].
Qed.
Lemma weight_sq p x i : x i <> 0 -> weight p x i * weight p x i = Rpower (Rabs (x i)) (2 * p).
Proof.
  intros H. rewrite weight_nz by auto. rewrite <- Rpower_plus. f_equal. ring.
Qed.
Lemma defined_pos n p x : 0 < p ->
  forallb (fun i => match abs_pow (x i) p with Some _ => true | None => false end) (seq 0 n) = true.
Proof.
  intros Hp. apply forallb_forall. intros i _. unfold abs_pow.
  destruct (Reqb (x i) 0); [|reflexivity]. destruct (Rltb_spec 0 p); [reflexivity|lra].
Qed.

Section F.
  Variables (m n : nat) (Phi : fmat) (y : fvec).
  Variable solve : fmat -> fvec -> option fvec.
  Hypothesis Hsolve : exact_solver m solve.
  Variable p : R.
  Hypothesis Hp : 0 < p.

  Definition sysmat (x : fvec) : fmat :=
    fmul n Phi (fun i j => weight p x i * weight p x i * ftr Phi i j).

  Lemma sysmat_mv x v i : fmv m (sysmat x) v i =
    fmv n Phi (fun j => weight p x j * weight p x j * fmv m (ftr Phi) v j) i.
  Proof.
    unfold sysmat. rewrite fmv_fmul. apply fmv_ext; auto. intros j Hj.
    unfold fmv. rewrite <- rsum_mul_l. apply rsum_ext. intros. ring.
  Qed.

  Lemma sysmat_quad x v : fdot m (fmv m (sysmat x) v) v =
    rsum n (fun j => (weight p x j * fmv m (ftr Phi) v j) ^ 2).
  Proof.
    rewrite (fdot_ext m _ (fmv n Phi (fun j => weight p x j * weight p x j * fmv m (ftr Phi) v j)) v v)
      by (auto using sysmat_mv).
    rewrite fdot_adj. unfold fdot. apply rsum_ext. intros. ring.
  Qed.

  Lemma nonsingular_iff x : nonsingular m (sysmat x) <-> full_row_rank_on m n Phi x.
  Proof.
    split; intros H v Hv.
    - apply H. intros i Hi. change (fmv m (sysmat x) v i = 0). rewrite sysmat_mv.
      unfold fmv at 1. apply rsum_0'. intros j Hj.
      destruct (Req_dec (x j) 0) as [E|E].
      + rewrite weight_z by auto. ring.
      + replace (fmv m (ftr Phi) v j) with 0; [ring|]. symmetry. apply Hv; auto.
    - apply H. intros j Hj Hx.
      assert (Hq : fdot m (fmv m (sysmat x) v) v = 0).
      { apply rsum_0'. intros i Hi. unfold fmv. rewrite Hv by auto. ring. }
      rewrite sysmat_quad in Hq.
      pose proof (@rsum_eq0 n (fun j => (weight p x j * fmv m (ftr Phi) v j) ^ 2)
        ltac:(intros; nra) Hq j Hj) as HE. cbn beta in HE.
      rewrite weight_nz in HE by auto. pose proof (Rpower_pos (Rabs (x j)) p).
      change (fmv m (ftr Phi) v j = 0).
      assert (HM : Rpower (Rabs (x j)) p * fmv m (ftr Phi) v j = 0) by (apply Rsqr_0_uniq; unfold Rsqr; lra).
      apply Rmult_integral in HM. destruct HM; [lra|auto].
  Qed.

  Lemma step_inv x x1 : step_noiseless m n Phi y solve p x = Some x1 ->
    nonsingular m (sysmat x) /\ exists z,
      (forall i, (i < m)%nat -> fmv m (sysmat x) z i = y i) /\
      forall i, x1 i = weight p x i * weight p x i * fmv m (ftr Phi) z i.
  Proof.
    unfold step_noiseless. rewrite defined_pos by auto.
    fold (sysmat x). intros H.
    destruct (Hsolve (sysmat x) y) as [H1 H2].
    assert (HN : nonsingular m (sysmat x)).
    { destruct (Classical_Prop.classic (nonsingular m (sysmat x))) as [|HN]; auto.
      change (match solve (sysmat x) y with
              | Some z => Some (fmv m (fun i j => weight p x i * weight p x i * ftr Phi i j) z)
              | None => None end = Some x1) in H.
      rewrite (H2 HN) in H. discriminate. }
    split; auto. destruct (H1 HN) as [z [Hz Hs]].
    change (match solve (sysmat x) y with
              | Some z => Some (fmv m (fun i j => weight p x i * weight p x i * ftr Phi i j) z)
              | None => None end = Some x1) in H.
    rewrite Hz in H. injection H as <-. exists z. split; auto.
    intros i. unfold fmv. rewrite <- rsum_mul_l. apply rsum_ext. intros. ring.
  Qed.

  Lemma step_defined x : (exists x1, step_noiseless m n Phi y solve p x = Some x1) <->
    full_row_rank_on m n Phi x.
  Proof.
    rewrite <- nonsingular_iff. split.
    - intros [x1 H]. now apply step_inv in H.
    - intros HN. destruct (Hsolve (sysmat x) y) as [H1 _]. destruct (H1 HN) as [z [Hz _]].
      unfold step_noiseless. rewrite defined_pos by auto.
      change (exists x1, match solve (sysmat x) y with
              | Some z => Some (fmv m (fun i j => weight p x i * weight p x i * ftr Phi i j) z)
              | None => None end = Some x1).
      rewrite Hz. eauto.
  Qed.

  Lemma step_solves x x1 : step_noiseless m n Phi y solve p x = Some x1 -> solves m n Phi y x1.
  Proof.
    intros H. apply step_inv in H. destruct H as [_ [z [Hz Hx]]]. intros i Hi.
    rewrite <- (Hz i Hi), sysmat_mv. apply rsum_ext. intros j Hj. now rewrite Hx.
  Qed.

  Lemma step_supported x x1 : step_noiseless m n Phi y solve p x = Some x1 -> supported n x x1.
  Proof.
    intros H. apply step_inv in H. destruct H as [_ [z [Hz Hx]]]. intros i Hi E.
    rewrite Hx, weight_z by auto. ring.
  Qed.

  Lemma energy_pyth x x1 x' : step_noiseless m n Phi y solve p x = Some x1 ->
    solves m n Phi y x' -> supported n x x' ->
    weighted_energy n p x x' = weighted_energy n p x x1 +
      weighted_energy n p x (fun i => x' i - x1 i).
  Proof.
    intros H Hs Hx'. pose proof (step_solves x x1 H) as Hs1.
    pose proof (step_supported x x1 H) as Hu1.
    apply step_inv in H. destruct H as [_ [z [Hz Hx]]].
    assert (Hc : rsum n (fun i => fmv m (ftr Phi) z i * (x' i - x1 i)) = 0).
    { transitivity (fdot n (fun i => x' i - x1 i) (fmv m (ftr Phi) z));
        [apply rsum_ext; intros; ring|].
      rewrite <- fdot_adj. apply rsum_0'. intros i Hi. rewrite fmv_sub.
      unfold fmv. rewrite (Hs i Hi), (Hs1 i Hi). ring. }
    assert (HT : forall A B, A + 2 * rsum n (fun i => fmv m (ftr Phi) z i * (x' i - x1 i)) = B -> B = A)
      by (intros A B HAB; rewrite Hc in HAB; lra).
    apply HT. clear HT. unfold weighted_energy.
    rewrite <- rsum_mul_l, <- !rsum_add. apply rsum_ext. intros i Hi.
    destruct (Req_EM_T (x i) 0) as [E|E].
    - rewrite (Hx' i Hi E), (Hu1 i Hi E). ring.
    - pose proof (Rpower_pos (Rabs (x i)) (2 * p)) as HP.
      assert (HE : x1 i = Rpower (Rabs (x i)) (2 * p) * fmv m (ftr Phi) z i)
        by (rewrite Hx, weight_sq; auto).
      replace (fmv m (ftr Phi) z i) with (x1 i / Rpower (Rabs (x i)) (2 * p))
        by (rewrite HE; field; lra).
      field. lra.
  Qed.

  Lemma energy_pos x v : 0 <= weighted_energy n p x v.
  Proof.
    apply rsum_pos. intros i Hi. destruct (Req_EM_T (x i) 0); [lra|].
    apply Rmult_le_pos; [nra|]. left. apply Rinv_0_lt_compat, Rpower_pos.
  Qed.
  Lemma energy_zero x v : supported n x v -> weighted_energy n p x v = 0 ->
    forall i, (i < n)%nat -> v i = 0.
  Proof.
    intros Hs H i Hi. destruct (Req_EM_T (x i) 0) as [E|E] eqn:HE; [auto|].
    assert (HP : forall i, (i < n)%nat -> 0 <= if Req_EM_T (x i) 0 then 0
                   else v i * v i / Rpower (Rabs (x i)) (2 * p)).
    { intros j Hj. destruct (Req_EM_T (x j) 0); [lra|].
      apply Rmult_le_pos; [nra|]. left. apply Rinv_0_lt_compat, Rpower_pos. }
    pose proof (@rsum_eq0 n _ HP H i Hi) as HZ. cbn beta in HZ. rewrite HE in HZ.
    pose proof (Rpower_pos (Rabs (x i)) (2 * p)).
    assert (v i * v i = 0); [|nra].
    replace (v i * v i) with (v i * v i / Rpower (Rabs (x i)) (2 * p) * Rpower (Rabs (x i)) (2 * p))
      by (field; lra). rewrite HZ. ring.
  Qed.
  Lemma energy_gt x v : supported n x v -> (exists i, (i < n)%nat /\ v i <> 0) ->
    0 < weighted_energy n p x v.
  Proof.
    intros Hs [i [Hi Hv]]. destruct (energy_pos x v) as [|E]; auto.
    exfalso. apply Hv. eapply energy_zero; eauto.
  Qed.

  Lemma step_minimises x x1 x' : step_noiseless m n Phi y solve p x = Some x1 ->
    solves m n Phi y x' -> supported n x x' ->
    weighted_energy n p x x1 <= weighted_energy n p x x' /\
    (weighted_energy n p x x' <= weighted_energy n p x x1 ->
     forall i, (i < n)%nat -> x' i = x1 i).
  Proof.
    intros H Hs Hu. rewrite (energy_pyth x x1 x' H Hs Hu).
    pose proof (energy_pos x (fun i => x' i - x1 i)) as HP. split; [lra|].
    intros HL i Hi.
    assert (HZ : x' i - x1 i = 0); [|lra].
    apply (energy_zero x (fun i => x' i - x1 i)); auto; [|lra].
    intros j Hj E. rewrite (Hu j Hj E), (step_supported x x1 H j Hj E). ring.
  Qed.

  Lemma step_fixed x x1 : step_noiseless m n Phi y solve p x = Some x1 ->
    solves m n Phi y x -> independent_support m n Phi x ->
    forall i, (i < n)%nat -> x1 i = x i.
  Proof.
    intros H Hs HI i Hi.
    assert (HZ : x1 i - x i = 0); [|lra].
    apply (HI (fun i => x1 i - x i)); auto.
    - intros j Hj E. rewrite (step_supported x x1 H j Hj E), E. ring.
    - intros k Hk. change (fmv n Phi (fun i => x1 i - x i) k = 0). rewrite fmv_sub.
      unfold fmv. rewrite (Hs k Hk), (step_solves x x1 H k Hk). ring.
  Qed.
End F.

(** ** Descent *)
Lemma exp_tangent a b : exp b * (1 + (a - b)) <= exp a.
Proof.
  replace a with (b + (a - b)) at 2 by ring. rewrite exp_plus.
  apply Rmult_le_compat_l; [left; apply exp_pos|]. apply exp_ineq1_le.
Qed.

(** t^c <= 1 + c (t - 1) *)
Lemma bernoulli t c : 0 < t -> 0 <= c <= 1 -> Rpower t c <= 1 + c * (t - 1).
Proof.
  intros Ht Hc. unfold Rpower. pose proof (exp_ln t Ht) as HE. set (u := ln t) in *.
  pose proof (exp_tangent 0 (c * u)) as H0. pose proof (exp_tangent u (c * u)) as H1.
  rewrite exp_0 in H0. rewrite HE in H1. pose proof (exp_pos (c * u)).
  assert ((1 - c) * (exp (c * u) * (1 + (0 - c * u))) <= (1 - c) * 1)
    by (apply Rmult_le_compat_l; lra).
  assert (c * (exp (c * u) * (1 + (u - c * u))) <= c * t)
    by (apply Rmult_le_compat_l; lra).
  nra.
Qed.

Lemma apow_major x a p : x <> 0 -> 0 < p -> p <= 1 ->
  apow a (2 - 2 * p) <= apow x (2 - 2 * p) +
    (1 - p) * (a * a / Rpower (Rabs x) (2 * p) - x * x / Rpower (Rabs x) (2 * p)).
Proof.
  intros Hx Hp Hp1. unfold apow. destruct (Req_EM_T x 0) as [|_]; [contradiction|].
  assert (Ha : 0 < Rabs x) by now apply Rabs_pos_lt.
  assert (HS : x * x / Rpower (Rabs x) (2 * p) = Rpower (Rabs x) (2 - 2 * p)).
  { replace (2 - 2 * p) with (2 + - (2 * p)) by ring. rewrite Rpower_plus, Rpower_Ropp.
    replace (Rpower (Rabs x) 2) with (x * x); [reflexivity|].
    replace 2 with (INR 2) by (cbn; lra). rewrite Rpower_pow by auto.
    rewrite pow2_abs. ring. }
  pose proof (Rpower_pos (Rabs x) (2 - 2 * p)) as HP.
  pose proof (Rpower_pos (Rabs x) (2 * p)) as HP2.
  destruct (Req_EM_T a 0) as [->|Hne].
  - rewrite HS. replace (0 * 0 / Rpower (Rabs x) (2 * p)) with 0 by (field; lra). nra.
  - assert (Hna : 0 < Rabs a) by now apply Rabs_pos_lt.
    pose proof (bernoulli (a * a / (x * x)) (1 - p)) as HB.
    assert (Hxx : 0 < x * x) by nra. assert (Haa : 0 < a * a) by nra.
    specialize (HB ltac:(apply Rmult_lt_0_compat; auto; now apply Rinv_0_lt_compat) ltac:(lra)).
    assert (HR : Rpower (a * a / (x * x)) (1 - p) * Rpower (Rabs x) (2 - 2 * p)
                 = Rpower (Rabs a) (2 - 2 * p)).
    { replace (2 - 2 * p) with (2 * (1 - p)) by ring. rewrite <- !Rpower_mult.
      replace (Rpower (Rabs x) 2) with (x * x); [replace (Rpower (Rabs a) 2) with (a * a)|].
      - rewrite Rpower_mult_distr; auto;
          [|apply Rmult_lt_0_compat; auto; now apply Rinv_0_lt_compat].
        f_equal. field. lra.
      - replace 2 with (INR 2) by (cbn; lra). rewrite Rpower_pow by auto. rewrite pow2_abs. ring.
      - replace 2 with (INR 2) by (cbn; lra). rewrite Rpower_pow by auto. rewrite pow2_abs. ring. }
    rewrite <- HR.
    assert (HAx : a * a / Rpower (Rabs x) (2 * p) = a * a / (x * x) * Rpower (Rabs x) (2 - 2 * p)).
    { rewrite <- HS. field. split; lra. }
    rewrite HAx, HS. nra.
Qed.
