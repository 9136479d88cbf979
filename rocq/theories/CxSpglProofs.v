(** The complex l1-constrained solver as the solver of GSpglProofs.v on real vectors of twice the length. *)
From Coq Require Import ZArith List Arith Bool Lia Reals Lra Psatz.
From Verif Require Import Scalar Vec RVec RMat Loop LoopLemmas SolverSpec SolverLemmas LopModel LopSpec OptSpec OptModel OptProofs OptProofs2 SelModel SelProofs SpgModel SpglModel SpglSpec SpglProofs SpglProofs2 SeqSpec SeqProofs ConvProofs2 CxSpec CxModel CxProofs CxSpglModel GSpglProofs.
Import ListNotations.
Set Implicit Arguments.
Unset Strict Implicit.
Local Open Scope R_scope.

Definition N1 (v : vec) : R := cl1 (unflat v).
Definition Ni (v : vec) : R := clinf (unflat v).
Definition PF (v : vec) (q : R) : vec := flat (cproject (unflat v) q).
Definition gapf (r b : vec) (t : R) : R := cabs (Cadd (inner (unflat r) (vsub (unflat r) (unflat b))) (ofR t : Cs)).

Lemma inner_cdot (x : cvec) : forall y, fst (inner x y : Cx) = cdot x y.
Proof. intros y. rewrite <- flat_dot. revert y. induction x as [|a x IH]; intros [|b y]; try reflexivity. unfold rdot, cdot in *. cbn. cbn in IH. rewrite IH. ring. Qed.
Lemma flat_cdot (x y : cvec) : rdot (flat x) (flat y) = cdot x y.
Proof. rewrite flat_dot. apply inner_cdot. Qed.
Lemma cl1_cnrm1 (x : cvec) : cl1 x = cnrm1 x. Proof. reflexivity. Qed.
Lemma cnrm1_pos x : 0 <= cnrm1 x.
Proof. unfold cnrm1. induction x as [|a x IH]; cbn; [lra|]. pose proof (cabs_pos a). lra. Qed.
Lemma clinf_pos x : 0 <= clinf x. Proof. apply nrminf_pos. Qed.
Lemma clinf_cons a x : clinf (a :: x) = Rmax (cabs a) (clinf x).
Proof. unfold clinf. cbn [map nrminf]. now rewrite (Rabs_pos_eq (cabs a)) by apply cabs_pos. Qed.
Lemma cdot_cons a x b y : cdot (a :: x) (b :: y) = (fst a * fst b + snd a * snd b) + cdot x y.
Proof. reflexivity. Qed.
Lemma cnrm1_cons a x : cnrm1 (a :: x) = cabs a + cnrm1 x. Proof. reflexivity. Qed.

(** *** the projection *)
Lemma cvi x q : 0 <= q -> let p := cproject x q in length p = length x /\ cnrm1 p <= q /\
  forall z, length z = length x -> cnrm1 z <= q -> cdot (csub x p) (csub z p) <= 0.
Proof.
  intros Hq. cbv zeta. destruct (@cball_spec x q Hq) as [Lp [Cp _]]. unfold cproject in *. split; [exact Lp|]. split; [exact Cp|].
  intros z Hz Cz. unfold spgl1_project_to_l1_ball_c in *.
  assert (Hab : forall b, In b (map cabs x) -> 0 <= b).
  { intros b Hb. apply in_map_iff in Hb. destruct Hb as [c [<- _]]. apply cabs_pos. }
  destruct (Rltb_spec q (cnrm1 x)) as [H|H].
  - unfold cnrm1 in H. destruct (kappa_spec _ Hab Hq H) as [Hk _].
    set (k := l1_threshold (map cabs x) q) in *.
    assert (HN : cnrm1 (map (cshrink1 k) x) = q).
    { unfold cnrm1. rewrite map_map. rewrite <- (kappa_sum _ Hab Hq H). fold k. rewrite map_map. f_equal.
      apply map_ext. intros c. apply cshrink1_abs. lra. }
    destruct (cshrink_dot x z (Rlt_le _ _ Hk) Hz) as [H1 H2]. rewrite HN in H2.
    rewrite cdot_sub_r by (rewrite map_length; auto). assert (k * cnrm1 z <= k * q) by (apply Rmult_le_compat_l; lra). lra.
  - assert (E : cdot (csub x x) (csub z x) = 0) by (rewrite cdot_sub_l by auto; ring). rewrite E. lra.
Qed.
Lemma HP n q : 0 <= q -> vi (2 * n) (fun y => N1 y <= q) (fun x => PF x q).
Proof.
  intros Hq x Lx. pose proof (unflat_len Lx) as Lu. destruct (@cvi (unflat x) q Hq) as [Lp [Cp V]]. unfold PF, N1.
  split; [rewrite flat_len; apply f_equal; exact (eq_trans Lp Lu)|]. split; [rewrite unflat_flat; exact Cp|].
  intros z Lz Cz. rewrite <- (flat_unflat Lx) at 1. rewrite <- (flat_unflat Lz), <- !flat_sub, flat_cdot.
  apply V; [exact (eq_trans (unflat_len Lz) (eq_sym Lu))|exact Cz].
Qed.
(** *** the norms *)
Lemma choelder x : forall y, cdot x y <= clinf x * cnrm1 y.
Proof.
  induction x as [|a x IH]; intros [|b y].
  1,2,3: match goal with |- cdot ?u ?v <= _ => replace (cdot u v) with 0 by reflexivity end; apply Rmult_le_pos; [apply clinf_pos|apply cnrm1_pos].
  rewrite cdot_cons, clinf_cons, cnrm1_cons. pose proof (IH y) as Q. pose proof (cabs_cauchy a b) as C. pose proof (cabs_pos b). pose proof (cnrm1_pos y).
  pose proof (Rmult_le_compat_r (cabs b) _ _ ltac:(lra) (Rmax_l (cabs a) (clinf x))). pose proof (Rmult_le_compat_r (cnrm1 y) _ _ ltac:(lra) (Rmax_r (cabs a) (clinf x))). lra.
Qed.
Lemma rdot_cdot n x y : length x = (2 * n)%nat -> length y = (2 * n)%nat -> rdot x y = cdot (unflat x) (unflat y).
Proof. intros Lx Ly. now rewrite <- flat_cdot, (flat_unflat Lx), (flat_unflat Ly). Qed.
Lemma copp_cdot x y : cdot (vopp x : cvec) y = - cdot x y.
Proof. revert y. induction x as [|a x IH]; intros [|b y]; try (unfold cdot; cbn; lra). change (vopp (a :: x)) with ((sopp a : Cs) :: vopp x). rewrite !cdot_cons. rewrite IH. cbn. ring. Qed.
Lemma cabs_opp z : cabs (- fst z, - snd z) = cabs z.
Proof. unfold cabs. f_equal. cbn. ring. Qed.
Lemma clinf_opp (x : cvec) : clinf (vopp x) = clinf x.
Proof. induction x as [|a x IH]; [reflexivity|]. change (vopp (a :: x)) with ((sopp a : Cs) :: vopp x). rewrite !clinf_cons, IH. f_equal. apply cabs_opp. Qed.
Lemma Hholder n x y : length x = (2 * n)%nat -> length y = (2 * n)%nat -> Rabs (rdot x y) <= Ni x * N1 y.
Proof.
  intros Lx Ly. rewrite (rdot_cdot Lx Ly). unfold Ni, N1. rewrite cl1_cnrm1. apply Rabs_le. pose proof (choelder (unflat x) (unflat y)) as Q1. pose proof (choelder (vopp (unflat x)) (unflat y)) as Q2.
  rewrite clinf_opp, copp_cdot in Q2. lra.
Qed.
Lemma cdot_le_cnrm1 x : cdot x x <= cnrm1 x * cnrm1 x.
Proof.
  induction x as [|a x IH]; [unfold cdot, cnrm1; cbn; lra|]. rewrite cdot_cons, cnrm1_cons, <- cabs_sq. pose proof (cabs_pos a). pose proof (cnrm1_pos x). nra.
Qed.
Lemma nrm_cdot n v : length v = (2 * n)%nat -> nrm v = sqrt (cdot (unflat v) (unflat v)).
Proof. intros L. unfold nrm. now rewrite (rdot_cdot L L). Qed.
Lemma Hnrm1 n x : length x = (2 * n)%nat -> nrm x <= N1 x.
Proof.
  intros L. rewrite (nrm_cdot L). unfold N1. rewrite cl1_cnrm1. pose proof (cnrm1_pos (unflat x)). rewrite <- (sqrt_square (cnrm1 (unflat x))) by auto. apply sqrt_le_1_alt, cdot_le_cnrm1.
Qed.
Lemma clinf_le_cdot x : clinf x * clinf x <= cdot x x.
Proof.
  induction x as [|a x IH]; [unfold cdot, clinf; cbn; lra|]. rewrite clinf_cons, cdot_cons, <- cabs_sq. pose proof (cabs_pos a). pose proof (clinf_pos x). pose proof (cdot_pos x).
  apply Rmax_case; nra.
Qed.
Lemma HnrmI n x : length x = (2 * n)%nat -> Ni x <= nrm x.
Proof.
  intros L. rewrite (nrm_cdot L). unfold Ni. pose proof (clinf_pos (unflat x)). rewrite <- (sqrt_square (clinf (unflat x))) at 1 by auto. apply sqrt_le_1_alt, clinf_le_cdot.
Qed.
(** z / |z| *)
Definition phase (z : R * R) : R * R := (fst z / cabs z, snd z / cabs z).
Lemma phase_dot z : fst z * fst (phase z) + snd z * snd (phase z) = cabs z.
Proof.
  destruct (Req_dec (cabs z) 0) as [E|E].
  - pose proof (cabs_sq z) as Q. rewrite E in Q. assert (fst z = 0) by nra. assert (snd z = 0) by nra. unfold phase. cbn. rewrite H, H0, E. lra.
  - unfold phase. cbn. apply Rmult_eq_reg_r with (cabs z); auto. rewrite cabs_sq. field. auto.
Qed.
Lemma phase_abs z : cabs (phase z) <= 1.
Proof.
  destruct (Req_dec (cabs z) 0) as [E|E].
  - pose proof (cabs_sq z) as Q. rewrite E in Q. assert (A1 : fst z = 0) by nra. assert (A2 : snd z = 0) by nra. unfold phase. rewrite A1, A2. unfold Rdiv. rewrite !Rmult_0_l, cabs_zero. lra.
  - pose proof (cabs_pos z). unfold phase. right. replace (fst z / cabs z) with (/ cabs z * fst z) by (unfold Rdiv; ring). replace (snd z / cabs z) with (/ cabs z * snd z) by (unfold Rdiv; ring).
    rewrite cabs_scale; [now field|]. left. apply Rinv_0_lt_compat. lra.
Qed.
Lemma cdot_zero_r x k : cdot x (repeat (0, 0) k) = 0.
Proof. revert k. induction x as [|a x IH]; intros [|k]; try reflexivity. cbn [repeat]. rewrite cdot_cons, IH. cbn. ring. Qed.
Lemma cnrm1_zero k : cnrm1 (repeat (0, 0) k) = 0.
Proof. induction k as [|k IH]; [reflexivity|]. cbn [repeat]. rewrite cnrm1_cons, IH, cabs_zero. ring. Qed.
Definition csc (c : R) (z : R * R) : R * R := (c * fst z, c * snd z).
Lemma cdual (g : cvec) tau : 0 <= tau -> exists z, length z = length g /\ cnrm1 z <= tau /\ cdot g z = - (tau * clinf g).
Proof.
  intros T0. induction g as [|a g IH]; [exists []; split; [reflexivity|]; split; [unfold cnrm1; cbn; lra|unfold cdot, clinf; cbn; ring]|].
  rewrite clinf_cons. unfold Rmax. destruct (Rle_dec (cabs a) (clinf g)) as [H|H].
  - destruct IH as [z [Lz [Cz Ez]]]. exists ((0, 0) :: z). split; [cbn; now rewrite Lz|]. split; [rewrite cnrm1_cons, cabs_zero; lra|]. rewrite cdot_cons, Ez. cbn. ring.
  - exists (csc tau (- fst (phase a), - snd (phase a)) :: repeat (0, 0) (length g)). split; [cbn [length]; now rewrite repeat_length|]. split.
    + rewrite cnrm1_cons, cnrm1_zero. unfold csc. rewrite cabs_scale, cabs_opp by auto. pose proof (phase_abs a). assert (tau * cabs (phase a) <= tau * 1) by (now apply Rmult_le_compat_l). lra.
    + rewrite cdot_cons, cdot_zero_r. unfold csc. transitivity (- (tau * (fst a * fst (phase a) + snd a * snd (phase a)))); [cbn [fst snd]; ring|now rewrite phase_dot].
Qed.
Lemma Hdual n tau g : 0 <= tau -> length g = (2 * n)%nat -> exists z, length z = (2 * n)%nat /\ N1 z <= tau /\ rdot g z = - (tau * Ni g).
Proof.
  intros T0 Lg. destruct (@cdual (unflat g) tau T0) as [z [Lz [Cz Ez]]]. exists (flat z). split; [rewrite flat_len; apply f_equal; exact (eq_trans Lz (unflat_len Lg))|]. unfold N1, Ni. rewrite unflat_flat. split; [exact Cz|].
  rewrite <- Ez, <- flat_cdot, (flat_unflat Lg). reflexivity.
Qed.
Lemma cl1_phase (l : cvec) : cdot l (map phase l) = cnrm1 l /\ forall x, length x = length l -> cdot x (map phase l) <= cnrm1 x.
Proof.
  induction l as [|a l [I1 I2]]; [split; [reflexivity|]; intros [|b x] H; [unfold cdot, cnrm1; cbn; lra|discriminate]|]. cbn [map]. split.
  - now rewrite cdot_cons, cnrm1_cons, I1, phase_dot.
  - intros [|b x] H; [discriminate|]. rewrite cdot_cons, cnrm1_cons. pose proof (I2 x ltac:(injection H as H; exact H)). pose proof (cabs_cauchy b (phase a)). pose proof (phase_abs a). pose proof (cabs_pos b).
    assert (cabs b * cabs (phase a) <= cabs b * 1) by (now apply Rmult_le_compat_l). lra.
Qed.
Lemma N1_calm n : calm (2 * n) N1.
Proof.
  intros l Ll. exists (nrm (flat (map phase (unflat l)))). split; [apply nrm_pos|]. intros x Lx. pose proof (unflat_len Ll) as U1. pose proof (unflat_len Lx) as U2.
  destruct (cl1_phase (unflat l)) as [Q1 Q2]. specialize (Q2 (unflat x) (eq_trans U2 (eq_sym U1))). set (w := map phase (unflat l)) in *. unfold N1. rewrite !cl1_cnrm1, <- Q1.
  assert (E : cdot (unflat l) w = cdot (unflat x) w - rdot (flat w) (rsub x l)).
  { assert (Lw : length (flat w) = (2 * n)%nat) by (rewrite flat_len; unfold w; rewrite map_length; apply f_equal; exact U1). rewrite rdot_sub_r by vl. rewrite (rdot_cdot Lw Lx), (rdot_cdot Lw Ll), !unflat_flat, (cdot_sym w), (cdot_sym w). ring. }
  rewrite E. pose proof (cauchy (flat w) (rsub x l)) as C. pose proof (Rle_abs (- rdot (flat w) (rsub x l))) as A. rewrite Rabs_Ropp in A. change (cl1 (unflat x)) with (cnrm1 (unflat x)). lra.
Qed.
Lemma Hclosed n q : closed (2 * n) (fun y => N1 y <= q).
Proof.
  intros x l L D HC. apply (@calm_limit (2 * n) N1) with (x := x); auto.
  - apply N1_calm.
  - intros eps He. exists O. intros k _. specialize (D k). lra.
Qed.
Lemma unflat_zero n : unflat (rzero (2 * n)) = repeat (0, 0) n.
Proof. induction n as [|n IH]; [reflexivity|]. replace (2 * S n)%nat with (S (S (2 * n))) by lia. unfold rzero in *. cbn [repeat unflat]. f_equal. exact IH. Qed.
Lemma HZ n : N1 (rzero (2 * n)) = 0.
Proof. unfold N1. rewrite unflat_zero, cl1_cnrm1. apply cnrm1_zero. Qed.
