(** The nonmonotone projected gradient method converges to the minimum. *)
From Coq Require Import ZArith List Arith Bool Lia Reals Lra Psatz.
From Verif Require Import Vec RVec RMat Loop LoopLemmas SolverSpec SolverLemmas SelModel SelProofs OptSpec SpgModel SpgSpec SpgProofs SeqSpec.
Import ListNotations.
Set Implicit Arguments.
Unset Strict Implicit.
Local Open Scope R_scope.

(** *** a memory of M values into which each new value is either good enough or
    smaller by [dl] than the largest remembered one *)
Definition level_ (fq eps e0 dl : R) (j : nat) : R := fq + Rmax eps (e0 - INR j * dl).
Lemma level_dec fq eps e0 dl i j : 0 <= dl -> (i <= j)%nat -> level_ fq eps e0 dl j <= level_ fq eps e0 dl i.
Proof.
  intros D H. unfold level_. apply Rplus_le_compat_l. apply Rmax_lub; [apply Rmax_l|]. eapply Rle_trans; [|apply Rmax_r].
  apply le_INR in H. assert (INR i * dl <= INR j * dl) by (now apply Rmult_le_compat_r). lra.
Qed.
Lemma level_next fq eps e0 dl j v w : 0 <= dl -> w <= level_ fq eps e0 dl j -> v <= Rmax (fq + eps) (w - dl) -> v <= level_ fq eps e0 dl (S j).
Proof.
  intros D Hw Hv. eapply Rle_trans; [exact Hv|]. unfold level_ in *. rewrite S_INR. apply Rmax_lub.
  - apply Rplus_le_compat_l, Rmax_l.
  - revert Hw. unfold Rmax at 1. destruct (Rle_dec eps (e0 - INR j * dl)) as [H|H]; intros Hw.
    + pose proof (Rmax_r eps (e0 - (INR j + 1) * dl)). lra.
    + pose proof (Rmax_l eps (e0 - (INR j + 1) * dl)). lra.
Qed.
Lemma removelast_nth (l : vec) i : (S i < length l)%nat -> (removelast l)@i = l@i.
Proof.
  revert i. induction l as [|a l IH]; intros i H; [simpl in H; lia|]. destruct l as [|b l]; [simpl in H; lia|].
  change (removelast (a :: b :: l)) with (a :: removelast (b :: l)). destruct i as [|i]; [reflexivity|]. cbn [nth]. apply IH. simpl in *. lia.
Qed.
Lemma removelast_len (l : vec) : length (removelast l) = pred (length l).
Proof. induction l as [|a [|b l] IH]; auto. change (removelast (a :: b :: l)) with (a :: removelast (b :: l)). cbn [length]. rewrite IH. reflexivity. Qed.
Definition blocks (M k : nat) : nat := ((k + (M - 1)) / M)%nat.
Lemma blocks_step M k : (1 <= M)%nat -> blocks M (S k) = S (blocks M (S k - M)) \/ (S k <= M)%nat /\ blocks M (S k) = 1%nat.
Proof.
  intros HM. unfold blocks. destruct (Nat.lt_ge_cases (S k) M) as [H|H].
  - right. split; [lia|]. symmetry. apply Nat.div_unique with (r := k); lia.
  - left. replace (S k + (M - 1))%nat with (S k - M + (M - 1) + 1 * M)%nat by lia. rewrite Nat.div_add by lia. lia.
Qed.
Lemma blocks_mono M i j : (1 <= M)%nat -> (i <= j)%nat -> (blocks M i <= blocks M j)%nat.
Proof. intros HM H. unfold blocks. apply Nat.div_le_mono; lia. Qed.
(** the invariant: the entry at position i was pushed i steps ago *)
Definition mem_ok (M : nat) (A : nat -> R) (k : nat) (P : vec) : Prop :=
  length P = M /\ forall i, (i < M)%nat -> P@i <= A (blocks M (k - i)).
Lemma mem_init M A v : v <= A 0%nat -> (1 <= M)%nat -> mem_ok M A 0 (repeat v M).
Proof.
  intros H HM. split; [apply repeat_length|]. intros i Hi.
  assert (En : (repeat v M)@i = v) by (apply repeat_spec with (n := M), nth_In; now rewrite repeat_length). rewrite En.
  assert (E : blocks M (0 - i) = 0%nat) by (unfold blocks; apply Nat.div_small; lia). rewrite E. exact H.
Qed.
Lemma mem_push M fq eps e0 dl k P v : (1 <= M)%nat -> 0 <= dl -> mem_ok M (level_ fq eps e0 dl) k P -> v <= Rmax (fq + eps) (vmax P - dl) ->
  mem_ok M (level_ fq eps e0 dl) (S k) (v :: removelast P).
Proof.
  intros HM D [LP HPm] Hv. split; [cbn [length]; rewrite removelast_len; lia|]. intros [|i] Hi.
  - cbn [nth]. rewrite Nat.sub_0_r.
    assert (Ne : P <> []) by (intros E; rewrite E in LP; simpl in LP; lia). destruct (vmax_spec Ne) as [Vi _]. apply In_nth with (d := 0) in Vi as (j & Hj & Ej). rewrite LP in Hj.
    specialize (HPm j Hj). rewrite Ej in HPm.
    destruct (blocks_step (M := M) k HM) as [E|[Hk E]]; rewrite E; apply level_next with (w := vmax P); auto.
    + eapply Rle_trans; [exact HPm|]. apply level_dec; auto. apply blocks_mono; lia.
    + eapply Rle_trans; [exact HPm|]. apply level_dec; auto. lia.
  - cbn [nth]. rewrite removelast_nth by lia. replace (S k - S i)%nat with (k - i)%nat by lia. apply HPm. lia.
Qed.
Lemma mem_late M fq eps e0 dl J k P : (1 <= M)%nat -> 0 <= dl -> 0 <= eps -> e0 <= INR J * dl -> (M * J <= k)%nat -> mem_ok M (level_ fq eps e0 dl) k P -> P@0 <= fq + eps.
Proof.
  intros HM D E0 HJ Hk [_ H]. specialize (H 0%nat ltac:(lia)). rewrite Nat.sub_0_r in H. eapply Rle_trans; [exact H|].
  eapply Rle_trans; [apply level_dec with (i := J); auto|].
  - unfold blocks. apply Nat.div_le_lower_bound; lia.
  - unfold level_. apply Rplus_le_compat_l. apply Rmax_lub; lra.
Qed.
Lemma mem_late_max M fq eps e0 dl J k P : (1 <= M)%nat -> 0 <= dl -> 0 <= eps -> e0 <= INR J * dl -> (M * J + M <= k)%nat -> mem_ok M (level_ fq eps e0 dl) k P -> vmax P <= fq + eps.
Proof.
  intros HM D E0 HJ Hk [LP H]. assert (Ne : P <> []) by (intros E; rewrite E in LP; simpl in LP; lia). destruct (vmax_spec Ne) as [Vi _].
  apply In_nth with (d := 0) in Vi as (i & Hi & Ei). rewrite LP in Hi. rewrite <- Ei. eapply Rle_trans; [exact (H i Hi)|].
  eapply Rle_trans; [apply level_dec with (i := J); auto|].
  - unfold blocks. apply Nat.div_le_lower_bound; lia.
  - unfold level_. apply Rplus_le_compat_l. apply Rmax_lub; lra.
Qed.

(** what a decrease [D] of the model says about the distance to the optimum *)
Definition gap_bound (lmin lmax Rd D : R) : R := D + / lmin * sqrt (lmax * D) * (Rd + sqrt (lmax * D)).
Lemma gap_small lmin lmax Rd eps : 0 < lmin -> 0 < lmax -> 0 <= Rd -> 0 < eps -> exists D0, 0 < D0 /\ forall D, 0 <= D <= D0 -> gap_bound lmin lmax Rd D <= eps.
Proof.
  intros H1 H2 H3 He. assert (I1 : 0 < / lmin) by now apply Rinv_0_lt_compat.
  set (r := Rmin 1 (eps / (2 * (/ lmin * (Rd + 1)))) ). assert (Q : 0 < / lmin * (Rd + 1)) by (apply Rmult_lt_0_compat; lra).
  assert (R0 : 0 < r) by (apply Rmin_glb_lt; [lra|apply Rdiv_lt_0_compat; lra]). assert (R1 : r <= 1) by apply Rmin_l.
  exists (Rmin (eps / 2) (r * r / lmax)). split; [apply Rmin_glb_lt; [lra|]; apply Rdiv_lt_0_compat; [now apply Rmult_lt_0_compat|auto]|].
  intros D [D0 D1]. assert (Da : D <= eps / 2) by (eapply Rle_trans; [exact D1|apply Rmin_l]). assert (Db : lmax * D <= r * r).
  { assert (D <= r * r / lmax) by (eapply Rle_trans; [exact D1|apply Rmin_r]). apply Rmult_le_compat_l with (r := lmax) in H; [|lra]. replace (lmax * (r * r / lmax)) with (r * r) in H by (field; lra). exact H. }
  assert (Sq : sqrt (lmax * D) <= r) by (rewrite <- (sqrt_square r) by lra; apply sqrt_le_1_alt; exact Db). pose proof (sqrt_pos (lmax * D)) as S0.
  unfold gap_bound. assert (/ lmin * sqrt (lmax * D) * (Rd + sqrt (lmax * D)) <= / lmin * r * (Rd + 1)).
  { apply Rmult_le_compat; [apply Rmult_le_pos; lra|lra| |lra]. apply Rmult_le_compat_l; lra. }
  assert (Rr : r * (/ lmin * (Rd + 1)) <= eps / 2).
  { apply Rle_trans with (eps / (2 * (/ lmin * (Rd + 1))) * (/ lmin * (Rd + 1))); [apply Rmult_le_compat_r; [lra|apply Rmin_r]|]. right. field. lra. }
  replace (/ lmin * r * (Rd + 1)) with (r * (/ lmin * (Rd + 1))) in H by ring. lra.
Qed.
(** a projected gradient step bounds the distance to the optimum *)
Lemma gap_from_step n C proj (func : vec -> R) g x q lam lmin lmax Rd : convex_set n C -> projects_onto n C proj -> length x = n -> C x -> length g = n -> length q = n -> C q ->
  0 < lmin -> lmin <= lam <= lmax -> nrm (rsub x q) <= Rd -> func x + rdot g (rsub q x) <= func q ->
  let d := rsub (proj (rsub x (rscale lam g))) x in
  nrm2 d <= - (lmax * rdot g d) -> func x - func q <= gap_bound lmin lmax Rd (- rdot g d).
Proof.
  intros HC HP Lx Cx Lg Lq Cq L0 Hl Hd Cv d Hn. assert (Ly : length (rsub x (rscale lam g)) = n) by vl. destruct (HP _ Ly) as [Lp [Cp _]].
  pose proof (@projects_vi _ _ _ _ _ HC HP Ly Lq Cq) as V. set (p := proj (rsub x (rscale lam g))) in *. assert (Ld : length d = n) by (unfold d; vl).
  assert (E1 : rsub (rsub x (rscale lam g)) p = ropp (radd d (rscale lam g))) by (unfold d; veq).
  assert (E2 : rsub q p = ropp (radd (rsub x q) d)) by (unfold d; veq).
  assert (Lxq : length (rsub x q) = n) by vl. set (w := radd (rsub x q) d) in *. assert (Lw : length w = n) by (unfold w; vl).
  rewrite E1, E2, rdot_opp_l, rdot_opp_r, rdot_add_l, rdot_scale_l in V by vl.
  assert (Ew : rdot g w = rdot g (rsub x q) + rdot g d) by (unfold w; apply rdot_add_r; vl).
  assert (Eq : rdot g (rsub q x) = - rdot g (rsub x q)) by (rewrite !rdot_sub_r by vl; ring).
  set (D := - rdot g d) in *. assert (Nd : nrm d <= sqrt (lmax * D)). { unfold nrm. apply sqrt_le_1_alt. unfold nrm2 in Hn. unfold D. lra. }
  assert (Nw : nrm w <= Rd + sqrt (lmax * D)) by (unfold w; pose proof (nrm_triang (rsub x q) d ltac:(congruence)); lra).
  pose proof (cauchy d w) as Cs. assert (Rdot : - rdot d w <= sqrt (lmax * D) * (Rd + sqrt (lmax * D))).
  { pose proof (Rle_abs (- rdot d w)) as A. rewrite Rabs_Ropp in A. eapply Rle_trans; [exact A|]. eapply Rle_trans; [exact Cs|]. apply Rmult_le_compat; auto; apply nrm_pos. }
  assert (G1 : lam * rdot g w <= sqrt (lmax * D) * (Rd + sqrt (lmax * D))) by lra.
  assert (S0 : 0 <= sqrt (lmax * D) * (Rd + sqrt (lmax * D))) by (apply Rmult_le_pos; [apply sqrt_pos|]; pose proof (nrm_pos w); lra).
  assert (G2 : rdot g w <= / lmin * (sqrt (lmax * D) * (Rd + sqrt (lmax * D)))).
  { apply Rle_trans with (/ lam * (sqrt (lmax * D) * (Rd + sqrt (lmax * D)))).
    - apply Rmult_le_reg_l with lam; [lra|]. rewrite <- Rmult_assoc, Rinv_r, Rmult_1_l by lra. exact G1.
    - apply Rmult_le_compat_r; auto. apply Rinv_le_contravar; lra. }
  unfold gap_bound. rewrite Rmult_assoc. unfold D at 1. lra.
Qed.

Section Conv.
  Variables (n : nat) (C : vec -> Prop) (func : vec -> R) (grad proj : vec -> vec) (opt : spg_options).
  Hypothesis HC : convex_set n C.
  Hypothesis HP : projects_onto n C proj.
  Hypothesis Hg : forall x, length x = n -> length (grad x) = n.
  Hypothesis Hmem : (1 <= so_memory opt)%nat.
  Variable x0 : vec.
  Hypothesis Hx0 : length x0 = n.
  Variable L : R.
  Hypothesis Sm : smooth_on n C func grad L.
  Hypothesis HL0 : 0 <= L.
  Hypothesis Hgam : 0 < so_suff_dec opt < 1.
  Hypothesis HL : L * L_MAX <= 2 ^ 50 * (1 - so_suff_dec opt).
  Notation reach := (reaches (spg_cond proj opt) (spg_step func grad proj opt) (spg_init func grad proj opt x0)).
  Notation inv := (spg_inv n C func grad opt).
  (** one step: the remembered maximum is undercut in proportion to the decrease of
      the linear model, which also bounds the distance to any better point *)
  Lemma step_decrease s s' : inv s -> spg_step func grad proj opt s = Some s' -> exists D, 0 <= D /\ sg_delta s' = - D /\
    func (sg_x s') <= vmax (sg_f_past s) - so_suff_dec opt * / 2 ^ 49 * D /\
    func (sg_x s') <= func (sg_x s) + L / 2 * L_MAX * D /\
    forall q Rd, length q = n -> C q -> nrm (rsub (sg_x s) q) <= Rd -> func (sg_x s) + rdot (grad (sg_x s)) (rsub q (sg_x s)) <= func q ->
      func (sg_x s) - func q <= gap_bound L_MIN L_MAX Rd D.
  Proof.
    intros I H. pose proof I as I'. destruct I' as [Lx [Cx [G [Lxp [Cxp [Gp [Lf [F0 [D0 [I1 [FC GC]]]]]]]]]]].
    unfold spg_step in H. cbv zeta in H.
    set (lam := spg_lambda _ _) in H. pose proof (lambda_bounds (rsub (sg_x s) (sg_x_prev s)) (rsub (sg_g s) (sg_g_prev s))) as Lb. fold lam in Lb.
    pose proof L_MIN_pos as LP. assert (Lg : length (sg_g s) = n) by (rewrite G; auto).
    destruct (@dir_ok n C proj opt HC HP Hmem x0 Hx0 (sg_x s) (sg_g s) lam Lx Lg Cx ltac:(lra)) as [Ld [Cd [De Cs]]].
    set (d := rsub (proj (rsub (sg_x s) (rscale lam (sg_g s)))) (sg_x s)) in *.
    destruct (line_search _ _ _ _ _ _ _) as [l| |] eqn:E; try discriminate. injection H as <-. cbn [sg_x].
    set (delta := rdot (sg_g s) d) in *. set (gam := so_suff_dec opt) in *.
    assert (Fm : (sg_f_past s)@0 <= vmax (sg_f_past s)).
    { apply vmax_spec; [intros E0; rewrite E0 in Lf; simpl in Lf; lia|]. apply nth_In. lia. }
    pose proof (rdot_pos d) as Pd. fold (nrm2 d) in Pd.
    assert (Dd : delta <= 0) by nra. assert (Nd : nrm2 d <= L_MAX * - delta) by nra.
    destruct (ls_result _ _ _ _ _ _ _ E) as [[A [Ex [Ef [El _]]]] [Cb Ok]]. rewrite <- Ef.
    assert (Sb : ls_f l <= (sg_f_past s)@0 + ls_alpha l * delta + L / 2 * (ls_alpha l * ls_alpha l) * nrm2 d).
    { rewrite Ef, Ex, F0. unfold delta. rewrite G. apply Sm; auto. lra. }
    exists (- delta). split; [lra|]. split; [cbn [sg_delta]; ring|]. split; [|split].
    - destruct (Req_dec delta 0) as [D|D].
      + assert (N0 : nrm2 d = 0) by nra. rewrite N0, D in Sb. rewrite D. lra.
      + assert (AlE : ls_alpha l = / 2 ^ (ls_calls l - 1)).
        { unfold line_search in E. apply while_done in E. destruct E as [j [Hj [Hr Hc]]]. pose proof (ls_reach Hr) as [_ Ec].
          rewrite Ec. replace (S j - 1)%nat with j by lia. eapply ls_halving; [| | |exact Hr]; lra. }
        assert (Al : / 2 ^ 49 <= ls_alpha l).
        { rewrite AlE. apply Rinv_le_contravar; [apply pow_lt; lra|]. apply Rle_pow; [lra|lia]. }
        assert (Good : ls_f l <= ls_lim l -> ls_f l <= vmax (sg_f_past s) - gam * / 2 ^ 49 * - delta).
        { intros Q. rewrite El in Q. assert (/ 2 ^ 49 * (gam * - delta) <= ls_alpha l * (gam * - delta)) by (apply Rmult_le_compat_r; [nra|exact Al]). lra. }
        destruct Ok as [Ok|Ok]; [now apply Good|]. apply Good. rewrite El.
        rewrite Ok in AlE. change (50 - 1)%nat with 49%nat in AlE.
        assert (HA : L * L_MAX * ls_alpha l <= 2 * (1 - gam)).
        { rewrite AlE. apply Rmult_le_reg_r with (2 ^ 49); [apply pow_lt; lra|]. rewrite Rmult_assoc, Rinv_l by (apply pow_nonzero; lra).
          rewrite Rmult_1_r. replace (2 * (1 - gam) * 2 ^ 49) with (2 ^ 50 * (1 - gam)) by (simpl; ring). exact HL. }
        assert (Q1 : L / 2 * (ls_alpha l * ls_alpha l) * nrm2 d <= L / 2 * (ls_alpha l * ls_alpha l) * (L_MAX * - delta)).
        { apply Rmult_le_compat_l; auto. apply Rmult_le_pos; [lra|]. apply Rle_0_sqr. }
        assert (Q2 : L / 2 * (ls_alpha l * ls_alpha l) * (L_MAX * - delta) = (L * L_MAX * ls_alpha l) * (ls_alpha l * - delta) / 2) by field.
        assert (Q3 : (L * L_MAX * ls_alpha l) * (ls_alpha l * - delta) <= 2 * (1 - gam) * (ls_alpha l * - delta)) by (apply Rmult_le_compat_r; [nra|exact HA]).
        lra.
    - rewrite F0 in Sb. assert (Q0 : ls_alpha l * delta <= 0) by nra.
      assert (Q1 : L / 2 * (ls_alpha l * ls_alpha l) * nrm2 d <= L / 2 * 1 * (L_MAX * - delta)).
      { apply Rmult_le_compat; auto; [apply Rmult_le_pos; [lra|apply Rle_0_sqr]|]. apply Rmult_le_compat_l; [lra|]. nra. }
      lra.
    - intros q Rd Lq Cq Hd Cv. unfold delta. unfold d. rewrite G. eapply gap_from_step with (n := n) (C := C); eauto.
      fold lam. rewrite <- G. fold d. fold delta. lra.
  Qed.
  Variables (q : vec) (Rd : R).
  Hypothesis Lq : length q = n.
  Hypothesis Cq : C q.
  Hypothesis Cv : forall x u, length x = n -> length u = n -> C x -> C u -> func x + rdot (grad x) (rsub u x) <= func u.
  Hypothesis Mq : forall u, length u = n -> C u -> func q <= func u.
  Hypothesis HR : forall u, length u = n -> C u -> func u <= func (sg_x (spg_init func grad proj opt x0)) -> nrm (rsub u q) <= Rd.
  Variables (eps D0 : R) (J : nat).
  Hypothesis He : 0 < eps.
  Hypothesis HD0 : 0 < D0.
  Hypothesis HDg : forall D, 0 <= D <= D0 -> gap_bound L_MIN L_MAX Rd D <= eps / 2.
  Hypothesis HDl : L / 2 * L_MAX * D0 <= eps / 2.
  Let dl := so_suff_dec opt * / 2 ^ 49 * D0.
  Let e0 := func (sg_x (spg_init func grad proj opt x0)) - func q.
  Lemma dl_pos : 0 < dl.
  Proof. apply Rmult_lt_0_compat; auto. apply Rmult_lt_0_compat; [lra|]. apply Rinv_0_lt_compat, pow_lt. lra. Qed.
  Lemma push_ok k s s' : reach k s -> spg_step func grad proj opt s = Some s' -> func (sg_x s') <= Rmax (func q + eps) (vmax (sg_f_past s) - dl).
  Proof.
    intros H B. pose proof (reach_inv HC HP Hg Hmem Hx0 H) as I. destruct (step_decrease I B) as (D & Dp & _ & S1 & S2 & S3).
    destruct (Rle_lt_dec D D0) as [Hd|Hd].
    - eapply Rle_trans; [|apply Rmax_l]. pose proof I as (Lx & Cx & _).
      assert (Hlev : func (sg_x s) <= func (sg_x (spg_init func grad proj opt x0))) by (eapply level with (L := L); eauto; lra).
      specialize (S3 q Rd Lq Cq (HR Lx Cx Hlev) (Cv Lx Lq Cx Cq)). specialize (HDg (conj Dp Hd)).
      assert (L / 2 * L_MAX * D <= L / 2 * L_MAX * D0). { apply Rmult_le_compat_l; auto. apply Rmult_le_pos; [lra|unfold L_MAX; lra]. } lra.
    - eapply Rle_trans; [|apply Rmax_r]. unfold dl. assert (so_suff_dec opt * / 2 ^ 49 * D0 <= so_suff_dec opt * / 2 ^ 49 * D).
      { apply Rmult_le_compat_l; [|lra]. apply Rmult_le_pos; [lra|]. left. apply Rinv_0_lt_compat, pow_lt. lra. } lra.
  Qed.
  Lemma reach_mem k s : reach k s -> mem_ok (so_memory opt) (level_ (func q) eps e0 dl) k (sg_f_past s).
  Proof.
    intros H. induction H as [|k s s' H IH Cd Bd].
    - unfold spg_init. cbn [sg_f_past]. apply mem_init; auto. unfold level_, e0. simpl INR. unfold spg_init. cbn [sg_x].
      match goal with |- ?a <= _ + Rmax _ (?b - _ - _) => pose proof (Rmax_r eps (a - func q - 0 * dl)) end. lra.
    - pose proof (reach_inv HC HP Hg Hmem Hx0 H) as I. destruct (step_facts HC HP Hg Hmem _ Hx0 I Bd) as (_ & _ & _ & _ & _ & _ & _ & _ & _ & _ & _ & Ep & _).
      rewrite Ep. apply mem_push; auto; [left; apply dl_pos|]. eapply push_ok; eauto.
  Qed.
  Lemma conv k s : e0 <= INR J * dl -> (so_memory opt * J <= k)%nat -> reach k s -> func (sg_x s) <= func q + eps.
  Proof.
    intros HJ Hk H. pose proof (reach_inv HC HP Hg Hmem Hx0 H) as (_ & _ & _ & _ & _ & _ & _ & F0 & _). rewrite <- F0.
    eapply mem_late; [exact Hmem|left; apply dl_pos|lra|exact HJ|exact Hk|]. now apply reach_mem.
  Qed.
  Lemma conv_max k s : e0 <= INR J * dl -> (so_memory opt * J + so_memory opt <= k)%nat -> reach k s -> vmax (sg_f_past s) <= func q + eps.
  Proof.
    intros HJ Hk H. eapply mem_late_max; [exact Hmem|left; apply dl_pos|lra|exact HJ|exact Hk|]. now apply reach_mem.
  Qed.
End Conv.
Lemma nat_above r : exists J, r < INR J.
Proof.
  exists (Z.to_nat (up r)). destruct (archimed r) as [A _]. rewrite INR_IZR_INZ. eapply Rlt_le_trans; [exact A|]. apply IZR_le. lia.
Qed.
Lemma conv_exists n C func grad proj x0 L M gam q : convex_set n C -> projects_onto n C proj -> (forall x, length x = n -> length (grad x) = n) ->
  (1 <= M)%nat -> length x0 = n -> smooth_on n C func grad L -> 0 <= L -> 0 < gam < 1 -> L * 10 ^ 10 <= 2 ^ 50 * (1 - gam) ->
  (forall x u, length x = n -> length u = n -> C x -> C u -> func x + rdot (grad x) (rsub u x) <= func u) ->
  (forall c, exists Rb, forall u, length u = n -> C u -> func u <= c -> nrm u <= Rb) ->
  length q = n -> C q -> (forall u, length u = n -> C u -> func q <= func u) ->
  forall eps, 0 < eps -> exists N, forall opt k s, so_memory opt = M -> so_suff_dec opt = gam -> (N <= k)%nat ->
    reaches (spg_cond proj opt) (spg_step func grad proj opt) (spg_init func grad proj opt x0) k s ->
    func q <= func (sg_x s) /\ vmax (sg_f_past s) <= func q + eps.
Proof.
  intros HC HP Hg HM Lx0 Sm HL0 Hgam HL Cv Hb Lq Cq Mq eps He.
  set (opt0 := SPGOptions 0 0 gam 0 0 M). set (f1 := func (sg_x (spg_init func grad proj opt0 x0))).
  destruct (Hb f1) as [Rb Hr]. set (Rd := Rmax 0 (Rb + nrm q)).
  assert (LM : 0 < L_MAX) by (unfold L_MAX; lra).
  destruct (@gap_small L_MIN L_MAX Rd (eps / 2) L_MIN_pos LM (Rmax_l _ _) ltac:(lra)) as [Da [Da0 Hda]].
  set (Db := eps / 2 / (L / 2 * L_MAX + 1)). assert (K0 : 0 <= L / 2 * L_MAX) by (apply Rmult_le_pos; lra).
  assert (Db0 : 0 < Db) by (apply Rdiv_lt_0_compat; lra).
  set (D0 := Rmin Da Db). assert (D00 : 0 < D0) by (now apply Rmin_glb_lt).
  set (dl := gam * / 2 ^ 49 * D0). assert (dl0 : 0 < dl).
  { apply Rmult_lt_0_compat; auto. apply Rmult_lt_0_compat; [lra|]. apply Rinv_0_lt_compat, pow_lt. lra. }
  destruct (nat_above ((f1 - func q) / dl)) as [J HJ].
  exists (M * J + M)%nat. intros opt k s Em Eg Hk H. assert (Hm' : (1 <= so_memory opt)%nat) by lia.
  assert (Ef : func (sg_x (spg_init func grad proj opt x0)) = f1) by reflexivity.
  pose proof (reach_inv HC HP Hg Hm' Lx0 H) as (Lx & Cx & _). split; [apply Mq; auto|].
  eapply (@conv_max n C func grad proj opt HC HP Hg Hm' x0 Lx0 L Sm HL0) with (Rd := Rd) (D0 := D0) (J := J) (k := k); auto; try (rewrite Eg; assumption).
  - intros u Lu Cu Hu. rewrite Ef in Hu. specialize (Hr u Lu Cu Hu). eapply Rle_trans; [|apply Rmax_r].
    assert (E : rsub u q = radd u (ropp q)) by veq. rewrite E. pose proof (nrm_triang u (ropp q) ltac:(vl)) as T.
    assert (En : nrm (ropp q) = nrm q) by (unfold nrm; rewrite rdot_opp_l, rdot_opp_r; f_equal; ring). lra.
  - intros D [Dp Dl]. apply Hda. split; auto. eapply Rle_trans; [exact Dl|apply Rmin_l].
  - apply Rle_trans with (L / 2 * L_MAX * Db); [apply Rmult_le_compat_l; [auto|apply Rmin_r]|].
    apply Rle_trans with ((L / 2 * L_MAX + 1) * Db); [nra|]. right. unfold Db. field. lra.
  - rewrite Ef, Eg. fold dl. apply Rlt_le in HJ. apply Rmult_le_compat_r with (r := dl) in HJ; [|lra].
    replace ((f1 - func q) / dl * dl) with (f1 - func q) in HJ by (field; lra). lra.
  - rewrite Em. exact Hk.
Qed.

(** with a positive tolerance the decrease of the model ends the run *)
Lemma stops_exists n C func grad proj x0 L M gam q : convex_set n C -> projects_onto n C proj -> (forall x, length x = n -> length (grad x) = n) ->
  (1 <= M)%nat -> length x0 = n -> smooth_on n C func grad L -> 0 <= L -> 0 < gam < 1 -> L * 10 ^ 10 <= 2 ^ 50 * (1 - gam) ->
  (forall x u, length x = n -> length u = n -> C x -> C u -> func x + rdot (grad x) (rsub u x) <= func u) ->
  (forall c, exists Rb, forall u, length u = n -> C u -> func u <= c -> nrm u <= Rb) ->
  length q = n -> C q -> (forall u, length u = n -> C u -> func q <= func u) ->
  forall ptol, 0 < ptol -> exists N, forall opt k s, so_memory opt = M -> so_suff_dec opt = gam -> ptol <= so_progress_tol opt ->
    reaches (spg_cond proj opt) (spg_step func grad proj opt) (spg_init func grad proj opt x0) k s -> (k <= N)%nat.
Proof.
  intros HC HP Hg HM Lx0 Sm HL0 Hgam HL Cv Hb Lq Cq Mq ptol Hp.
  set (c := gam * / 2 ^ 49). assert (c0 : 0 < c) by (apply Rmult_lt_0_compat; [lra|apply Rinv_0_lt_compat, pow_lt; lra]).
  assert (He : 0 < c * (ptol / 2)) by (apply Rmult_lt_0_compat; lra).
  destruct (conv_exists HC HP Hg HM Lx0 Sm HL0 Hgam HL Cv Hb Lq Cq Mq He) as [N HN].
  exists (S N). intros opt k s Em Eg Ht H. destruct (Nat.le_gt_cases k (S N)) as [|Hk]; auto. exfalso.
  destruct H as [|k s2 s3 H Cd Bd]; [lia|]. destruct H as [|k s1 s2 H Cd1 Bd1]; [lia|].
  assert (Hm' : (1 <= so_memory opt)%nat) by lia. pose proof (reach_inv HC HP Hg Hm' Lx0 H) as I.
  destruct (HN opt k s1 Em Eg ltac:(lia) H) as [_ Vm].
  rewrite <- Eg in Hgam, HL. destruct (step_decrease HC HP Hg Hm' Lx0 Sm HL0 Hgam HL I Bd1) as (D & D0 & Ed & S1 & _).
  pose proof (step_inv HC HP Hg Hm' _ Lx0 I Bd1) as (Lx & Cx & _). specialize (Mq _ Lx Cx). rewrite Eg in S1. fold c in S1.
  unfold spg_cond in Cd. cbv zeta in Cd. rewrite !andb_true_iff in Cd. destruct Cd as [[[_ Q] _] _]. apply Rleb_true in Q. rewrite Ed in Q.
  assert (c * D <= c * (ptol / 2)) by lra. apply Rmult_le_reg_l in H0; auto. lra.
Qed.
