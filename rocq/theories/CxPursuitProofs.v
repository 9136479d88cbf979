From Coq Require Import List Arith Bool Lia Reals Lra Permutation.
From Verif Require Import Scalar Vec RVec Loop LoopLemmas OptModel OptProofs OptProofs2 SortedL1Model SelModel SelSpec SelProofs SolverSpec SlsModel PursuitModel PursuitProofs4 PursuitLemmas2 CxSpec CxProofs CxSpglModel CxSpglProofs CxPursuitModel CxPursuitSpec.
Import ListNotations.
Set Implicit Arguments.
Local Open Scope R_scope.

(** *** selections *)
Lemma cli_real h K : clargest_indices h K = largest_indices (map cabs h) K.
Proof.
  unfold clargest_indices, largest_indices. do 3 f_equal. rewrite map_map. apply map_ext. intros a. symmetry. apply Rabs_pos_eq, cabs_pos.
Qed.
Lemma cli_lt h K i : In i (clargest_indices h K) -> (i < length h)%nat.
Proof. rewrite cli_real. intros H. apply li_lt in H. now rewrite map_length in H. Qed.
Lemma cli_len h K : length (clargest_indices h K) = Nat.min K (length h).
Proof. now rewrite cli_real, li_len, map_length. Qed.
Lemma cli_top h K : (K <= length h)%nat -> ctop_selection h K (clargest_indices h K).
Proof.
  intros HK. pose proof (@largest_top (map cabs h) K) as H. rewrite map_length in H. specialize (H HK). rewrite <- cli_real in H.
  destruct H as (H1 & H2 & H3 & H4). rewrite !map_length in H3. rewrite !map_length in H4. repeat split; auto.
  intros i j Hi Hj N. pose proof (H4 i j Hi Hj N) as Q. rewrite map_map in Q.
  rewrite !(@nth_map_lt Cx R (fun x => Rabs (cabs x)) h _ (0, 0) 0) in Q; [|now apply H3|exact Hj].
  now rewrite !Rabs_pos_eq in Q by apply cabs_pos.
Qed.
Lemma czero_at_len h J : length (czero_at h J) = length h. Proof. apply tab_length. Qed.
Lemma cgather_len x J : length (cgather x J) = length J. Proof. apply map_length. Qed.

(** *** energies *)
Lemma inner_self (x : cvec) : (inner x x : Cx) = (cnsq x, 0).
Proof.
  induction x as [|a x IH]; [reflexivity|]. change (Cadd (Cmul (Cconj a) a) (inner x x : Cx) = (Cnsq a + cnsq x, 0)).
  rewrite IH. destruct a as [a b]. unfold Cnsq, Cadd, Cmul, Cconj. cbn. apply (f_equal2 pair); ring.
Qed.
Lemma cnsq_nonneg (x : cvec) : 0 <= cnsq x.
Proof. rewrite <- flat_nrm2. apply rdot_pos. Qed.
Lemma energy_cnsq (x : cvec) : energy x = cnsq x.
Proof.
  unfold energy. rewrite inner_self. unfold cabs. cbn [fst snd]. rewrite Rmult_0_l, Rplus_0_r. apply sqrt_square, cnsq_nonneg.
Qed.
Lemma cnsq_eq0 (x : cvec) : cnsq x = 0 -> x = repeat ((0, 0) : Cx) (length x).
Proof.
  intros H. rewrite <- flat_nrm2 in H. apply rdot_eq0 in H. apply flat_inj. rewrite H, flat_len. clear H.
  generalize (length x). induction n as [|n IH]; [reflexivity|]. cbn [repeat flat]. rewrite <- IH. replace (2 * S n)%nat with (S (S (2 * n))) by lia. reflexivity.
Qed.
Lemma cnsq_scale c (x : cvec) : cnsq (vscale (ofR c : Cs) x) = c * c * cnsq x.
Proof. rewrite <- !flat_nrm2, flat_scale. unfold nrm2. rewrite rdot_scale_l, rdot_scale_r. ring. Qed.

(** *** linear combinations *)
Lemma clc_len m : forall (cs : cvec) vs, (forall v, In v vs -> length v = m) -> length (@Vec.lincomb Cs m cs vs) = m.
Proof.
  induction cs as [|c cs IH]; intros [|v vs] H; try apply repeat_length.
  change (length (vadd (vscale c v) (@Vec.lincomb Cs m cs vs)) = m). apply vadd_length; [rewrite vscale_length; apply H; now left|].
  apply IH. intros; apply H; now right.
Qed.
Lemma clc_scale m (c : Cs) : forall (cs : cvec) vs, @Vec.lincomb Cs m (vscale c cs) vs = vscale c (@Vec.lincomb Cs m cs vs).
Proof.
  assert (Z : vzero m = vscale c (vzero m : cvec)).
  { induction m as [|k IH]; [reflexivity|]. cbn. unfold vscale in *. cbn. f_equal; [unfold Cmul; cbn; apply (f_equal2 pair); ring|]. exact IH. }
  induction cs as [|a cs IH]; intros [|v vs]; try exact Z.
  change (vadd (vscale (smul c a : Cs) v) (@Vec.lincomb Cs m (vscale c cs) vs) = vscale c (vadd (vscale a v) (@Vec.lincomb Cs m cs vs))).
  rewrite IH. generalize (@Vec.lincomb Cs m cs vs). clear. induction v as [|b v IH]; intros [|w u]; try reflexivity.
  change ((sadd (smul (smul c a) b) (smul c w) :: vadd (vscale (smul c a : Cs) v) (vscale c u)) = (smul c (sadd (smul a b) w) : Cs) :: vscale c (vadd (vscale a v) u)).
  rewrite IH. f_equal. cbn. unfold Cadd, Cmul. cbn. apply (f_equal2 pair); ring.
Qed.
Lemma vscale_sub (c : Cs) : forall x y : cvec, vscale c (vsub x y) = vsub (vscale c x) (vscale c y).
Proof.
  induction x as [|a x IH]; intros [|b y]; try reflexivity.
  change ((smul c (ssub a b) : Cs) :: vscale c (vsub x y) = (ssub (smul c a) (smul c b) : Cs) :: vsub (vscale c x) (vscale c y)).
  rewrite IH. f_equal. cbn. unfold Csub, Cmul. cbn. apply (f_equal2 pair); ring.
Qed.

Section PS.
  Variables (m : nat) (D : cdictionary) (K : nat).
  Hypothesis V : cvalid_dict m D.
  Hypothesis HK : (K <= cd_n D)%nat.
  Notation in_range J := (forall i, In i J -> (i < cd_n D)%nat).
  Lemma catoms_len J : in_range J -> forall c, In c (map (cd_atom D) J) -> length c = m.
  Proof. intros H c Hc. apply in_map_iff in Hc as (i & <- & Hi). apply V. auto. Qed.
  Lemma ccomb_len J x : in_range J -> length (ccombine_on m D J x) = m.
  Proof. intros H. apply clc_len. now apply catoms_len. Qed.
  Section Y.
  Variable y : cvec.
  Hypothesis Ly : length y = m.
  Lemma cmake_ok J x it Jp : length J = K -> in_range J -> length x = K -> cconsistent m D y K (cps_make D y J x it Jp).
  Proof. intros H1 H2 H3. unfold cconsistent, cps_make. cbn [cp_I cp_x cp_r cp_rn]. unfold csynth, ccombine_on. rewrite Ly, energy_cnsq. repeat split; auto. Qed.
  Lemma cconsistent_len s : cconsistent m D y K s -> length (cp_r s) = m.
  Proof. intros (C1 & C2 & C3 & C4 & C5). rewrite C4. apply vsub_length; auto. now apply ccomb_len. Qed.
  Variable lstsq : list cvec -> cvec -> cvec.
  Hypothesis HLS : cleast_squares_solver lstsq.
  Lemma cls_len J : in_range J -> length (lstsq (map (cd_atom D) J) y) = length J.
  Proof. intros H. destruct (HLS (map (cd_atom D) J) y Ly (catoms_len J H)) as [H1 _]. now rewrite H1, map_length. Qed.
  Lemma cls_min J z : in_range J -> length z = length J ->
    cnsq (vsub y (ccombine_on m D J (lstsq (map (cd_atom D) J) y))) <= cnsq (vsub y (ccombine_on m D J z)).
  Proof. intros H L. destruct (HLS (map (cd_atom D) J) y Ly (catoms_len J H)) as [_ H1]. apply H1. now rewrite map_length. Qed.
  Lemma ch_in r k : length r = m -> in_range (clargest_indices (cd_trans D r) k).
  Proof. intros Lr i Hi. apply cli_lt in Hi. destruct V as (_ & V2 & _). now rewrite V2 in Hi. Qed.
  Lemma chz_in r J k : length r = m -> in_range (clargest_indices (czero_at (cd_trans D r) J) k).
  Proof. intros Lr i Hi. apply cli_lt in Hi. destruct V as (_ & V2 & _). now rewrite czero_at_len, V2 in Hi. Qed.
  Lemma cprune_ok J3 : in_range J3 -> (K <= length J3)%nat ->
    let x := lstsq (map (cd_atom D) J3) y in
    let Ia := clargest_indices x K in
    length (pick J3 Ia) = K /\ in_range (pick J3 Ia) /\ length (cgather x Ia) = K.
  Proof.
    intros R3 L3 x Ia. assert (Lx : length x = length J3) by (now apply cls_len).
    assert (LI : length Ia = K) by (unfold Ia; rewrite cli_len; rewrite Lx; lia).
    rewrite pick_len, cgather_len. repeat split; auto. intros i Hi. apply R3.
    eapply pick_in; [|exact Hi]. intros a Ha. apply cli_lt in Ha. rewrite <- Lx. exact Ha.
  Qed.
  Lemma ccosamp_init_ok : cconsistent m D y K (ccosamp_init lstsq D y K).
  Proof.
    unfold ccosamp_init. set (J3 := clargest_indices _ (3 * K)).
    assert (R3 : in_range J3) by (now apply ch_in).
    destruct (cprune_ok _ R3) as (P1 & P2 & P3); [unfold J3; rewrite cli_len; destruct V as (_ & V2 & _); rewrite V2 by auto; lia|].
    apply cmake_ok; auto.
    - now rewrite (Permutation_length (nsort_perm _)).
    - intros i Hi. apply P2. now apply (Permutation_in _ (nsort_perm _)).
  Qed.
  Lemma ccosamp_body_ok s s' : cconsistent m D y K s -> ccosamp_body lstsq D y K s = Some s' ->
    cconsistent m D y K s' /\ cp_it s' = S (cp_it s) /\ cp_Iprev s' = cp_I s.
  Proof.
    intros C B. unfold ccosamp_body in B. injection B as <-. split; [|auto].
    pose proof (cconsistent_len C) as Lr. destruct C as (C1 & C2 & C3 & C4 & C5).
    assert (R3 : in_range (cp_I s ++ clargest_indices (czero_at (cd_trans D (cp_r s)) (cp_I s)) (2 * K))).
    { intros i Hi. apply in_app_or in Hi as [Hi|Hi]; auto. now apply chz_in in Hi. }
    destruct (cprune_ok _ R3) as (P1 & P2 & P3); [rewrite app_length; lia|]. apply cmake_ok; auto.
  Qed.
  Notation best s := (forall z, length z = K -> cnsq (cp_r s) <= cnsq (vsub y (ccombine_on m D (cp_I s) z))).
  Lemma csp_make_ok J it Jp : length J = K -> in_range J ->
    cconsistent m D y K (cps_make D y J (lstsq (map (cd_atom D) J) y) it Jp) /\ best (cps_make D y J (lstsq (map (cd_atom D) J) y) it Jp).
  Proof.
    intros LJ RJ. split; [apply cmake_ok; auto; rewrite cls_len; auto|].
    intros z Lz. unfold cps_make. cbn [cp_r cp_I]. unfold csynth. rewrite Ly. apply cls_min; auto. rewrite Lz. now symmetry.
  Qed.
  Lemma csp_init_ok : cconsistent m D y K (csp_init lstsq D y K) /\ best (csp_init lstsq D y K).
  Proof.
    unfold csp_init. apply csp_make_ok; [rewrite cli_len; destruct V as (_ & V2 & _); rewrite V2 by auto; lia|]. now apply ch_in.
  Qed.
  Lemma csp_body_ok s s' : cconsistent m D y K s -> csp_body lstsq D y K s = Some s' ->
    (cconsistent m D y K s' /\ best s') /\ cp_it s' = S (cp_it s) /\ cp_Iprev s' = cp_I s.
  Proof.
    intros C B. unfold csp_body in B. injection B as <-. split; [|auto].
    pose proof (cconsistent_len C) as Lr. destruct C as (C1 & C2 & C3 & C4 & C5).
    assert (R3 : in_range (cp_I s ++ clargest_indices (czero_at (cd_trans D (cp_r s)) (cp_I s)) K)).
    { intros i Hi. apply in_app_or in Hi as [Hi|Hi]; auto. now apply chz_in in Hi. }
    destruct (cprune_ok _ R3) as (P1 & P2 & P3); [rewrite app_length; lia|]. now apply csp_make_ok.
  Qed.
  End Y.

  (** *** whole runs *)
  Lemma ccond_it M mx mi s : cps_cond M mx mi s = true -> (cp_it s < mx)%nat.
  Proof. unfold cps_cond. intros H. apply andb_prop in H as [H _]. apply andb_prop in H as [_ H]. now apply Nat.ltb_lt. Qed.
  Lemma ccond_false M mx mi s : cps_cond M mx mi s = false -> cp_rn s <= M \/ (mx <= cp_it s)%nat \/ (mi <= cp_it s)%nat /\ cp_I s = cp_Iprev s.
  Proof.
    unfold cps_cond. intros H. apply andb_false_iff in H as [H|H].
    - apply andb_false_iff in H as [H|H]; [left; now apply Rltb_false|right; left; now apply Nat.ltb_ge].
    - right; right. apply orb_false_iff in H as [H1 H2]. split; [now apply Nat.ltb_ge|]. apply neqb_list_eq. now destruct (neqb_list _ _).
  Qed.
  Section Run.
    Variables (P : cvec -> cps -> Prop) (init : cvec -> cps) (body : cvec -> cps -> option cps) (max_iters : nat) (rtol : R) (fuel : nat).
    Hypothesis Pc : forall y s, P y s -> cconsistent m D y K s.
    Hypothesis Hi : forall y, length y = m -> P y (init y) /\ cp_it (init y) = 1%nat.
    Hypothesis Hb : forall y s s', length y = m -> P y s -> body y s = Some s' -> P y s' /\ cp_it s' = S (cp_it s).
    Hypothesis Hs : forall y s c, length y = m -> c <> 0 -> P (vscale (ofR (/ c) : Cs) y) s -> P y (cps_scale c s).
    Notation cond := (cps_cond (rtol ^ 2) max_iters (min_iters K)).
    Lemma crun_reach y k s : length y = m -> reaches cond (body y) (init y) k s -> P y s /\ cp_it s = S k /\ (S k <= Nat.max 1 max_iters)%nat.
    Proof.
      intros Ly. destruct (@Hi y Ly) as [H0 It0]. induction 1 as [|k s s' H (IH1 & IH2 & IH3) C B]; [repeat split; auto; lia|].
      destruct (@Hb y s s' Ly IH1 B) as [B1 B2]. apply ccond_it in C. repeat split; auto; lia.
    Qed.
    Lemma crun_done y s : length y = m -> crescaled (fun yn => while_ cond (body yn) fuel (init yn)) y = Done s ->
      P y s /\ (1 <= cp_it s <= Nat.max 1 max_iters)%nat /\
      (cp_rn s <= rtol ^ 2 * cnsq y \/ (max_iters <= cp_it s)%nat \/ (min_iters K <= cp_it s)%nat /\ cp_I s = cp_Iprev s).
    Proof.
      intros Ly. unfold crescaled. destruct (Reqb (sqrt (energy y)) 0) eqn:E0; [discriminate|].
      assert (N0 : sqrt (energy y) <> 0) by (intros Q; rewrite Q in E0; unfold Reqb in E0; destruct (Req_EM_T 0 0); [discriminate|now apply n]).
      assert (Lyn : length (vscale (ofR (1 / sqrt (energy y)) : Cs) y) = m) by (rewrite vscale_length; exact Ly).
      destruct (while_ _ _ _ _) as [s1| |] eqn:E; try discriminate. intros [= <-].
      apply while_done in E as (k & _ & Rk & Cd). destruct (crun_reach Lyn Rk) as (R1 & R2 & R3).
      split; [apply Hs; auto; replace (/ sqrt (energy y)) with (1 / sqrt (energy y)) by (unfold Rdiv; ring); exact R1|].
      cbn [cps_scale cp_it cp_rn cp_I cp_Iprev]. split; [lia|]. apply ccond_false in Cd as [Cd|Cd]; [left|right; exact Cd].
      rewrite sqrt_def by (rewrite energy_cnsq; apply cnsq_nonneg). rewrite energy_cnsq. apply Rmult_le_compat_r; [apply cnsq_nonneg|exact Cd].
    Qed.
    Lemma crun_total y : length y = m -> (forall yn s, body yn s <> None) -> y <> vzero m -> (max_iters <= fuel)%nat ->
      exists s, crescaled (fun yn => while_ cond (body yn) fuel (init yn)) y = Done s.
    Proof.
      intros Ly Hn Hy HF. unfold crescaled. destruct (Reqb (sqrt (energy y)) 0) eqn:E0.
      - exfalso. apply Hy. unfold Reqb in E0. destruct (Req_EM_T (sqrt (energy y)) 0) as [Q|Q]; [|discriminate].
        apply sqrt_eq_0 in Q; [|rewrite energy_cnsq; apply cnsq_nonneg]. rewrite energy_cnsq in Q. apply cnsq_eq0 in Q. rewrite Ly in Q. exact Q.
      - set (yn := vscale _ y). assert (Lyn : length yn = m) by (unfold yn; rewrite vscale_length; exact Ly).
        destruct (@while_total _ cond (body yn) (init yn) fuel) as [s Hs'].
        + intros k s R C. apply Hn.
        + intros k s R C. apply ccond_it in C. destruct (crun_reach Lyn R) as (_ & R2 & _). lia.
        + rewrite Hs'. eauto.
    Qed.
  End Run.
  Lemma scale_back_c c (y : cvec) : c <> 0 -> vscale (ofR c : Cs) (vscale (ofR (/ c) : Cs) y) = y.
  Proof. intros H. apply flat_inj. rewrite !flat_scale. unfold rscale. rewrite map_map. erewrite map_ext; [apply map_id|]. intros a. rewrite <- Rmult_assoc, Rinv_r, Rmult_1_l by exact H. reflexivity. Qed.
  Lemma cscale_ok y s c : length y = m -> c <> 0 -> cconsistent m D (vscale (ofR (/ c) : Cs) y) K s -> cconsistent m D y K (cps_scale c s).
  Proof.
    intros Ly Hc (C1 & C2 & C3 & C4 & C5). unfold cconsistent, cps_scale. cbn [cp_I cp_x cp_r cp_rn]. repeat split; auto.
    - rewrite vscale_length. exact C3.
    - rewrite C4, vscale_sub, scale_back_c by auto. unfold ccombine_on. now rewrite clc_scale.
    - rewrite C5, cnsq_scale. ring.
  Qed.
  Lemma cscale_best y s c : length y = m -> c <> 0 -> cconsistent m D (vscale (ofR (/ c) : Cs) y) K s ->
    (forall z, length z = K -> cnsq (cp_r s) <= cnsq (vsub (vscale (ofR (/ c) : Cs) y) (ccombine_on m D (cp_I s) z))) ->
    forall z, length z = K -> cnsq (cp_r (cps_scale c s)) <= cnsq (vsub y (ccombine_on m D (cp_I (cps_scale c s)) z)).
  Proof.
    intros Ly Hc _ H z Lz. cbn [cps_scale cp_I cp_r]. rewrite cnsq_scale.
    pose proof (H (vscale (ofR (/ c) : Cs) z)) as Q. rewrite vscale_length in Q. specialize (Q Lz).
    unfold ccombine_on in *. rewrite clc_scale in Q. rewrite <- vscale_sub, cnsq_scale in Q.
    apply Rmult_le_compat_l with (r := c * c) in Q; [|apply Rle_0_sqr].
    replace (c * c * (/ c * / c * cnsq (vsub y (@Vec.lincomb Cs m z (map (cd_atom D) (cp_I s)))))) with (cnsq (vsub y (@Vec.lincomb Cs m z (map (cd_atom D) (cp_I s))))) in Q by (now field). exact Q.
  Qed.
End PS.

(** *** orthogonality of a least squares residual *)
Lemma small_step a b : 0 <= b -> (forall t, 0 <= t * t * b - 2 * t * a) -> a = 0.
Proof.
  intros Hb H. destruct (Req_dec a 0) as [E|E]; auto. exfalso. pose proof (H (a / (b + 1))) as Q.
  assert (P : 0 < / (b + 1)) by (apply Rinv_0_lt_compat; lra).
  replace (a / (b + 1) * (a / (b + 1)) * b - 2 * (a / (b + 1)) * a) with (- (a * a * / (b + 1) * (1 + / (b + 1)))) in Q by (field; lra).
  assert (0 < a * a) by nra. assert (0 < a * a * / (b + 1)) by (now apply Rmult_lt_0_compat). nra.
Qed.
Lemma cnsq_line m (r w : cvec) t : length r = m -> length w = m ->
  cnsq (vsub r (vscale (ofR t : Cs) w)) = cnsq r - 2 * t * fst (inner w r : Cx) + t * t * cnsq w.
Proof.
  intros Lr Lw. rewrite <- !flat_nrm2, <- flat_dot, flat_sub, flat_scale. unfold nrm2.
  assert (LL : length (flat r) = length (rscale t (flat w))) by (rewrite rscale_len, !flat_len; f_equal; exact (eq_trans Lr (eq_sym Lw))).
  rewrite rdot_sub_l, (@rdot_sub_r (flat r)), (@rdot_sub_r (rscale t (flat w))), !rdot_scale_l, !rdot_scale_r by exact LL. rewrite (rdot_sym (flat r) (flat w)). ring.
Qed.
Lemma orth_of_min m (a r : cvec) : length r = m -> length a = m ->
  (forall c : Cs, cnsq r <= cnsq (vsub r (vscale c a))) -> (inner a r : Cx) = (0, 0).
Proof.
  intros Lr La H. assert (Q : forall w : Cs, fst (inner (vscale w a) r : Cx) = 0).
  { intros w. apply small_step with (b := cnsq (vscale w a)); [apply cnsq_nonneg|]. intros t.
    assert (Lw : length (vscale w a) = m) by (rewrite vscale_length; exact La).
    pose proof (H (smul (ofR t : Cs) w)) as P. replace (vscale (smul (ofR t : Cs) w) a) with (vscale (ofR t : Cs) (vscale w a)) in P.
    - rewrite (@cnsq_line m r (vscale w a) t Lr Lw) in P. lra.
    - unfold vscale. rewrite map_map. apply map_ext. intros b. cbn. unfold Cmul. cbn. apply (f_equal2 pair); ring. }
  assert (Q1 := Q (1, 0)). assert (Q2 := Q (0, 1)). rewrite inner_scale_l in Q1, Q2. cbn in Q1, Q2. unfold Cmul, Cconj in Q1, Q2. cbn in Q1, Q2.
  destruct (inner a r : Cx) as [u v]. cbn in Q1, Q2. apply (f_equal2 pair); lra.
Qed.
Lemma clc_bump m (a : cvec) (c : Cs) (vs : list cvec) : (forall v, In v vs -> length v = m) -> In a vs ->
  forall x : cvec, length x = length vs -> exists z : cvec, length z = length vs /\ @Vec.lincomb Cs m z vs = vadd (@Vec.lincomb Cs m x vs) (vscale c a).
Proof.
  induction vs as [|v vs IH]; intros HL Hin x Lx; [destruct Hin|]. destruct x as [|x0 x]; [discriminate|].
  assert (HL' : forall w, In w vs -> length w = m) by (intros; apply HL; now right). injection Lx as Lx.
  assert (Lv : length v = m) by (apply HL; now left).
  destruct Hin as [->|Hin].
  - exists ((sadd x0 c : Cs) :: x). split; [exact (f_equal S Lx)|].
    change (vadd (vscale (sadd x0 c : Cs) a) (@Vec.lincomb Cs m x vs) = vadd (vadd (vscale x0 a) (@Vec.lincomb Cs m x vs)) (vscale c a)).
    assert (Lt : length (@Vec.lincomb Cs m x vs) = m) by (now apply clc_len). revert Lt. generalize (@Vec.lincomb Cs m x vs). rewrite <- Lv. clear.
    induction a as [|b a IH]; intros [|w u] Lt; try reflexivity; try discriminate.
    change ((sadd (smul (sadd x0 c) b) w : Cs) :: vadd (vscale (sadd x0 c : Cs) a) u = (sadd (sadd (smul x0 b) w) (smul c b) : Cs) :: vadd (vadd (vscale x0 a) u) (vscale c a)).
    injection Lt as Lt. rewrite IH by exact Lt. f_equal. cbn. unfold Cadd, Cmul. cbn. apply (f_equal2 pair); ring.
  - destruct (IH HL' Hin x Lx) as (z & Lz & Ez). exists (x0 :: z). split; [exact (f_equal S Lz)|].
    change (vadd (vscale x0 v) (@Vec.lincomb Cs m z vs) = vadd (vadd (vscale x0 v) (@Vec.lincomb Cs m x vs)) (vscale c a)).
    rewrite Ez. generalize (vscale x0 v) (@Vec.lincomb Cs m x vs) (vscale c a). clear.
    induction l as [|p l IH]; intros [|q l0] [|r l1]; try reflexivity.
    change ((sadd p (sadd q r) : Cs) :: vadd l (vadd l0 l1) = (sadd (sadd p q) r : Cs) :: vadd (vadd l l0) l1).
    rewrite IH. f_equal. cbn. unfold Cadd. cbn. apply (f_equal2 pair); ring.
Qed.
Lemma cbest_orth m D K y s : cvalid_dict m D -> length y = m -> cconsistent m D y K s ->
  (forall z, length z = K -> cnsq (cp_r s) <= cnsq (vsub y (ccombine_on m D (cp_I s) z))) ->
  forall i, In i (cp_I s) -> (inner (cd_atom D i) (cp_r s) : Cx) = (0, 0).
Proof.
  intros V Ly C H i Hi. pose proof (cconsistent_len V Ly C) as Lr. destruct C as (C1 & C2 & C3 & C4 & C5).
  apply orth_of_min with m; auto; [apply V; auto|]. intros c.
  destruct (@clc_bump m (cd_atom D i) c (map (cd_atom D) (cp_I s)) (catoms_len V _ C2) (in_map _ _ _ Hi) (cp_x s)) as (z & Lz & Ez); [rewrite map_length; etransitivity; [exact C3|now symmetry]|].
  assert (LzK : length z = K) by (rewrite map_length in Lz; etransitivity; [exact Lz|exact C1]).
  apply Rle_trans with (1 := H z LzK). right. f_equal. unfold ccombine_on in *. rewrite Ez, C4.
  generalize (@Vec.lincomb Cs m (cp_x s) (map (cd_atom D) (cp_I s))) (vscale c (cd_atom D i)). clear.
  induction y as [|p l IH]; intros [|q l0] [|r l1]; try reflexivity.
  change ((ssub p (sadd q r) : Cs) :: vsub l (vadd l0 l1) = (ssub (ssub p q) r : Cs) :: vsub (vsub l l0) l1).
  rewrite IH. f_equal. cbn. unfold Cadd, Csub. cbn. apply (f_equal2 pair); ring.
Qed.
