From Coq Require Import List Arith Bool Lia Reals Lra Psatz.
From Verif Require Import Vec RVec RMat Loop SelModel SelProofs SolverSpec SolverLemmas KMeansModel KMeansProofs ClusterModel SscModel SscSpec PursuitModel PursuitSpec PursuitProofs SscProofs.
Import ListNotations.
Set Implicit Arguments.
Local Open Scope R_scope.

(** *** least squares residuals are orthogonal to the columns *)
Lemma ls_orth m lstsq cols y v : least_squares_solver lstsq -> length y = m -> (forall c, In c cols -> length c = m) -> In v cols ->
  rdot (rsub y (lincomb m (lstsq cols y) cols)) v = 0.
Proof.
  intros LS Hy Hc Hv. destruct (LS m cols y Hy Hc) as [Lz Hmin]. set (z := lstsq cols y) in *. set (r := rsub y (lincomb m z cols)) in *.
  assert (Lr : length r = m) by (unfold r; rewrite rsub_len, lc_len; auto; lia).
  assert (Lv : length v = m) by auto.
  assert (Step : forall t, nrm2 r <= nrm2 (rsub r (rscale t v))).
  { intros t. apply in_split in Hv. destruct Hv as [l1 [l2 E]].
    set (e := rzero (length l1) ++ [t] ++ rzero (length l2)).
    assert (Le : length e = length cols) by (unfold e; rewrite E, !app_length, !rzero_len; simpl; lia).
    assert (Ev : lincomb m e cols = rscale t v).
    { assert (H1 : forall c, In c (l1 ++ [v] ++ l2) -> length c = m) by (intros c Hin; apply Hc; rewrite E; exact Hin).
      assert (H2 : forall c, In c ([v] ++ l2) -> length c = m) by (intros c Hin; apply H1; apply in_or_app; now right).
      unfold e. rewrite E. change (v :: l2) with ([v] ++ l2). rewrite lc_app by (auto; rewrite rzero_len; auto).
      rewrite lc_app by auto. rewrite !lc_zero by (intros; first [apply H1; apply in_or_app; now left|apply H2; apply in_or_app; now right]).
      rewrite lc_single by auto. veq. }
    specialize (Hmin (radd z e) ltac:(rewrite radd_len; unfold vec in *; lia)).
    rewrite lc_add in Hmin by (auto; lia). rewrite Ev in Hmin. fold r in Hmin.
    replace (rsub r (rscale t v)) with (rsub y (radd (lincomb m z cols) (rscale t v))); auto.
    assert (length (lincomb m z cols) = m) by (apply lc_len; auto). unfold r. veq. }
  destruct (Req_dec (nrm2 v) 0) as [V0|V0].
  - assert (v = rzero m) as ->; [|apply rdot_zero_r]. rewrite <- Lv. apply vec_eq; [now rewrite rzero_len|].
    intros i Hi. rewrite rzero_nth. unfold nrm2 in V0. rewrite (@rdot_sum (length v)) in V0 by auto.
    assert (Z := rsum_eq0 (fun i => v@i * v@i) (fun i _ => Rle_0_sqr (v@i)) V0 Hi). cbv beta in Z. now apply Rmult_integral in Z as [|].
  - specialize (Step (rdot r v / nrm2 v)). unfold nrm2 in Step. rewrite rdot_sub_l, !rdot_sub_r, !rdot_scale_l, !rdot_scale_r in Step by vl.
    rewrite (rdot_sym v r) in Step. fold (nrm2 v) in Step. pose proof (rdot_pos v) as Pv. fold (nrm2 v) in Pv.
    assert (E : rdot r r - rdot r v / nrm2 v * rdot r v - rdot r v / nrm2 v * (rdot r v - rdot r v / nrm2 v * nrm2 v) = rdot r r - rdot r v * rdot r v / nrm2 v) by (field; auto).
    assert (Q : rdot r v * rdot r v / nrm2 v <= 0) by lra.
    assert (P2 : rdot r v * rdot r v = rdot r v * rdot r v / nrm2 v * nrm2 v) by (field; auto).
    assert (rdot r v * rdot r v <= 0) by nra. pose proof (Rle_0_sqr (rdot r v)) as S. unfold Rsqr in S.
    assert (rdot r v * rdot r v = 0) by lra. now apply Rmult_integral in H0 as [|].
Qed.

(** *** argmax is unchanged by positive scaling *)
Lemma argmax_from_scale a : 0 < a -> forall l k best bv, argmax_from k best (a * bv) (map (Rmult a) l) = argmax_from k best bv l.
Proof.
  intros Ha. induction l as [|x l IH]; intros k best bv; simpl; auto.
  destruct (Rltb_spec (a * bv) (a * x)) as [H|H], (Rltb_spec bv x) as [H'|H']; auto; exfalso.
  - apply Rmult_lt_reg_l in H; auto.
  - apply H. now apply Rmult_lt_compat_l.
Qed.
Lemma argmax_scale a l : 0 < a -> argmax (map (Rmult a) l) = argmax l.
Proof. intros Ha. destruct l as [|x l]; simpl; auto. now apply argmax_from_scale. Qed.
Lemma abs_max_scale a l : 0 < a -> abs_max_idx (rscale a l) = abs_max_idx l.
Proof.
  intros Ha. unfold abs_max_idx, rscale. rewrite map_map.
  rewrite (map_ext (fun x => Rabs (a * x)) (fun x => a * Rabs x)).
  - rewrite <- (map_map Rabs (Rmult a)). now apply argmax_scale.
  - intros x. rewrite Rabs_mult, (Rabs_right a) by lra. reflexivity.
Qed.

Section SSC.
  Variable lstsq : list vec -> vec -> vec.
  Hypothesis LS : least_squares_solver lstsq.
  Variables (d N : nat) (Dict : list vec).
  Hypothesis HD : shape N d Dict.
  Variable i : nat.
  Hypothesis Hi : (i < N)%nat.
  Notation atom j := (nth j Dict []).

  Lemma sel_len r : length (tab (length Dict) (fun j => if Nat.eqb j i then 0 else rdot (atom j) r)) = N.
  Proof. rewrite tab_length. apply HD. Qed.
  Lemma sel_bound r : (ssc_select Dict i r < N)%nat.
  Proof.
    unfold ssc_select, abs_max_idx. set (h := tab _ _).
    assert (L : length (map Rabs h) = N) by (rewrite map_length; apply sel_len).
    assert (Hne : map Rabs h <> []) by (intros E; rewrite E in L; simpl in L; lia).
    destruct (argmax_spec Hne). lia.
  Qed.
  Lemma sel_max r j : (j < N)%nat -> j <> i ->
    Rabs (rdot (atom j) r) <= (if Nat.eqb (ssc_select Dict i r) i then 0 else Rabs (rdot (atom (ssc_select Dict i r)) r)).
  Proof.
    intros Hj Hne. pose proof (sel_bound r) as B. unfold ssc_select, abs_max_idx in *. set (h := tab _ _) in *.
    assert (Lh : length h = N) by apply sel_len.
    assert (L : length (map Rabs h) = N) by (rewrite map_length; auto).
    assert (Hn : map Rabs h <> []) by (intros E; rewrite E in L; simpl in L; lia).
    destruct (argmax_spec Hn) as [_ H]. specialize (H j ltac:(lia)).
    set (a := argmax (map Rabs h)) in *.
    rewrite !(nth_map_lt _ _ _ 0) in H by lia. unfold h in H. rewrite !nth_tab in H by (destruct HD; unfold vec in *; lia).
    destruct (Nat.eqb_spec j i); [lia|]. destruct (Nat.eqb a i); [now rewrite Rabs_R0 in H|exact H].
  Qed.
  (** a point that correlates with the residual is preferred to the point itself *)
  Lemma sel_fresh r j : (j < N)%nat -> j <> i -> rdot (atom j) r <> 0 ->
    ssc_select Dict i r <> i /\ rdot (atom (ssc_select Dict i r)) r <> 0.
  Proof.
    intros Hj Hne H0. pose proof (sel_max r Hj Hne) as H. pose proof (Rabs_pos_lt _ H0).
    destruct (Nat.eqb_spec (ssc_select Dict i r) i); [lra|]. split; auto. intros E. rewrite E, Rabs_R0 in H. lra.
  Qed.

  Variable x : vec.
  Hypothesis Hx : length x = d.
  Definition ssc_ok (t : nat) (s : ssc_state) : Prop :=
    length (ss_I s) = t /\ (forall j, In j (ss_I s) -> (j < N)%nat) /\
    length (ss_z s) = t /\
    ss_r s = rsub x (lincomb d (ss_z s) (map (fun j => atom j) (ss_I s))) /\
    (forall j, In j (ss_I s) -> rdot (atom j) (ss_r s) = 0) /\
    (forall z, length z = t -> nrm2 (ss_r s) <= nrm2 (rsub x (lincomb d z (map (fun j => atom j) (ss_I s))))).
  Lemma cols_len J : (forall j, In j J -> (j < N)%nat) -> forall c, In c (map (fun j => atom j) J) -> length c = d.
  Proof. intros H c Hc. apply in_map_iff in Hc. destruct Hc as [j [<- Hj]]. apply (shape_row HD). auto. Qed.
  Lemma step_ok t s : length (ss_I s) = t -> (forall j, In j (ss_I s) -> (j < N)%nat) -> ssc_ok (S t) (ssc_step lstsq Dict i x s).
  Proof.
    intros Lt Ht. unfold ssc_step. cbv zeta. set (J := ss_I s ++ [ssc_select Dict i (ss_r s)]).
    assert (HJ : forall j, In j J -> (j < N)%nat) by (intros j Hj; apply in_app_or in Hj; destruct Hj as [Hj|[<-|[]]]; [auto|apply sel_bound]).
    assert (LJ : length J = S t) by (unfold J; rewrite app_length; simpl; lia).
    pose proof (@cols_len J HJ) as Hc. destruct (@LS d (map (fun j => atom j) J) x Hx Hc) as [Lz Hmin]. rewrite map_length, LJ in Lz.
    unfold ssc_ok. cbn [ss_I ss_z ss_r]. rewrite Hx. split; [auto|]. split; [auto|]. split; [auto|]. split; [reflexivity|]. split.
    - intros j Hj. rewrite rdot_sym. apply ls_orth; auto. apply in_map_iff. eauto.
    - intros z Hz. apply Hmin. now rewrite map_length, LJ.
  Qed.
  Definition ssc_at (r0 : vec) (t : nat) : ssc_state := Nat.iter t (ssc_step lstsq Dict i x) (SSC [] [] r0).
  Lemma at_ok r0 t : ssc_ok (S t) (ssc_at r0 (S t)).
  Proof.
    induction t as [|t IH].
    - apply step_ok; simpl; auto. intros j [].
    - change (ssc_at r0 (S (S t))) with (ssc_step lstsq Dict i x (ssc_at r0 (S t))). apply step_ok; apply IH.
  Qed.
  Lemma at_energy r0 t : (1 <= t)%nat -> nrm2 (ss_r (ssc_at r0 (S t))) <= nrm2 (ss_r (ssc_at r0 t)).
  Proof.
    destruct t as [|t]; intros H; [lia|]. destruct (at_ok r0 t) as [L1 [B1 [Z1 [R1 _]]]]. destruct (at_ok r0 (S t)) as [L2 [B2 [Z2 [R2 [_ M2]]]]].
    specialize (M2 (ss_z (ssc_at r0 (S t)) ++ [0]) ltac:(rewrite app_length, Z1; simpl; lia)).
    eapply Rle_trans; [exact M2|]. rewrite R1 at 1. right. f_equal. f_equal.
    change (ss_I (ssc_at r0 (S (S t)))) with (ss_I (ssc_at r0 (S t)) ++ [ssc_select Dict i (ss_r (ssc_at r0 (S t)))]).
    rewrite map_app. pose proof (@cols_len _ B1) as C1.
    assert (Cn : length (atom (ssc_select Dict i (ss_r (ssc_at r0 (S t))))) = d) by (apply (shape_row HD), sel_bound).
    rewrite lc_app.
    - cbn [map]. rewrite lc_single by auto. pose proof (lc_len (m := d) (ss_z (ssc_at r0 (S t))) (map (fun j => atom j) (ss_I (ssc_at r0 (S t)))) C1). veq.
    - intros c Hc. apply in_app_or in Hc. destruct Hc as [Hc|[<-|[]]]; auto.
    - rewrite map_length. unfold vec in *. lia.
  Qed.
  (** no index is repeated and the point does not represent itself, as long as
      the residual correlates with some other point *)
  Lemma at_fresh r0 t : (forall u, (u < t)%nat -> exists j, (j < N)%nat /\ j <> i /\ rdot (atom j) (ss_r (ssc_at r0 u)) <> 0) ->
    NoDup (ss_I (ssc_at r0 t)) /\ ~ In i (ss_I (ssc_at r0 t)).
  Proof.
    induction t as [|t IH]; intros H; [simpl; split; [constructor|auto]|].
    destruct IH as [N1 N2]; [intros; apply H; lia|].
    change (ss_I (ssc_at r0 (S t))) with (ss_I (ssc_at r0 t) ++ [ssc_select Dict i (ss_r (ssc_at r0 t))]).
    destruct (H t ltac:(lia)) as [j [Hj [Hne H0]]]. destruct (sel_fresh (ss_r (ssc_at r0 t)) Hj Hne H0) as [F1 F2].
    assert (F3 : ~ In (ssc_select Dict i (ss_r (ssc_at r0 t))) (ss_I (ssc_at r0 t))).
    { intros C. destruct t as [|t]; [exact C|]. destruct (at_ok r0 t) as [_ [_ [_ [_ [O _]]]]]. now apply F2, O. }
    split.
    - apply NoDup_rev in N1. rewrite <- (rev_involutive (ss_I (ssc_at r0 t) ++ _)). apply NoDup_rev. rewrite rev_app_distr. simpl.
      constructor; auto. now rewrite <- in_rev.
    - intros C. apply in_app_or in C. destruct C as [C|[C|[]]]; auto.
  Qed.
End SSC.

(** *** batches *)
Lemma batch_blocks bs c : concat (map (fun b => seq (b * bs) bs) (seq 0 c)) = seq 0 (c * bs).
Proof.
  induction c as [|c IH]; auto. rewrite seq_S, map_app, concat_app, IH. simpl. rewrite app_nil_r.
  rewrite <- seq_app. f_equal. lia.
Qed.
Lemma batches_cover N bs : (0 < N)%nat -> (0 < bs)%nat ->
  concat (map (fun se : nat * nat => let (s, e) := se in seq s (e - s)) (batches N bs)) = seq 0 N.
Proof.
  intros HN Hb. unfold batches. cbv zeta. set (nb := ((N + bs - 1) / bs)%nat).
  assert (H1 : (nb * bs <= N + bs - 1)%nat) by (unfold nb; rewrite Nat.mul_comm; apply Nat.mul_div_le; lia).
  assert (H2 : (N + bs - 1 < bs * S nb)%nat) by (apply Nat.mul_succ_div_gt; lia).
  destruct nb as [|c] eqn:E; [nia|]. rewrite map_map, seq_S, map_app, concat_app. simpl. rewrite app_nil_r, Nat.eqb_refl.
  rewrite (map_ext_in _ (fun b => seq (b * bs) bs)).
  - rewrite batch_blocks, <- seq_app. f_equal. nia.
  - intros b Hb'. apply in_seq in Hb'. destruct (Nat.eqb_spec b c); [lia|]. f_equal. lia.
Qed.
Lemma rscale_zero_any m c : rscale c (rzero m) = rzero m.
Proof. apply vec_eq; [now rewrite rscale_len|]. intros i Hi. rewrite rscale_nth, rzero_nth. ring. Qed.
Lemma lincomb_scale_any m c : forall z vs, lincomb m (rscale c z) vs = rscale c (lincomb m z vs).
Proof.
  induction z as [|a z IH]; intros [|v vs]; simpl; try (symmetry; apply rscale_zero_any).
  rewrite IH. clear IH. generalize (lincomb m z vs). clear. intros w. revert w. unfold radd, rscale.
  induction v as [|b v IHv]; intros [|e w]; simpl; auto. rewrite IHv. f_equal. ring.
Qed.
Lemma rsub_scale_any c : forall u v, rsub (rscale c u) (rscale c v) = rscale c (rsub u v).
Proof. induction u as [|a u IH]; intros [|b v]; simpl; auto. unfold rsub, rscale in *. simpl. rewrite IH. f_equal. ring. Qed.
Lemma nrm2_scale_any c v : nrm2 (rscale c v) = c * c * nrm2 v.
Proof. unfold nrm2. rewrite rdot_scale_l, rdot_scale_r. ring. Qed.
(** minimum-norm least squares commutes with scaling of the right-hand side *)
Lemma min_norm_hom lstsq m cols y c : min_norm_solver lstsq -> length y = m -> (forall v, In v cols -> length v = m) -> 0 < c ->
  lstsq cols (rscale c y) = rscale c (lstsq cols y).
Proof.
  intros [LS MN] Hy Hc Pc. set (z1 := lstsq cols (rscale c y)). set (z0 := lstsq cols y).
  assert (Hy' : length (rscale c y) = m) by now rewrite rscale_len.
  destruct (LS m cols y Hy Hc) as [L0 M0]. destruct (LS m cols (rscale c y) Hy' Hc) as [L1 M1]. fold z0 in L0, M0. fold z1 in L1, M1.
  set (rho := fun z => nrm2 (rsub (rscale c y) (lincomb m z cols))).
  assert (Sc : forall z, rho (rscale c z) = c * c * nrm2 (rsub y (lincomb m z cols))).
  { intros z. unfold rho. rewrite lincomb_scale_any, rsub_scale_any. apply nrm2_scale_any. }
  assert (U : z1 = rscale c (rscale (/ c) z1)).
  { unfold rscale. rewrite map_map. rewrite <- (map_id z1) at 1. apply map_ext. intros a. field. lra. }
  assert (Lu : length (rscale (/ c) z1) = length cols) by (rewrite rscale_len; exact L1).
  assert (Lz : length (rscale c z0) = length cols) by (rewrite rscale_len; exact L0).
  assert (E1 : rho z1 <= rho (rscale c z0)) by (apply M1; exact Lz).
  assert (E2 : rho (rscale c z0) <= rho z1).
  { rewrite U, !Sc. apply Rmult_le_compat_l; [nra|]. apply M0. exact Lu. }
  assert (E : rho z1 = rho (rscale c z0)) by lra.
  assert (N1 : nrm2 z1 <= nrm2 (rscale c z0)) by (apply (MN m cols (rscale c y)); auto).
  assert (N2 : nrm2 (rscale c z0) <= nrm2 z1).
  { rewrite U, (nrm2_scale_any c z0), (nrm2_scale_any c (rscale (/ c) z1)). apply Rmult_le_compat_l; [nra|]. apply (MN m cols y); auto. fold z0.
    rewrite U in E. rewrite !Sc in E. apply (Rmult_eq_reg_l (c * c)); [exact E|nra]. }
  set (z2 := rscale c z0) in *. apply rdot_sub_eq0; [unfold vec in *; lia|].
  set (w := rscale (1/2) (radd z1 z2)).
  assert (Lw : length w = length cols) by (unfold w; rewrite rscale_len, radd_len; unfold vec in *; lia).
  set (r1 := rsub (rscale c y) (lincomb m z1 cols)) in *. set (r2 := rsub (rscale c y) (lincomb m z2 cols)) in *.
  assert (La1 : length (lincomb m z1 cols) = m) by (apply lc_len; auto). assert (La2 : length (lincomb m z2 cols) = m) by (apply lc_len; auto).
  assert (Lr1 : length r1 = m) by (unfold r1; rewrite rsub_len; lia). assert (Lr2 : length r2 = m) by (unfold r2; rewrite rsub_len; lia).
  assert (Rw : rsub (rscale c y) (lincomb m w cols) = rscale (1/2) (radd r1 r2)).
  { unfold w. rewrite lincomb_scale_any, lc_add by (auto; unfold vec in *; lia). unfold r1, r2. veq. field. }
  assert (Mid : forall a b : vec, length a = length b -> 4 * nrm2 (rscale (1/2) (radd a b)) + rdot (rsub a b) (rsub a b) = 2 * nrm2 a + 2 * nrm2 b).
  { intros a b Hab. rewrite nrm2_scale_any. unfold nrm2. rewrite rdot_add_l, !rdot_add_r, rdot_sub_l, !rdot_sub_r, (rdot_sym b a) by auto. field. }
  assert (Ew : rho w = rho z1).
  { apply Rle_antisym; [|apply M1; exact Lw]. unfold rho at 1. rewrite Rw. pose proof (Mid r1 r2 ltac:(lia)) as Q. pose proof (rdot_pos (rsub r1 r2)).
    unfold rho in E |- *. fold r1 r2 in E. fold r1. lra. }
  assert (Nw : nrm2 z1 <= nrm2 w) by (apply (MN m cols (rscale c y)); auto).
  pose proof (Mid z1 z2 ltac:(unfold vec in *; lia)) as Q. fold w in Q. pose proof (rdot_pos (rsub z1 z2)). lra.
Qed.
Section Batch.
  Variable lstsq : list vec -> vec -> vec.
  Hypothesis MN : min_norm_solver lstsq.
  Variables (d N : nat) (Dict : list vec).
  Hypothesis HD : shape N d Dict.
  Variable i : nat.
  Hypothesis Hi : (i < N)%nat.
  Definition scale_state (c : R) (s : ssc_state) : ssc_state := SSC (ss_I s) (rscale c (ss_z s)) (rscale c (ss_r s)).
  Lemma select_scale a r : 0 < a -> ssc_select Dict i (rscale a r) = ssc_select Dict i r.
  Proof.
    intros Ha. unfold ssc_select. rewrite <- (abs_max_scale (tab (length Dict) (fun j => if Nat.eqb j i then 0 else rdot (nth j Dict []) r)) Ha).
    f_equal. unfold rscale at 2. unfold tab. rewrite map_map. apply map_ext. intros j.
    destruct (Nat.eqb j i); [ring|apply rdot_scale_r].
  Qed.
  Variable x : vec.
  Hypothesis Hx : length x = d.
  Lemma step_scale c s : 0 < c -> (forall j, In j (ss_I s) -> (j < N)%nat) ->
    ssc_step lstsq Dict i (rscale c x) (scale_state c s) = scale_state c (ssc_step lstsq Dict i x s).
  Proof.
    intros Hc B. unfold ssc_step, scale_state. cbv zeta. cbn [ss_I ss_z ss_r]. rewrite select_scale by auto.
    set (J := ss_I s ++ [ssc_select Dict i (ss_r s)]).
    assert (HJ : forall j, In j J -> (j < N)%nat) by (intros j Hj; apply in_app_or in Hj; destruct Hj as [Hj|[<-|[]]]; [auto|exact (sel_bound HD Hi (ss_r s))]).
    pose proof (@cols_len d N Dict HD J HJ) as CL.
    rewrite (@min_norm_hom lstsq d (map (fun j => nth j Dict []) J) x c MN Hx CL Hc). f_equal.
    rewrite rscale_len, lincomb_scale_any. apply rsub_scale_any.
  Qed.
  Lemma iter_bound r0 t : forall j, In j (ss_I (Nat.iter t (ssc_step lstsq Dict i x) (SSC [] [] r0))) -> (j < N)%nat.
  Proof.
    induction t as [|t IH]; [intros j []|]. intros j. simpl. unfold ssc_step at 1. cbv zeta. cbn [ss_I]. intros Hj. apply in_app_or in Hj.
    destruct Hj as [Hj|[<-|[]]]; [auto|apply (sel_bound HD Hi)].
  Qed.
  Lemma column_scale K c r0 : 0 < c ->
    ssc_column lstsq Dict K i (rscale c x) (rscale c r0) = scale_state c (ssc_column lstsq Dict K i x r0).
  Proof.
    intros Hc. unfold ssc_column. change (SSC [] [] (rscale c r0)) with (scale_state c (SSC [] [] r0)).
    induction (Nat.max 1 K) as [|t IH]; auto. simpl. rewrite IH. apply step_scale; auto. apply iter_bound.
  Qed.
  (** the first iteration only uses the initial residual to select, so its scale is irrelevant *)
  Lemma column_r0 K a r0 : 0 < a -> ssc_column lstsq Dict K i x (rscale a r0) = ssc_column lstsq Dict K i x r0.
  Proof.
    intros Ha. unfold ssc_column. destruct (Nat.max 1 K) as [|t] eqn:E; [lia|]. clear E.
    assert (S1 : forall t, Nat.iter (S t) (ssc_step lstsq Dict i x) (SSC [] [] (rscale a r0)) = Nat.iter (S t) (ssc_step lstsq Dict i x) (SSC [] [] r0)).
    { intros t0. induction t0 as [|u IH].
      - simpl. unfold ssc_step. cbv zeta. cbn [ss_I ss_r]. now rewrite select_scale.
      - etransitivity; [apply (f_equal (ssc_step lstsq Dict i x) IH)|reflexivity]. }
    apply S1.
  Qed.
End Batch.
Lemma unit_shape d X : shape (length X) d X -> shape (length X) d (unit_cols X).
Proof.
  intros [_ H]. split; [apply map_length|]. intros r Hr. unfold unit_cols in Hr. apply in_map_iff in Hr. destruct Hr as [v [<- Hv]]. rewrite rscale_len. auto.
Qed.
Lemma unit_nth X i : (i < length X)%nat -> nth i (unit_cols X) [] = rscale (/ nrm (nth i X [])) (nth i X []).
Proof. intros Hi. unfold unit_cols. now rewrite (nth_map_lt _ _ _ ([] : vec)). Qed.
Lemma batch_scaled lstsq d X K bs i : min_norm_solver lstsq -> shape (length X) d X -> (forall x, In x X -> 0 < nrm x) -> (0 < bs)%nat -> (i < length X)%nat ->
  nth i (batch_build_representation_omp lstsq X K bs) (SSC [] [] []) =
  scale_state (/ nrm (nth i X [])) (nth i (build_representation_omp lstsq X K) (SSC [] [] [])).
Proof.
  intros MN HX Hp Hb Hi. unfold batch_build_representation_omp, build_representation_omp. cbv zeta. set (Xn := unit_cols X).
  set (f := fun i => ssc_column lstsq Xn K i (nth i Xn []) (nth i Xn [])).
  assert (E : concat (map (fun se : nat * nat => let (s, e) := se in map f (seq s (e - s))) (batches (length X) bs)) = map f (seq 0 (length X))).
  { rewrite <- (@batches_cover (length X) bs) by lia. rewrite concat_map, map_map. f_equal. apply map_ext. intros [s e]. reflexivity. }
  match goal with |- nth i ?l _ = _ => change l with (concat (map (fun se : nat * nat => let (s, e) := se in map f (seq s (e - s))) (batches (length X) bs))) end.
  rewrite E. rewrite !(nth_map_lt _ _ _ 0%nat) by (rewrite seq_length; auto). rewrite !seq_nth by auto. rewrite Nat.add_0_l. unfold f.
  pose proof (unit_shape HX) as HXn. fold Xn in HXn.
  assert (Ei : nth i Xn [] = rscale (/ nrm (nth i X [])) (nth i X [])) by (apply unit_nth; auto).
  assert (P : 0 < / nrm (nth i X [])) by (apply Rinv_0_lt_compat, Hp, nth_In; auto).
  assert (Li : length (nth i X []) = d) by (apply (shape_row HX); auto).
  rewrite Ei. rewrite (column_scale MN HXn Hi _ Li) by auto. f_equal. symmetry. eapply column_r0; eauto.
Qed.
Lemma batch_len lstsq X K bs : (0 < bs)%nat -> (0 < length X)%nat -> length (batch_build_representation_omp lstsq X K bs) = length X.
Proof.
  intros Hb HX. unfold batch_build_representation_omp. cbv zeta. set (f := fun i => ssc_column lstsq (unit_cols X) K i (nth i (unit_cols X) []) (nth i (unit_cols X) [])).
  match goal with |- length ?l = _ => replace l with (map f (seq 0 (length X))) end; [now rewrite map_length, seq_length|].
  rewrite <- (@batches_cover (length X) bs) at 1 by auto. rewrite concat_map, map_map. f_equal. apply map_ext. intros [s e]. reflexivity.
Qed.

(** *** results about the whole table *)
Section Table.
  Variable lstsq : list vec -> vec -> vec.
  Hypothesis LS : least_squares_solver lstsq.
  Variables (d : nat) (X : list vec) (i : nat).
  Hypothesis HX : shape (length X) d X.
  Hypothesis Hi : (i < length X)%nat.
  Notation col K := (nth i (build_representation_omp lstsq X K) (SSC [] [] [])).
  Lemma col_at K : col K = ssc_at lstsq (unit_cols X) i (nth i X []) (nth i (unit_cols X) []) (Nat.max 1 K).
  Proof. unfold build_representation_omp. cbv zeta. rewrite (nth_map_lt _ _ _ 0%nat) by now rewrite seq_length. now rewrite seq_nth. Qed.
  Lemma col_ok K : ssc_ok d (length X) (unit_cols X) (nth i X []) (Nat.max 1 K) (col K).
  Proof.
    rewrite col_at. destruct (Nat.max 1 K) as [|t] eqn:E; [lia|]. apply at_ok; auto; [now apply unit_shape|apply (shape_row HX); auto].
  Qed.
  Lemma col_energy K : (1 <= K)%nat -> nrm2 (ss_r (col (S K))) <= nrm2 (ss_r (col K)).
  Proof.
    intros HK. rewrite !col_at, !Nat.max_r by lia. apply (@at_energy lstsq LS d (length X)); auto; [now apply unit_shape|apply (shape_row HX); auto].
  Qed.
  Lemma unit_corr j r : (j < length X)%nat -> rdot (nth j X []) r <> 0 -> rdot (nth j (unit_cols X) []) r <> 0.
  Proof.
    intros Hj H. rewrite unit_nth, rdot_scale_l by auto.
    assert (nrm (nth j X []) <> 0).
    { intros E. apply nrm_eq0 in E. apply H. rewrite E. apply rdot_zero_l. }
    apply Rmult_integral_contrapositive. split; auto. now apply Rinv_neq_0_compat.
  Qed.
  Lemma col_fresh K : (1 <= K)%nat -> 
    (exists j, (j < length X)%nat /\ j <> i /\ rdot (nth j X []) (nth i X []) <> 0) ->
    (forall u, (1 <= u < K)%nat -> exists j, (j < length X)%nat /\ j <> i /\ rdot (nth j X []) (ss_r (col u)) <> 0) ->
    NoDup (ss_I (col K)) /\ ~ In i (ss_I (col K)).
  Proof.
    intros HK H0 H. rewrite col_at, Nat.max_r by lia.
    apply (@at_fresh lstsq LS d (length X)); auto; [now apply unit_shape|apply (shape_row HX); auto|].
    intros u Hu. destruct u as [|u].
    - destruct H0 as [j [Hj [Hne C]]]. exists j. split; [auto|]. split; [auto|]. unfold ssc_at. simpl. rewrite (unit_nth _ Hi), rdot_scale_r.
      apply Rmult_integral_contrapositive. split; [|now apply unit_corr].
      apply Rinv_neq_0_compat. intros E. apply nrm_eq0 in E. apply C. rewrite E. apply rdot_zero_r.
    - destruct (H (S u) ltac:(lia)) as [j [Hj [Hne C]]]. exists j. split; [auto|]. split; [auto|].
      rewrite col_at, Nat.max_r in C by lia. now apply unit_corr.
  Qed.
End Table.

(** *** counterexamples *)
Lemma nrm_1 a : nrm [a] = Rabs a.
Proof. unfold nrm. simpl. replace (a * a + 0) with (Rsqr a) by (unfold Rsqr; ring). apply sqrt_Rsqr_abs. Qed.
Lemma nrm_e1 : nrm [1; 0] = 1.
Proof. unfold nrm. simpl. replace (1 * 1 + (0 * 0 + 0)) with 1 by ring. apply sqrt_1. Qed.
Lemma nrm_e2 : nrm [0; 1] = 1.
Proof. unfold nrm. simpl. replace (0 * 0 + (1 * 1 + 0)) with 1 by ring. apply sqrt_1. Qed.
Lemma self_selected lstsq : ss_I (nth 0 (build_representation_omp lstsq [[1; 0]; [0; 1]] 1) (SSC [] [] [])) = [0%nat].
Proof.
  unfold build_representation_omp, unit_cols. cbn [map]. rewrite nrm_e1, nrm_e2.
  cbn [seq length map nth]. unfold ssc_column. simpl. unfold ssc_step. cbn [ss_I app ss_r]. f_equal.
  unfold ssc_select, abs_max_idx, tab. cbn [length seq map Nat.eqb nth rscale rdot].
  cbn [argmax argmax_from]. match goal with |- context [Rltb ?a ?b] => destruct (Rltb_spec a b) as [H|H] end; auto.
  exfalso. replace (/ 1 * 0 * (/ 1 * 1) + (/ 1 * 1 * (/ 1 * 0) + 0)) with 0 in H by ring. lra.
Qed.
Lemma batch_differs lstsq : least_squares_solver lstsq ->
  ss_z (nth 0 (build_representation_omp lstsq [[2]; [2]] 1) (SSC [] [] [])) = [2] /\
  ss_z (nth 0 (batch_build_representation_omp lstsq [[2]; [2]] 1 2) (SSC [] [] [])) = [1].
Proof.
  intros LS.
  assert (Sel : forall r, ssc_select [[/ 2 * 2]; [/ 2 * 2]] 0 [r] = 1%nat \/ r = 0).
  { intros r. destruct (Req_dec r 0) as [|Hr]; auto. left. unfold ssc_select, abs_max_idx, tab. cbn [length seq map Nat.eqb nth rdot argmax argmax_from].
    rewrite Rabs_R0. replace (/ 2 * 2 * r + 0) with r by field. pose proof (Rabs_pos_lt r Hr). destruct (Rltb_spec 0 (Rabs r)); [auto|easy]. }
  assert (Sol : forall b, lstsq [[/ 2 * 2]] [b] = [b]).
  { intros b. destruct (LS 1%nat [[/ 2 * 2]] [b] eq_refl) as [L M]; [intros c [<-|[]]; reflexivity|].
    destruct (lstsq [[/ 2 * 2]] [b]) as [|z [|]]; try discriminate. specialize (M [b] eq_refl). unfold nrm2 in M. cbn in M.
    f_equal. replace (b - (b * (/ 2 * 2) + 0)) with 0 in M by field. replace (b - (z * (/ 2 * 2) + 0)) with (b - z) in M by field.
    pose proof (Rle_0_sqr (b - z)) as Q. unfold Rsqr in Q. assert (Z : (b - z) * (b - z) = 0) by lra. apply Rmult_integral in Z as [Z|Z]; lra. }
  assert (N2 : nrm [2] = 2) by (rewrite nrm_1; apply Rabs_right; lra).
  split.
  - unfold build_representation_omp, unit_cols. cbn [map]. rewrite !N2. cbn [seq length map nth rscale].
    unfold ssc_column. simpl. unfold ssc_step. cbn [ss_I app ss_r ss_z]. destruct (Sel (/ 2 * 2)) as [E|E]; [|exfalso; lra]. unfold vec in *. rewrite E.
    cbn [map nth]. apply Sol.
  - unfold batch_build_representation_omp, unit_cols. cbn [map length]. rewrite !N2.
    replace (batches 2 2) with [(0, 2)]%nat by reflexivity. cbn [map concat seq Nat.sub app nth rscale].
    unfold ssc_column. simpl. unfold ssc_step. cbn [ss_I app ss_r ss_z]. destruct (Sel (/ 2 * 2)) as [E|E]; [|exfalso; lra]. unfold vec in *. rewrite E.
    cbn [map nth]. rewrite Sol. f_equal. field.
Qed.
