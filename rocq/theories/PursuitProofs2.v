From Coq Require Import List Arith Bool Lia Reals Lra Permutation.
From Verif Require Import Scalar Vec RVec RMat Loop LoopLemmas OptSpec OptModel OptProofs OptProofs2 SortedL1Model SortedL1Proofs CGModel SlsModel SelModel SelSpec SelProofs DictModel DictSpec DictProofs SolverSpec CGProofs PursuitModel PursuitSpec PursuitProofs.
Import ListNotations.
Set Implicit Arguments.
Local Open Scope R_scope.

(** *** triangular solves *)
Fixpoint chol_wf (L : chol) : Prop :=
  match L with [] => True | (w, s) :: L => length w = length L /\ 0 < s /\ chol_wf L end.
Lemma chol_len L : length (chol_mat L) = length L.
Proof. induction L as [|[w s] L IH]; auto. cbn [chol_mat length]. rewrite <- IH. etransitivity; [apply app_length|]. rewrite map_length. cbn [length]. apply Nat.add_1_r. Qed.
Lemma chol_rows L : chol_wf L -> forall r, In r (chol_mat L) -> length r = length L.
Proof.
  induction L as [|[w s] L IH]; intros H r Hr; [easy|]. cbn [chol_wf] in H. destruct H as (Lw & _ & W).
  cbn [chol_mat] in Hr. apply in_app_or in Hr as [Hr|[<-|[]]].
  - apply in_map_iff in Hr as [q [<- Hq]]. rewrite app_length, (IH W q Hq). simpl. lia.
  - rewrite app_length. simpl. lia.
Qed.
Lemma mv_snoc (M : mat) w s x t : (forall r, In r M -> length r = length x) -> length w = length x ->
  mv (map (fun r => r ++ [0]) M ++ [w ++ [s]]) (x ++ [t]) = mv M x ++ [rdot w x + s * t].
Proof.
  intros H Lw. unfold mv. rewrite map_app, map_map. f_equal.
  - apply map_ext_in. intros r Hr. rewrite rdot_app by auto. simpl. ring.
  - simpl. rewrite rdot_app by auto. simpl. f_equal. ring.
Qed.
Lemma snoc_split (b : vec) k : length b = S k -> b = firstn k b ++ [b@k].
Proof.
  intros H. rewrite <- (firstn_skipn k b) at 1. f_equal.
  assert (E : length (skipn k b) = 1%nat) by (rewrite skipn_length; lia).
  assert (N : b@k = (skipn k b)@0%nat).
  { rewrite <- (firstn_skipn k b) at 1. rewrite app_nth2; rewrite firstn_length; [|lia]. f_equal. lia. }
  rewrite N. destruct (skipn k b) as [|c [|d l]]; simpl in *; try lia. reflexivity.
Qed.
Lemma fsub_len L : forall b, length (solve_Lx_b L b) = length L.
Proof. induction L as [|[w s] L IH]; intros b; simpl; auto. rewrite app_length, IH. simpl. lia. Qed.
Lemma bsub_len L : forall b, length (solve_LTx_b L b) = length L.
Proof. induction L as [|[w s] L IH]; intros b; simpl; auto. rewrite app_length, IH. simpl. lia. Qed.
Lemma fsub_ok L : chol_wf L -> forall b, length b = length L -> mv (chol_mat L) (solve_Lx_b L b) = b.
Proof.
  induction L as [|[w s] L IH]; intros W b Lb.
  - destruct b; [reflexivity|discriminate].
  - cbn [chol_wf] in W. destruct W as (Lw & Hs & W). cbn [chol_mat solve_Lx_b]. simpl length in Lb.
    rewrite mv_snoc by (rewrite fsub_len; auto; now apply chol_rows).
    rewrite IH; auto. 2:{ rewrite firstn_length. lia. }
    transitivity (firstn (length L) b ++ [b@(length L)]); [|symmetry; exact (snoc_split b Lb)]. f_equal. f_equal. field. lra.
Qed.
Lemma bsub_ok L : chol_wf L -> forall b z, length b = length L -> length z = length L ->
  rdot (mv (chol_mat L) z) (solve_LTx_b L b) = rdot z b.
Proof.
  induction L as [|[w s] L IH]; intros W b z Lb Lz.
  - destruct z; [reflexivity|discriminate].
  - cbn [chol_wf] in W. destruct W as (Lw & Hs & W). cbn [chol_mat solve_LTx_b]. simpl length in Lb, Lz.
    assert (Lz0 : length (firstn (length L) z) = length L) by (rewrite firstn_length; lia).
    assert (Lb0 : length (firstn (length L) b) = length L) by (rewrite firstn_length; lia).
    transitivity (rdot (firstn (length L) z ++ [z@(length L)]) (firstn (length L) b ++ [b@(length L)]));
      [|now rewrite <- (snoc_split z Lz), <- (snoc_split b Lb)].
    rewrite (snoc_split z Lz) at 1. rewrite mv_snoc; [|rewrite Lz0; now apply chol_rows|congruence].
    rewrite rdot_app by (rewrite mv_len, chol_len, bsub_len; auto). rewrite rdot_app by congruence.
    rewrite IH; auto. 2:{ rewrite rsub_len, rscale_len. lia. }
    rewrite rdot_sub_r by (rewrite rscale_len; lia). rewrite rdot_scale_r, (rdot_sym w). simpl. field. lra.
Qed.
(** the solution of L L^T x = b, row by row *)
Lemma spd_ok L : chol_wf L -> forall b i, length b = length L -> (i < length L)%nat ->
  rdot (map (fun r => rdot r (nth i (chol_mat L) [])) (chol_mat L)) (solve_spd_chol L b) = b@i.
Proof.
  intros W b i Lb Hi. unfold solve_spd_chol. change (map _ (chol_mat L)) with (mv (chol_mat L) (nth i (chol_mat L) [])).
  assert (Lr : length (nth i (chol_mat L) []) = length L) by (apply chol_rows; auto; apply nth_In; now rewrite chol_len).
  rewrite bsub_ok by (auto; apply fsub_len). rewrite <- mv_nth, fsub_ok; auto.
Qed.

Section OMP.
  Variables (m : nat) (D : dictionary).
  Hypothesis V : valid_dict m D.
  Hypothesis U : forall i, (i < d_n D)%nat -> nrm2 (d_atom D i) = 1.
  Hypothesis Hn : (0 < d_n D)%nat.
  Definition at_ (J : list nat) (i : nat) : vec := d_atom D (nth i J 0%nat).
  Definition gram_ok (L : chol) (J : list nat) : Prop :=
    length L = length J /\ chol_wf L /\
    forall i j, (i < length J)%nat -> (j < length J)%nat ->
      rdot (nth i (chol_mat L) []) (nth j (chol_mat L) []) = rdot (at_ J i) (at_ J j).
  Definition in_range (J : list nat) : Prop := forall i, In i J -> (i < d_n D)%nat.

  Lemma zero_map J r x : (forall i, In i J -> rdot (d_atom D i) r = 0) -> rdot x (map (fun j => rdot (d_atom D j) r) J) = 0.
  Proof.
    revert x. induction J as [|i J IH]; intros [|a x] H; simpl; auto. rewrite (H i) by now left.
    rewrite IH by (intros; apply H; now right). ring.
  Qed.
  Lemma spd_orth L J y : gram_ok L J -> in_range J -> length y = m ->
    let x := solve_spd_chol L (map (fun i => rdot (d_atom D i) y) J) in
    length x = length J /\ forall i, In i J -> rdot (d_atom D i) (rsub y (combine_on m D J x)) = 0.
  Proof.
    intros (LL & W & G) HJ Ly x. split; [unfold x, solve_spd_chol; now rewrite bsub_len|].
    intros a Ha. apply (In_nth _ _ 0%nat) in Ha as (i & Hi & <-). change (d_atom D (nth i J 0%nat)) with (at_ J i).
    assert (La : length (at_ J i) = m) by (apply (atom_len V), HJ, nth_In; auto).
    rewrite rdot_sub_r by (rewrite (synth_len V); auto). rewrite (rdot_sym _ (combine_on _ _ _ _)).
    unfold combine_on. rewrite lc_dot by (now apply (atoms_len V)). rewrite map_map.
    rewrite (rdot_sym x).
    replace (map (fun j => rdot (d_atom D j) (at_ J i)) J) with (map (fun r => rdot r (nth i (chol_mat L) [])) (chol_mat L)).
    - unfold x. rewrite spd_ok by (auto; try lia; rewrite map_length; auto).
      rewrite nth_indep with (d' := rdot (d_atom D 0%nat) y) by (now rewrite map_length).
      rewrite (map_nth (fun i => rdot (d_atom D i) y)). unfold at_. ring.
    - apply nth_ext with (d := 0) (d' := 0); [rewrite !map_length, chol_len; auto|].
      rewrite map_length, chol_len. intros j Hj.
      rewrite nth_indep with (d' := rdot [] (nth i (chol_mat L) [])) by (rewrite map_length, chol_len; auto).
      rewrite (map_nth (fun r => rdot r (nth i (chol_mat L) []))).
      rewrite (nth_indep _ 0 (rdot (d_atom D 0%nat) (at_ J i))) by (rewrite map_length; lia).
      rewrite (map_nth (fun j => rdot (d_atom D j) (at_ J i))). rewrite G by lia. reflexivity.
  Qed.
  (** 1 - w.w is the squared distance of the new atom from the span *)
  Lemma pivot L J a : gram_ok L J -> in_range J -> (a < d_n D)%nat ->
    let v := map (fun j => rdot (d_atom D j) (d_atom D a)) J in
    let w := solve_Lx_b L v in
    let q := rsub (d_atom D a) (combine_on m D J (solve_spd_chol L v)) in
    1 - rdot w w = nrm2 q /\ (forall i, In i J -> rdot (d_atom D i) q = 0) /\ length q = m /\ rdot (d_atom D a) q = nrm2 q.
  Proof.
    intros HG HJ Ha v w q. pose proof (atom_len V Ha) as La.
    destruct (spd_orth _ HG HJ La) as [Lx Ox]. fold v in Lx, Ox. fold q in Ox.
    pose proof HG as (LL & W & G).
    assert (Lq : length q = m) by (unfold q; rewrite rsub_len, (synth_len V), La by auto; lia).
    assert (Lv : length v = length L) by (unfold v; rewrite map_length; auto).
    assert (Q : rdot (combine_on m D J (solve_spd_chol L v)) q = 0).
    { unfold combine_on. rewrite lc_dot by (now apply (atoms_len V)). rewrite map_map.
      now apply zero_map. }
    assert (E : rdot (d_atom D a) q = nrm2 q).
    { unfold nrm2. unfold q at 2. rewrite rdot_sub_l by (rewrite (synth_len V); auto). rewrite Q. ring. }
    split; [|auto]. rewrite <- E. unfold q. rewrite rdot_sub_r by (rewrite (synth_len V); auto).
    specialize (U Ha). unfold nrm2 in U. rewrite U. f_equal. rewrite (rdot_sym (d_atom D a)).
    unfold combine_on. rewrite lc_dot by (now apply (atoms_len V)). rewrite map_map. fold v.
    rewrite (rdot_sym _ v). unfold solve_spd_chol. fold w. rewrite <- (fsub_ok L W v Lv) at 1. fold w.
    symmetry. apply bsub_ok; auto; apply fsub_len.
  Qed.
  Lemma gram_update L J a L' : gram_ok L J -> in_range J -> (a < d_n D)%nat ->
    gram_chol_update L (map (fun j => rdot (d_atom D j) (d_atom D a)) J) = Some L' ->
    gram_ok L' (J ++ [a]) /\ ~ In a J.
  Proof.
    intros HG HJ Ha. unfold gram_chol_update. destruct (pivot HG HJ Ha) as (P1 & P2 & P3 & P4).
    set (v := map _ J) in *. set (w := solve_Lx_b L v) in *. set (q := rsub _ _) in *.
    destruct (Rltb_spec 0 (1 - rdot w w)) as [Hp|]; [|discriminate]. intros [= <-].
    pose proof HG as (LL & W & G).
    assert (Lv : length v = length L) by (unfold v; rewrite map_length; auto).
    assert (Lw : length w = length L) by apply fsub_len.
    split.
    - split; [simpl; rewrite app_length; simpl; lia|]. split; [cbn [chol_wf]; repeat split; auto; now apply sqrt_lt_R0|].
      assert (Mw : forall i, (i < length J)%nat -> rdot (nth i (chol_mat L) []) w = rdot (at_ J i) (d_atom D a)).
      { intros i Hi. rewrite <- mv_nth. unfold w. rewrite fsub_ok by auto. unfold v.
        rewrite nth_indep with (d' := rdot (d_atom D 0%nat) (d_atom D a)) by (now rewrite map_length).
        apply (map_nth (fun j => rdot (d_atom D j) (d_atom D a))). }
      assert (R1 : forall i, (i < length J)%nat -> nth i (chol_mat ((w, sqrt (1 - rdot w w)) :: L)) [] = nth i (chol_mat L) [] ++ [0]).
      { intros i Hi. cbn [chol_mat]. rewrite app_nth1 by (rewrite map_length, chol_len; lia).
        rewrite nth_indep with (d' := [] ++ [0]) by (rewrite map_length, chol_len; lia). apply (map_nth (fun r => r ++ [0])). }
      assert (R2 : nth (length J) (chol_mat ((w, sqrt (1 - rdot w w)) :: L)) [] = w ++ [sqrt (1 - rdot w w)]).
      { cbn [chol_mat]. rewrite app_nth2 by (rewrite map_length, chol_len; lia). rewrite map_length, chol_len, LL, Nat.sub_diag. reflexivity. }
      assert (RL : forall i, (i < length J)%nat -> length (nth i (chol_mat L) []) = length L).
      { intros i Hi. apply chol_rows; auto. apply nth_In. rewrite chol_len. lia. }
      assert (A1 : forall i, (i < length J)%nat -> at_ (J ++ [a]) i = at_ J i) by (intros i Hi; unfold at_; now rewrite app_nth1).
      assert (A2 : at_ (J ++ [a]) (length J) = d_atom D a) by (unfold at_; now rewrite app_nth2, Nat.sub_diag by lia).
      rewrite app_length. simpl length. intros i j Hi Hj.
      destruct (Nat.eq_dec i (length J)) as [->|], (Nat.eq_dec j (length J)) as [->|].
      + rewrite R2, A2. rewrite rdot_app by auto. cbn [rdot]. rewrite Rplus_0_r, sqrt_sqrt by lra. specialize (U Ha). unfold nrm2 in U. rewrite U. ring.
      + rewrite R2, A2, R1, A1 by lia. rewrite rdot_app by (rewrite RL; lia). cbn [rdot]. rewrite rdot_sym, Mw, rdot_sym by lia. ring.
      + rewrite R2, A2, R1, A1 by lia. rewrite rdot_app by (rewrite RL; lia). cbn [rdot]. rewrite Mw by lia. ring.
      + rewrite !R1, !A1 by lia. rewrite rdot_app by (rewrite !RL; lia). cbn [rdot]. rewrite G by lia. ring.
    - intros C. specialize (P2 a C). lra.
  Qed.
  Lemma gram_no_breakdown L J a r : gram_ok L J -> in_range J -> (a < d_n D)%nat -> length r = m ->
    (forall i, In i J -> rdot (d_atom D i) r = 0) -> rdot (d_atom D a) r <> 0 ->
    gram_chol_update L (map (fun j => rdot (d_atom D j) (d_atom D a)) J) <> None.
  Proof.
    intros HG HJ Ha Lr Or Hr. unfold gram_chol_update. destruct (pivot HG HJ Ha) as (P1 & P2 & P3 & P4).
    set (v := map _ J) in *. set (w := solve_Lx_b L v) in *. set (q := rsub _ _) in *.
    destruct (Rltb_spec 0 (1 - rdot w w)) as [|Hp]; [discriminate|]. exfalso. apply Hr.
    assert (Z : nrm2 q = 0) by (pose proof (rdot_pos q); unfold nrm2 in *; lra).
    apply rdot_eq0 in Z. rewrite P3 in Z. unfold q in Z.
    assert (E : d_atom D a = combine_on m D J (solve_spd_chol L v)).
    { apply rdot_sub_eq0; [now rewrite (atom_len V Ha), (synth_len V)|]. rewrite Z. apply rdot_zero_l. }
    rewrite E. unfold combine_on. rewrite lc_dot by (now apply (atoms_len V)). rewrite map_map.
    now apply zero_map.
  Qed.

  (** *** the invariant *)
  Variable y : vec.
  Hypothesis Ly : length y = m.
  Record omp_ok (s : omp_state) : Prop := {
    ok_range : in_range (om_I s);
    ok_nodup : NoDup (om_I s);
    ok_xlen : length (om_x s) = length (om_I s);
    ok_gram : gram_ok (om_L s) (om_I s);
    ok_r : om_r s = rsub y (combine_on m D (om_I s) (om_x s));
    ok_orth : forall i, In i (om_I s) -> rdot (d_atom D i) (om_r s) = 0;
    ok_it : om_it s = length (om_I s) }.
  Lemma ok_rlen s : omp_ok s -> length (om_r s) = m.
  Proof. intros H. rewrite (ok_r H), rsub_len, (synth_len V) by apply (ok_range H). lia. Qed.
  Lemma idx_lt r : length r = m -> (abs_max_idx (d_trans D r) < d_n D)%nat.
  Proof. intros. unfold abs_max_idx. eapply best_lt; eauto. Qed.
  Lemma omp_first_ok : omp_ok (omp_first D y) /\ om_rn (omp_first D y) = nrm2 (om_r (omp_first D y)) /\
    nrm2 (om_r (omp_first D y)) = nrm2 y - rdot (d_atom D (abs_max_idx (d_trans D y))) y * rdot (d_atom D (abs_max_idx (d_trans D y))) y.
  Proof.
    pose proof (idx_lt y Ly) as Hi. unfold omp_first. cbn [om_I om_x om_L om_r om_rn om_it]. set (i := abs_max_idx _) in *.
    set (c := rdot (d_atom D i) y). pose proof (atom_len V Hi) as La. specialize (U Hi). unfold nrm2 in U.
    assert (Eg : gather (d_trans D y) [i] = [c]) by (cbn [gather map]; now rewrite (trans_nth V)).
    assert (Es : synth D (length y) [i] [c] = rscale c (d_atom D i)) by (unfold synth; rewrite Ly; now apply lc_single).
    rewrite Eg, Es.
    split; [constructor; cbn [om_I om_x om_L om_r om_it]|split; [reflexivity|]].
    - intros j [<-|[]]; auto.
    - constructor; [easy|constructor].
    - reflexivity.
    - split; [reflexivity|]. split; [simpl; repeat split; auto; lra|]. intros a b Ha Hb. simpl in Ha, Hb.
      assert (a = 0%nat) by lia. assert (b = 0%nat) by lia. subst a b. unfold at_. simpl. rewrite U. ring.
    - rewrite <- Es, Ly. reflexivity.
    - intros j [<-|[]]. rewrite rdot_sub_r by (rewrite rscale_len; lia). rewrite rdot_scale_r, U. unfold c. ring.
    - reflexivity.
    - unfold nrm2. rewrite rdot_sub_l, !rdot_sub_r, !rdot_scale_l, !rdot_scale_r by (rewrite rscale_len; lia).
      rewrite U, (rdot_sym y (d_atom D i)). fold c. ring.
  Qed.
  (** the residual is the smallest over the span of the selected atoms *)
  Lemma omp_min s z : omp_ok s -> length z = length (om_I s) -> nrm2 (om_r s) <= nrm2 (rsub y (combine_on m D (om_I s) z)).
  Proof.
    intros H Lz. set (J := om_I s) in *. set (x := om_x s). pose proof (ok_range H) as HR. fold J in HR.
    assert (E : rsub y (combine_on m D J z) = radd (om_r s) (combine_on m D J (rsub x z))).
    { unfold combine_on. rewrite lc_sub; [|now apply (atoms_len V)|unfold x; now rewrite (ok_xlen H)].
      rewrite (ok_r H). fold J x. unfold combine_on. pose proof (lc_len x _ (atoms_len V J HR)) as L1.
      pose proof (lc_len z _ (atoms_len V J HR)) as L2. veq. }
    assert (O : rdot (combine_on m D J (rsub x z)) (om_r s) = 0).
    { unfold combine_on. rewrite lc_dot by (now apply (atoms_len V)). rewrite map_map.
      apply zero_map, (ok_orth H). }
    unfold nrm2. rewrite E. pose proof (ok_rlen H) as Lr. pose proof (synth_len V J (rsub x z) HR) as L3.
    rewrite rdot_add_l, !rdot_add_r by lia. rewrite (rdot_sym (om_r s) (combine_on _ _ _ _)), O.
    pose proof (rdot_pos (combine_on m D J (rsub x z))). lra.
  Qed.
  Lemma omp_step_ok s s' : omp_ok s -> omp_step D y s = Some s' ->
    let i := abs_max_idx (d_trans D (om_r s)) in
    omp_ok s' /\ om_rn s' = nrm2 (om_r s') /\ om_I s' = om_I s ++ [i] /\
    nrm2 (om_r s') <= nrm2 (om_r s) - rdot (d_atom D i) (om_r s) * rdot (d_atom D i) (om_r s).
  Proof.
    intros H B i. pose proof (idx_lt _ (ok_rlen H)) as Hi. fold i in Hi. unfold omp_step in B. fold i in B.
    destruct (gram_chol_update _ _) as [L'|] eqn:EL; [|discriminate].
    destruct (gram_update (ok_gram H) (ok_range H) Hi EL) as [G' NI].
    assert (HR : in_range (om_I s ++ [i])).
    { intros j Hj. apply in_app_or in Hj as [Hj|[<-|[]]]; auto. now apply (ok_range H). }
    assert (Eg : gather (d_trans D y) (om_I s ++ [i]) = map (fun i => rdot (d_atom D i) y) (om_I s ++ [i])).
    { unfold gather. apply map_ext_in. intros j Hj. apply (trans_nth V); auto. }
    rewrite Eg in B. destruct (spd_orth _ G' HR Ly) as [Lx Ox]. set (x := solve_spd_chol _ _) in *.
    assert (O' : omp_ok s').
    { injection B as <-. constructor; cbn [om_I om_x om_L om_r om_it]; auto.
      - apply (Permutation_NoDup (Permutation_cons_append (om_I s) i)). constructor; [exact NI|apply (ok_nodup H)].
      - unfold synth. rewrite Ly. reflexivity.
      - intros j Hj. unfold synth. rewrite Ly. now apply Ox.
      - rewrite (ok_it H), app_length. simpl. lia. }
    split; auto. injection B as <-. cbn [om_I om_r om_rn]. split; [reflexivity|]. split; [reflexivity|].
    set (c := rdot (d_atom D i) (om_r s)).
    refine (Rle_trans _ _ _ (@omp_min _ (om_x s ++ [c]) O' _) _); cbn [om_I].
    { rewrite !app_length, (ok_xlen H). reflexivity. }
    pose proof (atom_len V Hi) as La. pose proof (ok_rlen H) as Lr.
    assert (E : rsub y (combine_on m D (om_I s ++ [i]) (om_x s ++ [c])) = rsub (om_r s) (rscale c (d_atom D i))).
    { unfold combine_on. rewrite map_app, lc_app; [|rewrite <- map_app; now apply (atoms_len V)|rewrite map_length; apply (ok_xlen H)].
      cbn [map]. rewrite lc_single by auto. rewrite (ok_r H). unfold combine_on.
      pose proof (lc_len (om_x s) _ (atoms_len V _ (ok_range H))) as L1. veq. }
    rewrite E. unfold nrm2. rewrite rdot_sub_l, !rdot_sub_r, !rdot_scale_l, !rdot_scale_r by (rewrite rscale_len; lia).
    rewrite (rdot_sym (om_r s) (d_atom D i)). fold c. specialize (U Hi). unfold nrm2 in U. rewrite U. lra.
  Qed.
  Lemma omp_step_total s : omp_ok s -> rdot (d_atom D (abs_max_idx (d_trans D (om_r s)))) (om_r s) <> 0 -> omp_step D y s <> None.
  Proof.
    intros H Hc. unfold omp_step. pose proof (idx_lt _ (ok_rlen H)) as Hi.
    pose proof (gram_no_breakdown _ (ok_gram H) (ok_range H) Hi (ok_rlen H) (ok_orth H) Hc) as B.
    destruct (gram_chol_update _ _); [discriminate|contradiction].
  Qed.
  Lemma omp_steps_ok k : forall s, omp_steps D y k = Some s -> omp_ok s /\ om_rn s = nrm2 (om_r s) /\ om_it s = S k.
  Proof.
    induction k as [|k IH]; simpl; intros s E.
    - injection E as <-. destruct omp_first_ok as (H1 & H2 & _). auto.
    - destruct (omp_steps D y k) as [s0|]; [|discriminate]. destruct (IH s0 eq_refl) as (H1 & H2 & H3).
      destruct (omp_step_ok H1 E) as (G1 & G2 & G3 & _). split; auto. split; auto.
      rewrite (ok_it G1), G3, app_length, <- (ok_it H1), H3. simpl. lia.
  Qed.
End OMP.
