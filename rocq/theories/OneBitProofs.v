From Coq Require Import List Arith Bool Lia Reals Lra Permutation.
From Verif Require Import Scalar Vec RVec RMat Loop LoopLemmas OptSpec OptModel OptProofs SortedL1Model SortedL1Proofs SelModel SelSpec SelProofs SolverSpec PursuitModel PursuitSpec PursuitProofs PursuitProofs2 PursuitProofs4 OneBitModel OneBitSpec.
Import ListNotations.
Set Implicit Arguments.
Local Open Scope R_scope.

Lemma sign_scale c a : 0 < c -> sign (c * a) = sign a.
Proof.
  intros Hc. unfold sign. destruct (Rltb_spec 0 a) as [H|H].
  - assert (0 < c * a) by now apply Rmult_lt_0_compat. destruct (Rltb_spec 0 (c * a)); lra.
  - destruct (Rltb_spec 0 (c * a)) as [H1|H1]; [exfalso; apply H; apply Rmult_lt_reg_l with c; lra|].
    destruct (Rltb_spec a 0) as [H2|H2]; destruct (Rltb_spec (c * a) 0) as [H3|H3]; auto; exfalso.
    + apply H3. assert (0 < c * - a) by (apply Rmult_lt_0_compat; lra). lra.
    + apply H2. apply Rmult_lt_reg_l with c; lra.
Qed.
Lemma map_sign_scale c u : 0 < c -> map sign (rscale c u) = map sign u.
Proof. intros Hc. unfold rscale. rewrite map_map. apply map_ext. intros; now apply sign_scale. Qed.
Lemma count_seq (P : nat -> bool) (Q : R -> bool) (r : vec) : (forall i, (i < length r)%nat -> Q (r@i) = P i) ->
  length (filter Q r) = length (filter P (seq 0 (length r))).
Proof.
  revert P. induction r as [|a r IH]; intros P H; [reflexivity|]. cbn [length seq filter].
  rewrite <- seq_shift. pose proof (H 0%nat ltac:(cbn; lia)) as H0. cbn in H0. rewrite H0.
  assert (E : length (filter P (map S (seq 0 (length r)))) = length (filter Q r)).
  { rewrite (IH (fun i => P (S i))) by (intros i Hi; apply (H (S i)); cbn; lia). clear. generalize (seq 0 (length r)) as l.
    induction l as [|b l IH]; cbn; auto. destruct (P (S b)); cbn; auto. }
  destruct (P 0%nat); cbn [length]; now rewrite E.
Qed.

Section B.
  Variables (m : nat) (D : dictionary) (y : vec) (K : nat) (tau : R) (max_iters : nat).
  Hypothesis V : valid_dict m D.
  Hypothesis Ly : length y = m.
  Hypothesis HK : (K <= d_n D)%nat.
  Notation n := (d_n D).
  Notation Phi := (combine_atoms m D).
  Definition biht_good (s : biht_state) : Prop :=
    NoDup (bi_I s) /\ length (bi_I s) = K /\ (forall i, In i (bi_I s) -> (i < n)%nat) /\ length (bi_x s) = K /\
    bi_r s = rsub y (map sign (Phi (estimate n s))) /\ bi_mismatched s = disagreements y (Phi (estimate n s)).
  Lemma mismatch_count u : length u = m -> count_nonzero (rsub y (map sign u)) = disagreements y u.
  Proof.
    intros Lu. unfold count_nonzero, disagreements. assert (Lr : length (rsub y (map sign u)) = length y) by (rewrite rsub_len, map_length; lia).
    rewrite (@count_seq (fun i => if Req_EM_T (y@i) (sign (u@i)) then false else true)); [now rewrite Lr|].
    intros i Hi. rewrite Lr in Hi. rewrite rsub_nth by (rewrite map_length; lia). rewrite (nth_indep (map sign u) 0 (sign 0)) by (rewrite map_length; lia). rewrite (map_nth sign).
    destruct (Req_EM_T (y@i) (sign (u@i))) as [E|E].
    - rewrite E. destruct (Reqb_spec (sign (u@i) - sign (u@i)) 0); [reflexivity|lra].
    - destruct (Reqb_spec (y@i - sign (u@i)) 0); [lra|reflexivity].
  Qed.
  Lemma make_good J x it : NoDup J -> length J = K -> (forall i, In i J -> (i < n)%nat) -> length x = K -> biht_good (biht_make D y J x it).
  Proof.
    intros H1 H2 H3 H4. unfold biht_good, biht_make, estimate. cbn [bi_I bi_x bi_r bi_mismatched].
    assert (E : Phi (scatter n J x) = synth D (length y) J x) by (rewrite Ly; apply (combine_scatter V); auto; congruence).
    rewrite E. repeat (split; [solve [auto]|]). apply mismatch_count. rewrite <- E. apply (combine_len V).
  Qed.
  Lemma good_len_r s : biht_good s -> length (bi_r s) = m.
  Proof. intros (_ & _ & _ & _ & E & _). rewrite E, rsub_len, map_length, (combine_len V). lia. Qed.
  Definition biht_target (s : biht_state) : vec := radd (estimate n s) (rscale (tau / 2) (d_trans D (bi_r s))).
  Lemma target_len s : biht_good s -> length (biht_target s) = n.
  Proof. intros G. unfold biht_target, estimate. rewrite radd_len, rscale_len, (trans_len V _ (good_len_r G)), scatter_len. lia. Qed.
  Lemma init_good : biht_good (biht_init D y K) /\ bi_it (biht_init D y K) = 0%nat.
  Proof. split; [|reflexivity]. apply make_good; [apply seq_NoDup|apply seq_length|intros i Hi; apply in_seq in Hi; lia|vl]. Qed.
  Lemma body_eq s : biht_body D y K tau s = Some (biht_make D y (largest_indices (biht_target s) K) (gather (biht_target s) (largest_indices (biht_target s) K)) (S (bi_it s))).
  Proof. reflexivity. Qed.
  Lemma body_good s s' : biht_good s -> biht_body D y K tau s = Some s' -> biht_good s' /\ bi_it s' = S (bi_it s) /\
    estimate n s' = keep (biht_target s) (largest_indices (biht_target s) K).
  Proof.
    intros G. rewrite body_eq. intros [= <-]. pose proof (target_len G) as LT. split; [|split].
    - apply make_good; [apply li_nodup|rewrite li_len, LT; lia| |unfold gather; rewrite map_length, li_len, LT; lia].
      intros i Hi. apply li_lt in Hi. lia.
    - reflexivity.
    - unfold estimate. cbn [biht_make bi_I bi_x]. rewrite <- LT. apply scatter_gather. intros i Hi. now apply li_lt in Hi.
  Qed.
  Lemma reach_good k s : reaches (biht_cond max_iters) (biht_body D y K tau) (biht_init D y K) k s -> biht_good s /\ bi_it s = k.
  Proof.
    induction 1 as [|k s s' H [IH Ik] C B]; [apply init_good|]. destruct (body_good IH B) as (G & I' & _). split; auto. lia.
  Qed.
  Lemma agree_iff s : biht_good s -> (bi_mismatched s = 0%nat <-> map sign (Phi (estimate n s)) = y).
  Proof.
    intros (_ & _ & _ & _ & _ & E). rewrite E. set (u := Phi (estimate n s)). assert (Lu : length u = m) by apply (combine_len V).
    unfold disagreements. split.
    - intros H. apply length_zero_iff_nil in H. apply vec_eq; [rewrite map_length; lia|]. intros i Hi. rewrite map_length in Hi.
      rewrite (nth_indep (map sign u) 0 (sign 0)) by (rewrite map_length; lia). rewrite (map_nth sign).
      destruct (Req_EM_T (y@i) (sign (u@i))) as [Q|Q]; auto. exfalso.
      assert (In i (filter (fun i => if Req_EM_T (y@i) (sign (u@i)) then false else true) (seq 0 (length y)))).
      { apply filter_In. split; [apply in_seq; lia|]. destruct (Req_EM_T (y@i) (sign (u@i))); [contradiction|reflexivity]. }
      now rewrite H in H0.
    - intros H. apply length_zero_iff_nil.
      destruct (filter _ _) as [|i l] eqn:F; auto. exfalso. assert (Hi : In i (i :: l)) by now left. rewrite <- F in Hi. apply filter_In in Hi as [Hi Q]. apply in_seq in Hi.
      destruct (Req_EM_T (y@i) (sign (u@i))) as [W|W]; [discriminate|]. apply W. rewrite <- H at 1.
      rewrite (nth_indep (map sign u) 0 (sign 0)) by (rewrite map_length; lia). apply (map_nth sign).
  Qed.
  Lemma biht_run fuel s : biht D y K tau max_iters fuel = Done s ->
    biht_good s /\ (bi_it s <= max_iters)%nat /\ (bi_mismatched s = 0%nat \/ bi_it s = max_iters).
  Proof.
    intros E. apply while_done in E as (k & _ & H & C). destruct (reach_good H) as [G Ik]. split; auto.
    assert (Hle : (bi_it s <= max_iters)%nat).
    { destruct k as [|k]; [lia|]. apply reaches_S_inv in H as (t & Ht & Ct & _). destruct (reach_good Ht) as [_ It].
      unfold biht_cond in Ct. apply andb_true_iff in Ct as [_ Ct]. apply Nat.ltb_lt in Ct. lia. }
    split; auto. unfold biht_cond in C. apply andb_false_iff in C as [C|C]; [left|right]; apply Nat.ltb_ge in C; lia.
  Qed.
  Lemma biht_total fuel : (max_iters <= fuel)%nat -> exists s, biht D y K tau max_iters fuel = Done s.
  Proof.
    intros Hf. apply while_total; [discriminate|]. intros k s H C. destruct (reach_good H) as [_ Ik].
    unfold biht_cond in C. apply andb_true_iff in C as [_ C]. apply Nat.ltb_lt in C. lia.
  Qed.
  (** each step goes to the nearest K-sparse vector *)
  Lemma biht_step_best s s' z : biht_good s -> biht_body D y K tau s = Some s' -> length z = n -> sparse K z ->
    nrm2 (rsub (biht_target s) (estimate n s')) <= nrm2 (rsub (biht_target s) z).
  Proof.
    intros G B Lz Sz. destruct (body_good G B) as (_ & _ & ->). pose proof (target_len G) as LT.
    apply (@best_k_term (biht_target s) K); auto; [apply largest_top; rewrite LT; auto|congruence].
  Qed.
  (** the correction is a negative subgradient of the one-sided penalty *)
  Lemma biht_subgradient x z : bits y -> length x = n -> length z = n ->
    one_sided_l1 y (Phi z) >= one_sided_l1 y (Phi x) - rdot (rscale (/ 2) (d_trans D (rsub y (map sign (Phi x))))) (rsub z x).
  Proof.
    intros By Lx Lz. assert (L1 : length (Phi x) = m) by apply (combine_len V). assert (L2 : length (Phi z) = m) by apply (combine_len V).
    assert (Lr : length (rsub y (map sign (Phi x))) = m) by (rewrite rsub_len, map_length; lia).
    assert (Lt : length (d_trans D (rsub y (map sign (Phi x)))) = n) by (now apply (trans_len V)).
    rewrite rdot_scale_l, rdot_sym, <- (combine_adj V) by auto. rewrite (combine_sub V) by congruence.
    apply Rle_ge. unfold one_sided_l1. rewrite Ly. rewrite (@rdot_sum m) by (rewrite ?rsub_len, ?map_length; lia).
    rewrite <- rsum_mul_l, <- rsum_sub. apply rsum_le. intros i Hi. rewrite !rsub_nth by (rewrite ?map_length; lia).
    rewrite (nth_indep (map sign (Phi x)) 0 (sign 0)) by (rewrite map_length; lia). rewrite (map_nth sign).
    set (u := (Phi x)@i). set (v := (Phi z)@i). unfold sign.
    pose proof (Rmax_l 0 (- (y@i * v))). pose proof (Rmax_r 0 (- (y@i * v))).
    destruct (Rltb_spec 0 u) as [Q|Q]; [|destruct (Rltb_spec u 0) as [Q'|Q']]; destruct (By i ltac:(lia)) as [Ey|Ey]; rewrite Ey in *; unfold Rmax at 1; destruct (Rle_dec _ _); lra.
  Qed.
End B.

(** *** only the scale of the estimate depends on the step size *)
Lemma ins_scale c x i l : 0 < c -> ins_idx (rscale c x) i l = ins_idx x i l.
Proof.
  intros Hc. induction l as [|j l IH]; cbn; auto. rewrite !rscale_nth, IH.
  destruct (Rleb_spec (x@i) (x@j)) as [H|H]; destruct (Rleb_spec (c * x@i) (c * x@j)) as [H'|H']; auto; exfalso.
  - apply H'. apply Rmult_le_compat_l; lra.
  - apply H. apply Rmult_le_reg_l with c; auto.
Qed.
Lemma argsort_scale c x : 0 < c -> argsort (rscale c x) = argsort x.
Proof.
  intros Hc. unfold argsort. rewrite rscale_len. generalize (seq 0 (length x)) as l. induction l as [|a l IH]; cbn; auto. now rewrite IH, ins_scale.
Qed.
Lemma largest_scale c x K : 0 < c -> largest_indices (rscale c x) K = largest_indices x K.
Proof.
  intros Hc. unfold largest_indices. replace (map Rabs (rscale c x)) with (rscale c (map Rabs x)); [now rewrite argsort_scale|].
  unfold rscale. rewrite !map_map. apply map_ext. intros a. rewrite Rabs_mult, (Rabs_pos_eq c); lra.
Qed.
Lemma gather_scale c x J : gather (rscale c x) J = rscale c (gather x J).
Proof. unfold gather, rscale. rewrite map_map. apply map_ext. intros i. apply rscale_nth. Qed.
Definition scaled_state (c : R) (s : biht_state) : biht_state := BIHTState (rscale c (bi_x s)) (bi_I s) (bi_r s) (bi_mismatched s) (bi_it s).
Section Scale.
  Variables (m : nat) (D : dictionary) (y : vec) (K : nat) (tau c : R) (max_iters : nat).
  Hypothesis V : valid_dict m D.
  Hypothesis Ly : length y = m.
  Hypothesis HK : (K <= d_n D)%nat.
  Hypothesis Hc : 0 < c.
  Lemma make_scale J x it : (forall i, In i J -> (i < d_n D)%nat) -> biht_make D y J (rscale c x) it = scaled_state c (biht_make D y J x it).
  Proof.
    intros HJ. unfold biht_make, scaled_state. cbn [bi_x bi_I bi_r bi_mismatched bi_it]. unfold synth.
    rewrite Ly, (lc_scale c x) by (now apply (atoms_len V)). now rewrite map_sign_scale.
  Qed.
  Lemma body_scale s : biht_good m D y K s ->
    biht_body D y K (c * tau) (scaled_state c s) = option_map (scaled_state c) (biht_body D y K tau s).
  Proof.
    intros G. rewrite !body_eq. cbn [option_map]. f_equal.
    assert (E : biht_target D (c * tau) (scaled_state c s) = rscale c (biht_target D tau s)).
    { unfold biht_target, estimate, scaled_state. cbn [bi_x bi_I bi_r]. pose proof G as G0. destruct G as (_ & L1 & _ & L2 & _).
      assert (Es : scatter (d_n D) (bi_I s) (rscale c (bi_x s)) = rscale c (scatter (d_n D) (bi_I s) (bi_x s))).
      { apply vec_eq; [now rewrite rscale_len, !scatter_len|]. rewrite scatter_len. intros i Hi. rewrite rscale_nth. unfold scatter. rewrite !nth_tab by auto.
        assert (L : length (bi_x s) = length (bi_I s)) by congruence. revert L. generalize (bi_I s) as J, (bi_x s) as x.
        induction J as [|j J IH]; intros [|a x] L; try discriminate; cbn [rscale map scatter_get]; [ring|]. destruct (j =? i)%nat; [reflexivity|]. apply IH. cbn in L. lia. }
      rewrite Es. assert (Lh : length (d_trans D (bi_r s)) = d_n D) by (apply (trans_len V); apply (good_len_r V Ly HK G0)).
      apply vec_eq; [rewrite !rscale_len, !radd_len, !rscale_len; auto|].
      intros i Hi. rewrite rscale_nth, !radd_nth, !rscale_nth by (rewrite ?rscale_len, scatter_len; auto). field. }
    rewrite E, largest_scale, gather_scale by auto. cbn [scaled_state bi_it]. apply make_scale.
    intros i Hi. apply li_lt in Hi. now rewrite (target_len tau V Ly HK G) in Hi.
  Qed.
  Lemma while_scale fuel : forall s, biht_good m D y K s ->
    while_ (biht_cond max_iters) (biht_body D y K (c * tau)) fuel (scaled_state c s) =
    match while_ (biht_cond max_iters) (biht_body D y K tau) fuel s with Done t => Done (scaled_state c t) | Fail => Fail | Fuel => Fuel end.
  Proof.
    induction fuel as [|fuel IH]; intros s G.
    - cbn [while_]. change (biht_cond max_iters (scaled_state c s)) with (biht_cond max_iters s). destruct (biht_cond max_iters s); auto.
    - cbn [while_]. change (biht_cond max_iters (scaled_state c s)) with (biht_cond max_iters s). destruct (biht_cond max_iters s); auto.
      rewrite body_scale by auto. destruct (biht_body D y K tau s) as [t|] eqn:E; cbn [option_map]; auto.
      apply IH. apply (body_good V Ly HK G E).
  Qed.
  Lemma biht_scale fuel : biht D y K (c * tau) max_iters fuel =
    match biht D y K tau max_iters fuel with Done t => Done (scaled_state c t) | Fail => Fail | Fuel => Fuel end.
  Proof.
    unfold biht. rewrite <- while_scale by apply (init_good y V Ly HK). f_equal. unfold biht_init. rewrite <- make_scale by (intros i Hi; apply in_seq in Hi; lia).
    f_equal. apply vec_eq; [vl|]. intros i Hi. rewrite rscale_nth. unfold rzero. rewrite !nth_repeat_same. ring.
  Qed.
End Scale.

(** *** renormalised fixed point iteration *)
Section Rfp.
  Variables (m : nat) (D : dictionary) (y : vec) (delta tau : R).
  Hypothesis V : valid_dict m D.
  Hypothesis Ly : length y = m.
  Notation n := (d_n D).
  Notation Phi := (combine_atoms m D).
  Lemma phi_times_eq x : phi_times D m x = Phi x.
  Proof. reflexivity. Qed.
  Definition rfp_f_bar (x : vec) : vec := d_trans D (rmul y (rfp_problems y (Phi x))).
  Definition rfp_f_tilde (x : vec) : vec := rsub (rfp_f_bar x) (rscale (rdot (rfp_f_bar x) x) x).
  Definition rfp_h (x : vec) : vec := rsub x (rscale delta (rfp_f_tilde x)).
  Lemma rfp_body_eq s : rfp_body D y delta tau s =
    let u := shrink (rfp_h (rf_x s)) tau in if Reqb (nrm u) 0 then None else Some (RFPState (rscale (/ nrm u) u) (rf_x s) (S (rf_it s))).
  Proof. unfold rfp_body. rewrite Ly. reflexivity. Qed.
  Lemma prob_len x : length (rmul y (rfp_problems y (Phi x))) = m.
  Proof. unfold rfp_problems. rewrite !rmul_len, map_length, rmul_len, (combine_len V). lia. Qed.
  Lemma f_bar_len x : length (rfp_f_bar x) = n.
  Proof. apply (trans_len V), prob_len. Qed.
  Lemma prob_nth x i : (i < m)%nat -> (rmul y (rfp_problems y (Phi x)))@i = y@i * Rmax 0 (- (y@i * (Phi x)@i)).
  Proof.
    intros Hi. assert (Lp : length (Phi x) = m) by apply (combine_len V). rewrite rmul_nth by (unfold rfp_problems; rewrite map_length, rmul_len; lia). f_equal. unfold rfp_problems.
    set (g := fun c => if Rleb c 0 then - c else 0). rewrite (nth_indep _ 0 (g 0)) by (rewrite map_length, rmul_len; lia). rewrite (map_nth g). rewrite rmul_nth by lia. unfold g.
    destruct (Rleb_spec (y@i * (Phi x)@i) 0); [rewrite Rmax_right|rewrite Rmax_left]; lra.
  Qed.
  (** f_bar is minus the gradient of the penalty *)
  Lemma rfp_gradient x z : bits y -> length x = n -> length z = n ->
    one_sided_quadratic y (Phi z) >= one_sided_quadratic y (Phi x) - rdot (rfp_f_bar x) (rsub z x).
  Proof.
    intros By Lx Lz. assert (L1 : length (Phi x) = m) by apply (combine_len V). assert (L2 : length (Phi z) = m) by apply (combine_len V).
    pose proof (prob_len x) as Lr. unfold rfp_f_bar. rewrite rdot_sym, <- (combine_adj V) by auto. rewrite (combine_sub V) by congruence.
    apply Rle_ge. unfold one_sided_quadratic. rewrite Ly. rewrite (@rdot_sum m) by (rewrite ?rsub_len; lia).
    rewrite <- !rsum_mul_l, <- rsum_sub. apply rsum_le. intros i Hi. rewrite prob_nth, rsub_nth by (auto; lia).
    set (u := (Phi x)@i). set (v := (Phi z)@i). pose proof (Rmax_l 0 (- (y@i * v))) as M1. pose proof (Rmax_r 0 (- (y@i * v))) as M2.
    set (b := Rmax 0 (- (y@i * v))) in *. unfold Rmax. destruct (Rle_dec 0 (- (y@i * u))) as [Q|Q].
    - assert (Y2 : y@i * y@i = 1) by (destruct (By i ltac:(lia)) as [E|E]; rewrite E; ring).
      set (a := - (y@i * u)) in *. assert (E : (v - u) * (y@i * a) = a * (a + y@i * v)) by (unfold a; ring). rewrite E.
      assert (0 <= (b - a) * (b - a)) by (pose proof (Rle_0_sqr (b - a)) as S; exact S).
      assert (0 <= a * (b + y@i * v)) by (apply Rmult_le_pos; lra). lra.
    - assert (0 <= b * b) by (apply Rmult_le_pos; auto). lra.
  Qed.
  Lemma rfp_no_descent x : bits y -> length x = n -> nrm2 x = 1 -> 0 <= delta ->
    one_sided_quadratic y (Phi (rfp_h x)) >= one_sided_quadratic y (Phi x) + delta * nrm2 (rfp_f_tilde x).
  Proof.
    intros By Lx Nx Hd. pose proof (f_bar_len x) as Lf. assert (Lt : length (rfp_f_tilde x) = n) by (unfold rfp_f_tilde; vl).
    assert (Lh : length (rfp_h x) = n) by (unfold rfp_h; vl). pose proof (@rfp_gradient x (rfp_h x) By Lx Lh) as G.
    assert (E : rdot (rfp_f_bar x) (rsub (rfp_h x) x) = - delta * nrm2 (rfp_f_tilde x)).
    { replace (rsub (rfp_h x) x) with (rscale (- delta) (rfp_f_tilde x)) by (unfold rfp_h; veq). rewrite rdot_scale_r. f_equal. unfold rfp_f_tilde, nrm2 in *.
      rewrite rdot_sub_l, !rdot_sub_r, !rdot_scale_r, !rdot_scale_l by vl. rewrite Nx, (rdot_sym x (rfp_f_bar x)). ring. }
    rewrite E in G. lra.
  Qed.
  Lemma f_tilde_orth x : length x = n -> nrm2 x = 1 -> rdot (rfp_f_tilde x) x = 0.
  Proof. intros Lx Nx. pose proof (f_bar_len x). unfold rfp_f_tilde, nrm2 in *. rewrite rdot_sub_l, rdot_scale_l by vl. rewrite Nx. ring. Qed.
  Lemma body_unit s s' : rfp_body D y delta tau s = Some s' -> nrm (rf_x s') = 1 /\ rf_it s' = S (rf_it s) /\ rf_x_prev s' = rf_x s.
  Proof.
    rewrite rfp_body_eq. cbv zeta. set (u := shrink _ tau). destruct (Reqb_spec (nrm u) 0) as [E|E]; [discriminate|]. intros [= <-]. cbn [rf_x rf_it rf_x_prev]. split; auto.
    pose proof (nrm_pos u). rewrite nrm_scale, Rabs_pos_eq by (left; apply Rinv_0_lt_compat; lra). field. auto.
  Qed.
  Lemma inner_run inner x0 fuel s : rfp_inner D y delta tau inner x0 fuel = Done s -> rf_it s = inner /\ ((0 < inner)%nat -> nrm (rf_x s) = 1).
  Proof.
    intros E. apply while_done in E as (k & _ & H & C). apply Nat.ltb_ge in C.
    assert (I : rf_it s = k /\ ((0 < k)%nat -> nrm (rf_x s) = 1) /\ (k <= inner)%nat).
    { clear C. induction H as [|k s s' H (IH & _ & Hk) Ct B]; [cbn; split; [auto|split; lia]|]. apply Nat.ltb_lt in Ct. destruct (body_unit s B) as (U & I' & _). split; [lia|]. split; [auto|lia]. }
    destruct I as (I1 & I2 & I3). split; [lia|]. intros; apply I2; lia.
  Qed.
End Rfp.
Lemma rfp_run m D y x0 lambda delta inner outer s : valid_dict m D -> length y = m -> rfp D y x0 lambda delta inner outer = Done s ->
  rf_it s = inner /\ ((0 < inner)%nat -> nrm (rf_x s) = 1).
Proof.
  intros V Ly. unfold rfp. assert (G : forall k lam x last, (forall t, last = Done t -> rf_it t = inner /\ ((0 < inner)%nat -> nrm (rf_x t) = 1)) ->
    rfp_outer D y delta (delta / lambda) lam inner k x last = Done s -> rf_it s = inner /\ ((0 < inner)%nat -> nrm (rf_x s) = 1)).
  { induction k as [|k IH]; intros lam x last HL; cbn [rfp_outer]; [intros E; now apply HL|].
    destruct (rfp_inner D y delta (delta / lambda) inner x inner) as [t| |] eqn:Ei; try discriminate. apply IH. intros t' [= <-]. apply (@inner_run m D y delta (delta / lambda) Ly inner x inner t Ei). }
  apply G. discriminate.
Qed.
(** only the quotient delta / lambda matters *)
Lemma rfp_lambda D y x0 lambda lambda' delta inner outer : delta / lambda = delta / lambda' -> rfp D y x0 lambda delta inner outer = rfp D y x0 lambda' delta inner outer.
Proof.
  intros E. unfold rfp. rewrite E. generalize (delta / lambda') as t, (@Fail rfp_state) as l. clear E. intros t. revert lambda lambda' x0.
  induction outer as [|k IH]; intros lambda lambda' x0 l; cbn [rfp_outer]; auto. destruct (rfp_inner D y delta t inner x0 inner); auto.
Qed.
