(** Centred l2 balls, indicators, gradients of smooth functions, thresholding. *)
From Coq Require Import List Arith Bool Lia Reals Lra Psatz.
From Verif Require Import Scalar Vec Loop RVec RMat XReal OptSpec OptModel OptProofs OptProofs2 OptProofs3.
Import ListNotations.
Set Implicit Arguments.
Local Open Scope R_scope.

(** *** centred l2 ball *)
Definition ball_proj_at (q : R) (b x : vec) : vec := radd (project_to_ball (rsub x b) q) b.
Lemma ball_proj_at_vi n q b : 0 < q -> length b = n -> vi n (fun y => nrm (rsub y b) <= q) (ball_proj_at q b).
Proof. intros Hq Hb. apply (@vi_translate n (fun y => nrm y <= q) (fun x => project_to_ball x q) b Hb). now apply vi_to_ball. Qed.

Lemma l2_ball_at_spec n q b P : length b = n -> proj_l2_ball_at q b = Some P ->
  forall x, length x = n ->
    length (P x) = n /\
    (nrm (rsub x b) <= q -> P x = x) /\
    (q < nrm (rsub x b) -> nrm (rsub (P x) b) = Rabs (q - 1 / 10000000)) /\
    dist (P x) (ball_proj_at q b x) <= 1 / 10000000.
Proof.
  intros Hb. unfold proj_l2_ball_at. destruct (Rleb_spec q 0) as [|Hq]; [discriminate|]. intros [= <-] x Hx.
  unfold ball_proj_at, project_to_ball, dist. cbv zeta.
  destruct (Rltb_spec q (nrm (rsub x b))) as [H|H].
  - set (m := nrm (rsub x b)) in *. set (e := 1 / 10000000).
    assert (Hm : 0 < m) by lra.
    split; [vl|]. split; [lra|]. split.
    + intros _. replace (rsub (radd (rscale ((q - e) * / m) (rsub x b)) b) b) with (rscale ((q - e) * / m) (rsub x b)) by veq.
      rewrite nrm_scale. fold m. rewrite Rabs_mult, Rabs_inv, (Rabs_right m) by lra. field. lra.
    + replace (rsub (radd (rscale ((q - e) * / m) (rsub x b)) b) (radd (rscale (q / m) (rsub x b)) b))
        with (rscale (- e * / m) (rsub x b)) by (veq; field; lra).
      rewrite nrm_scale. fold m. rewrite Rabs_mult, Rabs_inv, (Rabs_right m), Rabs_Ropp, Rabs_right by (unfold e; lra).
      right. field. lra.
  - split; [vl|]. split; [intros _; veq|]. split; [lra|].
    replace (rsub (radd (rsub x b) b) (radd (rsub x b) b)) with (rzero n) by veq.
    rewrite nrm_rzero. lra.
Qed.

(** *** prox_l1 at zero step *)
Lemma l1_entry0 a : xmul a (xrsub 1 (xmin (xdiv 0 (Rabs a)) 1)) = if Reqb a 0 then NaN else Fin a.
Proof.
  unfold xdiv, Reqb. destruct (Req_EM_T a 0) as [->|E].
  - rewrite Rabs_R0. destruct (Req_EM_T 0 0); [|lra]. auto.
  - destruct (Req_EM_T (Rabs a) 0) as [E1|E1]; [apply Rabs_no_R0 in E1; tauto|].
    simpl. unfold Rdiv. rewrite Rmult_0_l, Rmin_left by lra. f_equal. ring.
Qed.
Lemma finite_None x : finite x = None <-> exists e, In e x /\ (forall r, e <> Fin r).
Proof.
  induction x as [|e x IH]; simpl.
  - split; [discriminate|]. intros [e [[] _]].
  - destruct e as [r| | |]; [|split; auto; intros _; eexists; split; [left; reflexivity|discriminate]..].
    destruct (finite x) as [y|] eqn:E; simpl.
    + split; [discriminate|]. intros [e [[<-|H] He]]; [now destruct (He r)|]. destruct IH as [_ IH].
      discriminate IH. eauto.
    + split; auto. intros _. destruct IH as [IH _]. destruct (IH eq_refl) as [e [H1 H2]]. eauto.
Qed.
Lemma prox_l1_finite q x t : 0 <= t * q ->
  (0 < t * q -> finite (prox_op (prox_l1 q) x t) = Some (shrink x (t * q))) /\
  (t * q = 0 -> (forall a, In a x -> a <> 0) -> finite (prox_op (prox_l1 q) x t) = Some x) /\
  (t * q = 0 -> In 0 x -> finite (prox_op (prox_l1 q) x t) = None).
Proof.
  intros H. split; [|split].
  - intros Hp. rewrite prox_l1_eq by auto. apply finite_map.
  - intros E Hx. simpl. rewrite E. transitivity (finite (map Fin x)); [f_equal|apply finite_map]. apply map_ext_in. intros a Ha.
    rewrite l1_entry0. specialize (Hx a Ha). unfold Reqb. destruct (Req_EM_T a 0); tauto.
  - intros E Hx. apply finite_None. simpl. rewrite E. exists NaN. split; [|discriminate].
    apply in_map_iff. exists 0. split; auto. rewrite l1_entry0. unfold Reqb. destruct (Req_EM_T 0 0); tauto.
Qed.

(** *** indicators *)
Lemma vany_false p x : vany p x = false <-> forall i, (i < length x)%nat -> p (x@i) = false.
Proof.
  unfold vany. induction x as [|a x IH]; simpl.
  - split; auto. intros; lia.
  - rewrite orb_false_iff, IH. split.
    + intros [H1 H2] [|i] Hi; auto. apply H2. lia.
    + intros H. split; [apply (H 0%nat); lia|]. intros i Hi. apply (H (S i)). lia.
Qed.
Lemma vany2_false p x y : length x = length y ->
  vany2 p x y = false <-> forall i, (i < length x)%nat -> p (x@i) (y@i) = false.
Proof.
  unfold vany2. revert y; induction x as [|a x IH]; intros [|b y] HL; try discriminate HL; simpl.
  - split; auto. intros; lia.
  - rewrite orb_false_iff, IH by (simpl in HL; lia). split.
    + intros [H1 H2] [|i] Hi; auto. apply H2. lia.
    + intros H. split; [apply (H 0%nat); lia|]. intros i Hi. apply (H (S i)). lia.
Qed.
Lemma neqb_false a b : neqb a b = false <-> a = b.
Proof. unfold neqb, Reqb. destruct (Req_EM_T a b); simpl; split; auto; try discriminate; tauto. Qed.
Lemma ind_zero_spec n x : length x = n -> ind_zero x = true <-> x = rzero n.
Proof.
  intros Hx. unfold ind_zero. rewrite negb_true_iff, vany_false. split.
  - intros H. apply vec_eq; [vl|]. intros i Hi. rewrite rzero_nth. apply neqb_false; auto.
  - intros -> i Hi. apply neqb_false, rzero_nth.
Qed.
Lemma ind_singleton_spec n c x : length x = n -> length c = n -> ind_singleton c x = true <-> x = c.
Proof.
  intros Hx Hc. unfold ind_singleton. rewrite negb_true_iff, vany_false. split.
  - intros H. apply vec_eq; [vl|]. intros i Hi. specialize (H i ltac:(vl)).
    apply neqb_false in H. rewrite rsub_nth in H by vl. lra.
  - intros -> i Hi. apply neqb_false. rewrite rsub_nth by vl. ring.
Qed.
Lemma Rltb_false a b : Rltb a b = false <-> b <= a.
Proof. destruct (Rltb_spec a b); split; auto; intros; try discriminate; try lra. Qed.
Lemma ind_box_spec n l u ind x : box_ok n l u -> ind_box l u = Some ind -> length x = n ->
  ind x = true <-> box_set l u x.
Proof.
  intros [Hl [Hu _]] H Hx. unfold box_set, above, below.
  assert (A : forall v, length v = n -> (negb (vany2 Rltb x v) = true <-> (forall i, (i < length v)%nat -> v@i <= x@i))).
  { intros v Hv. rewrite negb_true_iff, vany2_false by congruence. rewrite Hv, Hx. split; intros Hq i Hi; specialize (Hq i Hi); now apply Rltb_false. }
  assert (B : forall v, length v = n -> (negb (vany2 (fun a b => Rltb b a) x v) = true <-> (forall i, (i < length v)%nat -> x@i <= v@i))).
  { intros v Hv. rewrite negb_true_iff, vany2_false by congruence. rewrite Hv, Hx. split; intros Hq i Hi; specialize (Hq i Hi); now apply Rltb_false. }
  destruct l as [l|], u as [u|]; simpl in H; inversion H; subst ind; clear H.
  - rewrite negb_orb, andb_true_iff. rewrite (A l), (B u) by auto.
    split; [intros [H1 H2]; split; intros v [= <-]; auto|intros [H1 H2]; split; [now apply H1|now apply H2]].
  - rewrite (A l) by auto. split; [intros H1; split; intros v [= <-]; auto|intros [H1 _]; now apply H1].
  - rewrite (B u) by auto. split; [intros H1; split; intros v [= <-]; auto|intros [_ H1]; now apply H1].
Qed.
Lemma ind_conic_spec x : ind_conic x = true <-> cone_set x.
Proof. unfold ind_conic, cone_set. destruct (Rleb_spec (nrm (removelast x)) (last x 0)); split; auto; try discriminate; lra. Qed.
Lemma negb_Rltb a b : negb (Rltb a b) = true <-> b <= a.
Proof. rewrite negb_true_iff. apply Rltb_false. Qed.
Lemma ind_l2_spec q ind x : ind_l2_ball q = Some ind -> ind x = true <-> nrm x <= q.
Proof. unfold ind_l2_ball. destruct (Rleb q 0); [discriminate|]. intros [= <-]. apply negb_Rltb. Qed.
Lemma ind_l2_at_spec q b ind x : ind_l2_ball_at q b = Some ind -> ind x = true <-> nrm (rsub x b) <= q.
Proof. unfold ind_l2_ball_at. destruct (Rleb q 0); [discriminate|]. intros [= <-]. apply negb_Rltb. Qed.
Lemma ind_l1_spec q x : ind_l1_ball q x = true <-> nrm1 x <= q.
Proof. apply negb_Rltb. Qed.
Lemma ind_l1_at_spec q b x : ind_l1_ball_at q b x = true <-> nrm1 (rsub x b) <= q.
Proof. apply negb_Rltb. Qed.
Lemma ind_affine_spec A b x m : length b = m -> length A = m ->
  ind_affine A b x = true <-> nrm (rsub (mv A x) b) <= 1 / 10000000000 * nrm b.
Proof.
  intros Hb HA. unfold ind_affine, xdiv, Reqb. pose proof (nrm_pos b) as Hp. pose proof (nrm_pos (rsub (mv A x) b)) as Hr.
  destruct (Req_EM_T (nrm b) 0) as [E|E].
  - destruct (Req_EM_T (nrm (rsub (mv A x) b)) 0) as [E2|E2]; simpl.
    + split; auto. lra.
    + destruct (Rltb_spec 0 (nrm (rsub (mv A x) b))); simpl; split; auto; try discriminate; lra.
  - simpl. rewrite negb_true_iff, Rltb_false. unfold Rdiv at 1.
    split; intros H.
    + apply Rmult_le_reg_r with (/ nrm b); [apply Rinv_0_lt_compat; lra|]. rewrite Rmult_assoc, Rinv_r by auto. lra.
    + apply Rmult_le_reg_r with (nrm b); [lra|]. rewrite Rmult_assoc, Rinv_l by auto. lra.
Qed.

(** *** gradients *)
Lemma grad_constant n c x : length x = n -> is_gradient n (sfunc (smooth_constant c)) x (sgrad (smooth_constant c) x).
Proof.
  intros Hx. split; [simpl; vl|]. intros d Hd. simpl. rewrite rdot_scale_l.
  apply quad_bound_deriv with (c := 0); [lra|]. intros s. replace (c - c - s * (0 * rdot x d)) with 0 by ring. rewrite Rabs_R0. lra.
Qed.
Lemma grad_linear n C D x : length C = n -> length x = n ->
  is_gradient n (sfunc (smooth_linear C D)) x (sgrad (smooth_linear C D) x).
Proof.
  intros HC Hx. split; [auto|]. intros d Hd. simpl.
  apply quad_bound_deriv with (c := 0); [lra|]. intros s.
  rewrite !rdot_add_r by vl. rewrite !rdot_scale_r.
  match goal with |- Rabs ?e <= _ => replace e with 0 by ring end. rewrite Rabs_R0. lra.
Qed.
(** exact second-order expansions *)
Lemma grad_quadratic n f x g (c : vec -> R) : length x = n -> length g = n ->
  (forall d s, length d = n -> f (radd x (rscale s d)) = f x + s * rdot g d + s * s * c d) -> is_gradient n f x g.
Proof.
  intros Hx Hg H. split; [auto|]. intros d Hd. apply quad_bound_deriv with (c := Rabs (c d)); [apply Rabs_pos|].
  intros s. rewrite !H by auto.
  match goal with |- Rabs ?e <= _ => replace e with (s * s * c d) by ring end.
  rewrite Rabs_mult, (Rabs_right (s * s)) by nra. lra.
Qed.
Lemma mv_sum n P x i : shape n n P -> (i < n)%nat -> length x = n -> (mv P x)@i = rsum n (fun j => ent P i j * x@j).
Proof. intros HP Hi Hx. rewrite mv_nth. apply rdot_sum; auto. now apply shape_row with n. Qed.
Lemma sym_dot n P x y : shape n n P -> symmetric n P -> length x = n -> length y = n ->
  rdot (mv P x) y = rdot (mv P y) x.
Proof.
  intros HP HS Hx Hy. assert (HL : length P = n) by apply HP.
  rewrite !(rdot_sum (n := n)) by vl.
  rewrite (rsum_ext (fun i => (mv P x)@i * y@i) (fun i => rsum n (fun j => ent P i j * x@j * y@i))).
  2:{ intros i Hi. rewrite (@mv_sum n) by auto. now rewrite <- rsum_mul_r. }
  rewrite (rsum_ext (fun i => (mv P y)@i * x@i) (fun i => rsum n (fun j => ent P i j * y@j * x@i))).
  2:{ intros i Hi. rewrite (@mv_sum n) by auto. now rewrite <- rsum_mul_r. }
  rewrite rsum_exchange. apply rsum_ext. intros i Hi. apply rsum_ext. intros j Hj. rewrite (HS j i) by auto. ring.
Qed.
Lemma grad_quad_matrix n P q r x :
  (forall M, P = Some M -> shape n n M /\ symmetric n M) -> (forall v, q = Some v -> length v = n) -> length x = n ->
  is_gradient n (sfunc (smooth_quad_matrix P q r)) x (sgrad (smooth_quad_matrix P q r) x).
Proof.
  intros HP Hq Hx.
  apply grad_quadratic with (c := fun d => match P with None => / 2 * rdot d d | Some M => / 2 * rdot (mv M d) d end); auto.
  - simpl. destruct P as [M|].
    + destruct (HP _ eq_refl) as [[HM _] _]. destruct q as [v|]; [specialize (Hq _ eq_refl)|]; vl.
    + destruct q as [v|]; [specialize (Hq _ eq_refl)|]; vl.
  - intros d s Hd. simpl.
    assert (E1 : match P with None => / 2 * rdot (radd x (rscale s d)) (radd x (rscale s d)) | Some M => / 2 * rdot (mv M (radd x (rscale s d))) (radd x (rscale s d)) end
      = match P with None => / 2 * rdot x x | Some M => / 2 * rdot (mv M x) x end
        + s * match P with None => rdot x d | Some M => rdot (mv M x) d end
        + s * s * match P with None => / 2 * rdot d d | Some M => / 2 * rdot (mv M d) d end).
    { destruct P as [M|].
      - destruct (HP _ eq_refl) as [HM HS]. assert (HL : length M = n) by apply HM.
        rewrite (@mv_add M x (rscale s d) n), mv_scale by (vl; apply HM).
        rewrite rdot_add_l, !rdot_add_r by vl. rewrite !rdot_scale_l, !rdot_scale_r.
        rewrite (sym_dot d x HM HS) by auto. field.
      - rewrite rdot_add_l, !rdot_add_r by vl. rewrite !rdot_scale_l, !rdot_scale_r, (rdot_sym d x). field. }
    rewrite E1. destruct q as [v|].
    + specialize (Hq _ eq_refl). rewrite rdot_add_r, rdot_scale_r by vl.
      assert (E2 : rdot (radd (match P with None => x | Some P0 => mv P0 x end) v) d =
         match P with None => rdot x d | Some M => rdot (mv M x) d end + rdot v d).
      { destruct P as [M|]; [destruct (HP _ eq_refl) as [[HM _] _]|]; rewrite rdot_add_l by vl; auto. }
      rewrite E2. destruct r as [r|]; ring.
    + destruct P as [M|], r as [r|]; ring.
Qed.
Lemma grad_quad_error m n A b x : shape m n A -> length b = m -> length x = n ->
  is_gradient n (sfunc (smooth_quad_error n A b)) x (sgrad (smooth_quad_error n A b) x).
Proof.
  intros [HA1 HA2] Hb Hx. simpl.
  apply grad_quadratic with (c := fun d => / 2 * rdot (mv A d) (mv A d)); auto.
  - apply mtv_len; auto.
  - intros d s Hd. rewrite (@mv_add A x (rscale s d) n), mv_scale by (auto; vl).
    assert (E : rsub (radd (mv A x) (rscale s (mv A d))) b = radd (rsub (mv A x) b) (rscale s (mv A d))) by veq.
    rewrite E, rdot_add_l, !rdot_add_r by vl. rewrite !rdot_scale_l, !rdot_scale_r.
    rewrite (rdot_sym (mtv n A _) d), <- (@mv_adj n A d (rsub (mv A x) b) HA2) by vl.
    rewrite (rdot_sym (rsub (mv A x) b) (mv A d)). field.
Qed.

(** huber *)
Definition huber1 (tau a : R) : R := if Rleb (Rabs a) tau then / 2 * (Rabs a * Rabs a) / tau else Rabs a - tau / 2.
Lemma huber_func tau x : sfunc (smooth_huber tau) x = rlsum (map (huber1 tau) x).
Proof. simpl. induction x as [|a x IH]; simpl; auto. rewrite IH. f_equal. Qed.
Lemma huber_grad_form tau a : 0 < tau ->
  a / Rmax tau (Rabs a) = if Rleb (Rabs a) tau then a / tau else if Rlt_dec a 0 then -1 else 1.
Proof.
  intros Ht. destruct (Rleb_spec (Rabs a) tau) as [H|H].
  - now rewrite Rmax_left.
  - rewrite Rmax_right by lra. revert H. unfold Rabs. destruct (Rcase_abs a), (Rlt_dec a 0); intros H; try lra; field; lra.
Qed.
Lemma huber_quad1 a d :
  Rabs (huber1 1 (a + d) - huber1 1 a - (if Rleb (Rabs a) 1 then a else if Rlt_dec a 0 then -1 else 1) * d) <= / 2 * (d * d).
Proof.
  unfold huber1. replace (1 / 2) with (/ 2) by field. unfold Rdiv. rewrite Rinv_1, !Rmult_1_r.
  apply Rabs_le.
  destruct (Rleb_spec (Rabs (a + d)) 1) as [H1|H1], (Rleb_spec (Rabs a) 1) as [H2|H2];
    revert H1 H2; unfold Rabs; destruct (Rcase_abs (a + d)), (Rcase_abs a); intros H1 H2; try destruct (Rlt_dec a 0); split; nra.
Qed.
Lemma huber_scale tau a : 0 < tau -> huber1 tau (tau * a) = tau * huber1 1 a.
Proof.
  intros Ht. unfold huber1. rewrite Rabs_mult, (Rabs_right tau) by lra.
  destruct (Rleb_spec (tau * Rabs a) tau) as [H1|H1], (Rleb_spec (Rabs a) 1) as [H2|H2]; try nra; field; lra.
Qed.
Lemma huber_quad tau a d : 0 < tau ->
  Rabs (huber1 tau (a + d) - huber1 tau a - a / Rmax tau (Rabs a) * d) <= / (2 * tau) * (d * d).
Proof.
  intros Ht. rewrite huber_grad_form by auto.
  set (al := a / tau). set (de := d / tau).
  assert (Ea : a = tau * al) by (unfold al; field; lra). assert (Ed : d = tau * de) by (unfold de; field; lra).
  assert (Eg : (if Rleb (Rabs a) tau then a / tau else if Rlt_dec a 0 then -1 else 1) = (if Rleb (Rabs al) 1 then al else if Rlt_dec al 0 then -1 else 1)).
  { fold al. rewrite Ea at 1. rewrite Rabs_mult, (Rabs_right tau) by lra.
    destruct (Rleb_spec (tau * Rabs al) tau) as [H1|H1], (Rleb_spec (Rabs al) 1) as [H2|H2]; try nra.
    - destruct (Rlt_dec a 0), (Rlt_dec al 0); auto; nra. }
  fold al in Eg |- *. rewrite Eg. rewrite Ea, Ed. replace (tau * al + tau * de) with (tau * (al + de)) by ring.
  rewrite !huber_scale by auto. pose proof (huber_quad1 al de) as H.
  match goal with |- Rabs ?e <= _ => replace e with (tau * (huber1 1 (al + de) - huber1 1 al - (if Rleb (Rabs al) 1 then al else if Rlt_dec al 0 then -1 else 1) * de)) by ring end.
  rewrite Rabs_mult, (Rabs_right tau) by lra.
  replace (/ (2 * tau) * (tau * de * (tau * de))) with (tau * (/ 2 * (de * de))) by (field; lra).
  apply Rmult_le_compat_l; lra.
Qed.
Lemma grad_huber n tau x : 0 < tau -> length x = n ->
  is_gradient n (sfunc (smooth_huber tau)) x (sgrad (smooth_huber tau) x).
Proof.
  intros Ht Hx. split; [simpl; vl|]. intros d Hd.
  apply quad_bound_deriv with (c := / (2 * tau) * rdot d d).
  { apply Rmult_le_pos; [apply Rlt_le, Rinv_0_lt_compat; lra|apply rdot_pos]. }
  intros s. rewrite !huber_func. assert (E0 : radd x (rscale 0 d) = x) by veq. rewrite E0. clear E0.
  assert (Hl : length d = length x) by congruence. clear Hd Hx n. revert d Hl.
  cbn [sgrad smooth_huber build2]. unfold radd, rscale.
  induction x as [|a x IH]; intros [|b d] Hl; try discriminate Hl; cbn [map zipw rlsum rdot].
  - rewrite Rmult_0_r, !Rminus_0_r, Rabs_R0. lra.
  - specialize (IH d ltac:(simpl in Hl; lia)). pose proof (huber_quad a (s * b) Ht) as Hh.
    match goal with |- Rabs ?e <= _ => replace e with
      ((huber1 tau (a + s * b) - huber1 tau a - a / Rmax tau (Rabs a) * (s * b)) +
       (rlsum (map (huber1 tau) (zipw Rplus x (map (Rmult s) d))) - rlsum (map (huber1 tau) x) -
          s * rdot (map (fun a0 => a0 / Rmax tau (Rabs a0)) x) d)) by ring end.
    eapply Rle_trans; [apply Rabs_triang|]. nra.
Qed.

(** entropy *)
Lemma deriv_local (f g : R -> R) x l : (exists d, 0 < d /\ forall y, Rabs (y - x) < d -> f y = g y) ->
  derivable_pt_lim f x l -> derivable_pt_lim g x l.
Proof.
  intros [d [Hd E]] H eps He. destruct (H eps He) as [[d1 Hd1] H1].
  assert (Hm : 0 < Rmin d d1) by (apply Rmin_pos; auto).
  exists (mkposreal _ Hm). intros h Hh0 Hh. simpl in *.
  rewrite <- !E. apply H1; auto.
  - apply Rlt_le_trans with (1 := Hh), Rmin_r.
  - replace (x - x) with 0 by ring. now rewrite Rabs_R0.
  - replace (x + h - x) with h by ring. apply Rlt_le_trans with (1 := Hh), Rmin_l.
Qed.
Definition xlogx (a : R) : R := a * (if Rltb 0 a then ln a else 0).
Lemma xlogx_deriv a b : 0 < a -> derivable_pt_lim (fun s => xlogx (a + s * b)) 0 ((ln a + 1) * b).
Proof.
  intros Ha.
  assert (H1 : derivable_pt_lim (fun s => a + s * b) 0 b).
  { intros eps He. exists (mkposreal 1 Rlt_0_1). intros h Hh _.
    replace ((a + (0 + h) * b - (a + 0 * b)) / h - b) with 0 by (field; auto). now rewrite Rabs_R0. }
  assert (H2 : derivable_pt_lim (comp ln (fun s => a + s * b)) 0 (/ (a + 0 * b) * b)).
  { apply derivable_pt_lim_comp; [auto|]. apply derivable_pt_lim_ln. lra. }
  assert (H3 := derivable_pt_lim_mult _ _ _ _ _ H1 H2). unfold mult_fct, comp in H3.
  replace (b * ln (a + 0 * b) + (a + 0 * b) * (/ (a + 0 * b) * b)) with ((ln a + 1) * b) in H3.
  2:{ replace (a + 0 * b) with a by ring. field. lra. }
  apply deriv_local with (2 := H3).
  assert (Hb : 0 < Rabs b + 1) by (pose proof (Rabs_pos b); lra).
  exists (a / (Rabs b + 1)). split; [apply Rmult_lt_0_compat; [auto|apply Rinv_0_lt_compat; auto]|].
  intros s Hs. rewrite Rminus_0_r in Hs.
  assert (Hp : 0 < a + s * b).
  { assert (Rabs s * (Rabs b + 1) < a).
    { apply Rmult_lt_reg_r with (/ (Rabs b + 1)); [apply Rinv_0_lt_compat; auto|]. rewrite Rmult_assoc, Rinv_r by lra. unfold Rdiv in Hs. lra. }
    assert (Rabs (s * b) < a) by (rewrite Rabs_mult; pose proof (Rabs_pos s); nra).
    apply Rabs_def2 in H0. lra. }
  unfold xlogx. destruct (Rltb_spec 0 (a + s * b)); [auto|lra].
Qed.
(** the value of the entropy, with 0 in place of -inf *)
Definition entropy_value (x : vec) : R := match entropy_func x with Some v => v | None => 0 end.
Lemma positive_cons a x : positive (a :: x) <-> 0 < a /\ positive x.
Proof.
  split.
  - intros H. split; [apply (H 0%nat); simpl; lia|]. intros i Hi. apply (H (S i)); simpl; lia.
  - intros [H1 H2] [|i] Hi; simpl; auto. apply H2. simpl in Hi; lia.
Qed.
Lemma entropy_sum x : - rdot x (log_pos x) = - rlsum (map xlogx x).
Proof. f_equal. unfold log_pos. induction x as [|a x IH]; simpl; auto. rewrite IH. reflexivity. Qed.
Lemma positive_some x : positive x -> entropy_func x = Some (- rlsum (map xlogx x)).
Proof.
  intros H. unfold entropy_func. destruct (vany (fun a => Rltb a 0) x) eqn:E; [|now rewrite entropy_sum].
  exfalso. assert (F : vany (fun a => Rltb a 0) x = false); [|congruence].
  apply vany_false. intros i Hi. apply Rltb_false. specialize (H i Hi). lra.
Qed.
Lemma xlogx_sum_deriv x : forall d, positive x -> length d = length x ->
  derivable_pt_lim (fun s => rlsum (map xlogx (radd x (rscale s d)))) 0 (rdot (map (fun l => l + 1) (log_pos x)) d).
Proof.
  induction x as [|a x IH]; intros [|b d] Hp Hl; try discriminate Hl.
  - simpl. apply derivable_pt_lim_const.
  - apply positive_cons in Hp. destruct Hp as [Ha Hp]. simpl in Hl.
    assert (Hr : rdot (map (fun l => l + 1) (log_pos (a :: x))) (b :: d) = (ln a + 1) * b + rdot (map (fun l => l + 1) (log_pos x)) d).
    { simpl. destruct (Rltb_spec 0 a); [auto|lra]. }
    rewrite Hr. assert (H := derivable_pt_lim_plus _ _ _ _ _ (@xlogx_deriv a b Ha) (IH d Hp ltac:(lia))).
    apply deriv_local with (2 := H). exists 1. split; [lra|]. intros s _. reflexivity.
Qed.
Lemma positive_near x : forall d, positive x -> length d = length x ->
  exists e, 0 < e /\ forall s, Rabs s < e -> positive (radd x (rscale s d)).
Proof.
  induction x as [|a x IH]; intros [|b d] Hp Hl; try discriminate Hl.
  - exists 1. split; [lra|]. intros s _ i Hi. simpl in Hi. lia.
  - apply positive_cons in Hp. destruct Hp as [Ha Hp]. destruct (IH d Hp ltac:(simpl in Hl; lia)) as [e [He H]].
    assert (Hb : 0 < Rabs b + 1) by (pose proof (Rabs_pos b); lra).
    exists (Rmin e (a / (Rabs b + 1))). split.
    + apply Rmin_pos; [auto|]. apply Rmult_lt_0_compat; [auto|apply Rinv_0_lt_compat; auto].
    + intros s Hs. change (positive ((a + s * b) :: radd x (rscale s d))). apply positive_cons. split.
      * assert (Hs2 : Rabs s < a / (Rabs b + 1)) by (apply Rlt_le_trans with (1 := Hs), Rmin_r).
        assert (Rabs s * (Rabs b + 1) < a).
        { apply Rmult_lt_reg_r with (/ (Rabs b + 1)); [apply Rinv_0_lt_compat; auto|]. rewrite Rmult_assoc, Rinv_r by lra. unfold Rdiv in Hs2. lra. }
        assert (Rabs (s * b) < a) by (rewrite Rabs_mult; pose proof (Rabs_pos s); nra).
        apply Rabs_def2 in H1. lra.
      * apply H. apply Rlt_le_trans with (1 := Hs), Rmin_l.
Qed.
Lemma grad_entropy n x : length x = n -> positive x ->
  exists g, entropy_grad x = Some g /\ is_gradient n entropy_value x g /\
    entropy_vg_grad_val x = Some (g, entropy_value x).
Proof.
  intros Hx Hp. pose proof (positive_some Hp) as Hs. exists (map (fun l => - l - 1) (log_pos x)).
  unfold entropy_func in Hs. unfold entropy_grad, entropy_vg_grad_val, entropy_value, entropy_func.
  destruct (vany (fun a => Rltb a 0) x) eqn:E; [discriminate|]. split; [auto|]. split; [|auto].
  split; [unfold log_pos; vl|]. intros d Hd.
  assert (H := derivable_pt_lim_opp _ _ _ (xlogx_sum_deriv d Hp ltac:(congruence))).
  replace (- rdot (map (fun l => l + 1) (log_pos x)) d) with (rdot (map (fun l => - l - 1) (log_pos x)) d) in H.
  2:{ rewrite <- rdot_opp_l. f_equal. unfold ropp. rewrite map_map. apply map_ext. intros; ring. }
  apply deriv_local with (2 := H). destruct (positive_near d Hp ltac:(congruence)) as [e [He Hn]].
  exists e. split; [auto|]. intros s Hs2. rewrite Rminus_0_r in Hs2. specialize (Hn s Hs2).
  pose proof (positive_some Hn) as Hq. unfold entropy_func in Hq.
  destruct (vany (fun a => Rltb a 0) (radd x (rscale s d))); [discriminate|]. unfold opp_fct. inversion Hq as [Hq']. rewrite Hq'. reflexivity.
Qed.

(** translation *)
Lemma grad_translate n f b : length b = n ->
  (forall x, length x = n -> is_gradient n (sfunc f) x (sgrad f x)) ->
  forall x, length x = n -> is_gradient n (sfunc (smooth_func_translate f b)) x (sgrad (smooth_func_translate f b) x).
Proof.
  intros Hb H x Hx. simpl. destruct (H (radd x b)) as [H1 H2]; [vl|]. split; [auto|]. intros d Hd.
  specialize (H2 d Hd). apply deriv_local with (2 := H2). exists 1. split; [lra|]. intros s _. f_equal. veq.
Qed.

Lemma hard_nth x tau i :
  (hard_threshold x tau)@i = if Rlt_dec (sqrt (2 * tau)) (Rabs (x@i)) then x@i else 0.
Proof.
  unfold hard_threshold. set (h := fun a => (if Rltb (sqrt (2 * tau)) (Rabs a) then 1 else 0) * a).
  replace 0 with (h 0) at 1 by (unfold h; ring). rewrite (map_nth h). unfold h, Rltb.
  destruct (Rlt_dec (sqrt (2 * tau)) (Rabs (x@i))); ring.
Qed.
Lemma hard_min tau x z : 0 <= tau -> length z = length x ->
  prox_obj l0 tau x (hard_threshold x tau) <= prox_obj l0 tau x z.
Proof.
  intros Ht. unfold prox_obj, hard_threshold, nrm2, rsub. cbv zeta.
  assert (Hg : sqrt (2 * tau) * sqrt (2 * tau) = 2 * tau) by (apply sqrt_sqrt; lra).
  pose proof (sqrt_pos (2 * tau)) as Hgp. set (g := sqrt (2 * tau)) in *.
  revert z; induction x as [|a x IH]; intros [|b z] Hl; try discriminate Hl; cbn [map zipw rdot l0]; [lra|].
  specialize (IH z ltac:(simpl in Hl; lia)).
  assert (E : forall c, c = (if Rltb g (Rabs a) then 1 else 0) * a ->
     tau * (if Req_EM_T c 0 then 0 else 1) + / 2 * ((c - a) * (c - a)) <= tau * (if Req_EM_T b 0 then 0 else 1) + / 2 * ((b - a) * (b - a))).
  { intros c Ec. assert (Hsq : a * a = Rabs a * Rabs a) by (unfold Rabs; destruct (Rcase_abs a); ring).
    pose proof (Rabs_pos a). pose proof (Rle_0_sqr (b - a)) as Hs. unfold Rsqr in Hs. destruct (Rltb_spec g (Rabs a)) as [H1|H1].
    - assert (c = a) by lra. subst c. rewrite H0.
      destruct (Req_EM_T a 0) as [E0|E0]; [subst a; rewrite Rabs_R0 in *; lra|].
      destruct (Req_EM_T b 0) as [Eb|Eb]; [subst b|]; nra.
    - assert (c = 0) by lra. subst c. rewrite H0. destruct (Req_EM_T 0 0); [|lra].
      destruct (Req_EM_T b 0) as [Eb|Eb]; [subst b; lra|]. nra. }
  specialize (E _ eq_refl). fold g. lra.
Qed.
Lemma gamma_tau_hard g : 0 <= g -> sqrt (2 * gamma_to_tau_hard_threshold g) = g.
Proof. intros Hg. unfold gamma_to_tau_hard_threshold. replace (2 * (/ 2 * (g * g))) with (g * g) by field. apply sqrt_square; auto. Qed.
Lemma tau_gamma_hard tau : 0 <= tau -> gamma_to_tau_hard_threshold (sqrt (2 * tau)) = tau.
Proof. intros Ht. unfold gamma_to_tau_hard_threshold. rewrite sqrt_sqrt by lra. field. Qed.
Lemma Rpower_inv_mult a b c : 0 < a -> b * c = 1 -> Rpower (Rpower a b) c = a.
Proof. intros Ha E. rewrite Rpower_mult, E. now apply Rpower_1. Qed.
Lemma gamma_tau_half g : 0 < g -> half_gamma (gamma_to_tau_half_threshold g) = g.
Proof.
  intros Hg. unfold half_gamma, gamma_to_tau_half_threshold.
  assert (Hr : 0 < Rpower 54 (1 / 3)) by apply exp_pos. set (r := Rpower 54 (1 / 3)) in *.
  rewrite Rpower_inv_mult; [field; lra| |field]. apply Rmult_lt_0_compat; [|auto].
  apply Rmult_lt_0_compat; [lra|apply Rinv_0_lt_compat; auto].
Qed.
Lemma tau_gamma_half tau : 0 < tau -> gamma_to_tau_half_threshold (half_gamma tau) = tau.
Proof.
  intros Ht. unfold half_gamma, gamma_to_tau_half_threshold.
  assert (Hr : 0 < Rpower 54 (1 / 3)) by apply exp_pos. set (r := Rpower 54 (1 / 3)) in *.
  replace (4 / r * (r / 4 * Rpower tau (2 / 3))) with (Rpower tau (2 / 3)) by (field; lra).
  apply Rpower_inv_mult; [auto|field].
Qed.
