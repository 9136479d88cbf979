(** Concrete cases and combinations used by OptProps.v. *)
From Coq Require Import List Arith Bool Lia Reals Lra Psatz Permutation.
From Verif Require Import Scalar Vec Loop RVec RMat XReal OptSpec OptModel OptProofs OptProofs2 OptProofs3 OptProofs4
  OptProofs5 SortedL1Model SortedL1Proofs.
Import ListNotations.
Set Implicit Arguments.
Local Open Scope R_scope.

Ltac len1 := repeat match goal with
  | H : length ?l = 0%nat |- _ => destruct l; [clear H|discriminate H]
  | H : length ?l = S _ |- _ => destruct l as [|? ?]; [discriminate H|cbn [length] in H; apply Nat.succ_inj in H]
  end.
Lemma vec1 (x : vec) : length x = 1%nat -> x = [x@0].
Proof. intros H. destruct x as [|a [|b x]]; try discriminate H. reflexivity. Qed.

Lemma affine_example :
  let A := [[3; 4]] in let Rf := [[5]] in let solve := fun r : vec => [r@0 / 5] in
  shape 1 2 A /\ shape 1 1 Rf /\
  (forall w, length w = 1%nat -> mtv 1 Rf (mv Rf w) = mv A (mtv 2 A w)) /\
  (forall r, length r = 1%nat -> length (solve r) = 1%nat /\ mtv 1 Rf (solve r) = r) /\
  (forall v, length v = 1%nat -> length (solve v) = 1%nat /\ mv Rf (solve v) = v).
Proof.
  cbv zeta. split; [split; [reflexivity|intros r [<-|[]]; reflexivity]|].
  split; [split; [reflexivity|intros r [<-|[]]; reflexivity]|].
  split; [|split]; intros w Hw; rewrite (vec1 w Hw); [|split; [reflexivity|]..]; generalize (w@0); intros a;
    cbn; f_equal; field.
Qed.
Lemma box_rejects l u : proj_box l u = None <-> l = None /\ u = None.
Proof. destruct l, u; simpl; split; intros H; try discriminate H; auto; destruct H; discriminate. Qed.
Lemma l2_accepts q : (exists P, proj_l2_ball q = Some P) <-> 0 < q.
Proof.
  unfold proj_l2_ball. destruct (Rleb_spec q 0); split; intros H; try lra.
  - destruct H as [P H]; discriminate.
  - eexists; reflexivity.
Qed.
Lemma nrm_1 a : nrm [a] = Rabs a.
Proof. unfold nrm. cbn. rewrite Rplus_0_r. apply sqrt_Rsqr_abs. Qed.
Lemma dist_1 a b : dist [a] [b] = Rabs (a - b).
Proof. unfold dist. cbn. apply nrm_1. Qed.
Ltac rabs := unfold Rabs; repeat destruct (Rcase_abs _); lra.

Definition p2 (q b : R) (x : vec) : vec :=
  let r := rsub x [b] in
  radd (if Rltb q (nrm r) then rscale ((q - 1 / 10000000) * / nrm r) r else r) [b].
Lemma p2_eq q b : 0 < q -> proj_l2_ball_at q [b] = Some (p2 q b).
Proof. intros H. unfold proj_l2_ball_at. destruct (Rleb_spec q 0); [lra|]. reflexivity. Qed.
Lemma p2_out q a : 0 < q -> q < a -> p2 q 0 [a] = [q - 1 / 10000000].
Proof.
  intros Hq Ha. unfold p2. cbn [rsub zipw]. cbv zeta. rewrite nrm_1.
  replace (Rabs (a - 0)) with a by rabs. destruct (Rltb_spec q a); [|lra].
  cbn. f_equal. field. lra.
Qed.
Lemma p2_in q a : 0 < q -> 0 <= a <= q -> p2 q 0 [a] = [a].
Proof.
  intros Hq Ha. unfold p2. cbn [rsub zipw]. cbv zeta. rewrite nrm_1.
  replace (Rabs (a - 0)) with a by rabs. destruct (Rltb_spec q a); [lra|].
  cbn. f_equal. field.
Qed.
Lemma l2_at_not_nearest : exists q b P x z,
  proj_l2_ball_at q b = Some P /\ length b = 1%nat /\ length x = 1%nat /\ length z = 1%nat /\
  nrm (rsub z b) <= q /\ dist x z < dist x (P x).
Proof.
  exists 1, [0], (p2 1 0), [2], [1]. split; [apply p2_eq; lra|]. do 3 (split; [reflexivity|]). split.
  - cbn. rewrite nrm_1. rabs.
  - rewrite p2_out by lra. rewrite !dist_1. rabs.
Qed.
Lemma l2_at_outside : exists q b P x,
  proj_l2_ball_at q b = Some P /\ length b = 1%nat /\ length x = 1%nat /\ q < nrm (rsub (P x) b).
Proof.
  exists (1 / 100000000), [0], (p2 (1 / 100000000) 0), [1]. split; [apply p2_eq; lra|]. do 2 (split; [reflexivity|]).
  rewrite p2_out by lra. cbn. rewrite nrm_1. rabs.
Qed.
Lemma l2_at_expansive : exists q b P, proj_l2_ball_at q b = Some P /\ length b = 1%nat /\ ~ nonexpansive 1 P.
Proof.
  exists 1, [0], (p2 1 0). split; [apply p2_eq; lra|]. split; [reflexivity|].
  intros H. specialize (H [1] [1 + 1 / 100000000] eq_refl eq_refl).
  rewrite p2_in, p2_out in H by lra. rewrite !dist_1 in H. revert H.
  replace (1 - (1 - 1 / 10000000)) with (1 / 10000000) by field.
  replace (1 - (1 + 1 / 100000000)) with (- (1 / 100000000)) by field. rewrite Rabs_Ropp. rabs.
Qed.
Lemma l2_at_q q b P : proj_l2_ball_at q b = Some P -> 0 < q.
Proof. unfold proj_l2_ball_at. destruct (Rleb_spec q 0); [discriminate|intros; lra]. Qed.
Lemma l2_at_partial n q b P : length b = n -> proj_l2_ball_at q b = Some P ->
  exists N, projects_onto n (fun y => nrm (rsub y b) <= q) N /\
  forall x, length x = n ->
    length (P x) = n /\ (nrm (rsub x b) <= q -> P x = x) /\
    dist (P x) (N x) <= 1 / 10000000 /\
    (1 / 20000000 <= q -> nrm (rsub (P x) b) <= q).
Proof.
  intros Hb HP. pose proof (l2_at_q _ _ HP) as Hq. exists (ball_proj_at q b).
  split; [apply vi_projects, ball_proj_at_vi; auto|]. intros x Hx.
  destruct (@l2_ball_at_spec n q b P Hb HP x Hx) as [H1 [H2 [H3 H4]]]. repeat split; auto.
  intros Hq'. destruct (Rle_lt_dec (nrm (rsub x b)) q) as [H|H]; [rewrite H2; auto|]. rewrite H3 by auto. rabs.
Qed.

(** *** proximal operators *)
Lemma obj_scale q t f x z : prox_obj (fun z => q * f z) t x z = prox_obj f (t * q) x z.
Proof. unfold prox_obj. ring. Qed.
Lemma min_scale n dom q t f x z : unique_minimiser n dom (prox_obj f (t * q) x) z -> unique_minimiser n dom (prox_obj (fun z => q * f z) t x) z.
Proof.
  intros [H1 [H2 H3]]. split; [auto|]. split; [auto|]. intros y Hy Dy. rewrite !obj_scale. auto.
Qed.
Lemma prox_l1_full n q t x : 0 < q -> 0 < t -> length x = n ->
  exists z, prox_op (prox_l1 q) x t = map Fin z /\
    unique_minimiser n everywhere (prox_obj (fun z => q * nrm1 z) t x) z /\
    prox_vec_val (prox_l1 q) x t = (map Fin z, Fin (q * nrm1 z)).
Proof.
  intros Hq Ht Hx. assert (H : 0 < t * q) by now apply Rmult_lt_0_compat.
  exists (shrink x (t * q)). split; [now apply prox_l1_eq|]. split.
  - apply min_scale, strong_min, strong_shrink; auto. lra.
  - change (prox_vec_val (prox_l1 q) x t) with
      (prox_op (prox_l1 q) x t, match finite (prox_op (prox_l1 q) x t) with Some z => Fin (nrm1 (rscale q z)) | None => NaN end).
    rewrite prox_l1_eq, finite_map, nrm1_scale, Rabs_right by lra. auto.
Qed.
Lemma prox_l2_full n q t x : 0 < q -> 0 < t -> length x = n ->
  exists z, prox_op (prox_l2 q) x t = map Fin z /\
    unique_minimiser n everywhere (prox_obj (fun z => q * nrm z) t x) z /\
    prox_vec_val (prox_l2 q) x t = (map Fin z, Fin (q * nrm z)).
Proof.
  intros Hq Ht Hx. assert (H : 0 < t * q) by now apply Rmult_lt_0_compat.
  exists (l2_shrink (t * q) x). split; [now apply prox_l2_eq|]. split.
  - apply min_scale, strong_min, strong_l2; auto.
  - change (prox_vec_val (prox_l2 q) x t) with
      (prox_op (prox_l2 q) x t, match finite (prox_op (prox_l2 q) x t) with Some z => Fin (q * nrm z) | None => NaN end).
    rewrite prox_l2_eq, finite_map by lra. auto.
Qed.
Lemma vany_nonneg x : vany (fun a => Rltb a 0) x = false <-> nonneg x.
Proof.
  rewrite vany_false. unfold nonneg. split; intros H i Hi; specialize (H i Hi); [now apply Rltb_false in H|now apply Rltb_false].
Qed.
Lemma prox_l1_pos_eq q x t : prox_op (prox_l1_pos q) x t = map Fin (map (fun a => Rmax 0 (a - t * q)) x).
Proof. cbn. now rewrite map_map. Qed.
Lemma prox_l1_pos_full n q t x : 0 <= q -> 0 <= t -> length x = n ->
  exists z, prox_op (prox_l1_pos q) x t = map Fin z /\
    unique_minimiser n nonneg (prox_obj (fun z => q * nrm1 z) t x) z /\
    prox_vec_val (prox_l1_pos q) x t = (map Fin z, Fin (q * nrm1 z)).
Proof.
  intros Hq Ht Hx. assert (H : 0 <= t * q) by now apply Rmult_le_pos.
  set (z := map (fun a => Rmax 0 (a - t * q)) x).
  assert (Hs : strong n nonneg nrm1 (t * q) x z) by now apply strong_pos.
  exists z. split; [apply prox_l1_pos_eq|]. split.
  - apply min_scale, strong_min, Hs.
  - change (prox_vec_val (prox_l1_pos q) x t) with
      (prox_op (prox_l1_pos q) x t, match finite (prox_op (prox_l1_pos q) x t) with
         Some z => if vany (fun a => Rltb a 0) z then PInf else Fin (nrm1 (rscale q z)) | None => NaN end).
    rewrite prox_l1_pos_eq. fold z. rewrite finite_map. destruct Hs as [_ [Hn _]].
    replace (vany (fun a => Rltb a 0) z) with false by (symmetry; now apply vany_nonneg).
    rewrite nrm1_scale, Rabs_right by lra. auto.
Qed.
Lemma prox_l1_nonexp n q t : 0 < q -> 0 < t ->
  exists P, (forall x, prox_op (prox_l1 q) x t = map Fin (P x)) /\ nonexpansive n P.
Proof.
  intros Hq Ht. assert (H : 0 < t * q) by now apply Rmult_lt_0_compat.
  exists (fun x => shrink x (t * q)). split; [intros; now apply prox_l1_eq|].
  apply (strong_nonexpansive (dom := everywhere) (f := nrm1) (t := t * q)). intros x Hx. apply strong_shrink; auto. lra.
Qed.
Lemma prox_l1_pos_nonexp n q t : 0 <= q -> 0 <= t ->
  exists P, (forall x, prox_op (prox_l1_pos q) x t = map Fin (P x)) /\ nonexpansive n P.
Proof.
  intros Hq Ht. assert (H : 0 <= t * q) by now apply Rmult_le_pos.
  exists (map (fun a => Rmax 0 (a - t * q))). split; [intros; apply prox_l1_pos_eq|].
  apply (strong_nonexpansive (dom := nonneg) (f := nrm1) (t := t * q)). intros x Hx. now apply strong_pos.
Qed.
Lemma prox_l2_nonexp n q t : 0 < q -> 0 < t ->
  exists P, (forall x, prox_op (prox_l2 q) x t = map Fin (P x)) /\ nonexpansive n P.
Proof.
  intros Hq Ht. assert (H : 0 < t * q) by now apply Rmult_lt_0_compat.
  exists (l2_shrink (t * q)). split; [intros; now apply prox_l2_eq|].
  apply (strong_nonexpansive (dom := everywhere) (f := nrm) (t := t * q)). intros x Hx. now apply strong_l2.
Qed.
Lemma prox_l1_where q x t : 0 <= t * q ->
  (0 < t * q -> exists z, finite (prox_op (prox_l1 q) x t) = Some z) /\
  (t * q = 0 -> (forall a, In a x -> a <> 0) -> finite (prox_op (prox_l1 q) x t) = Some x) /\
  (t * q = 0 -> In 0 x -> finite (prox_op (prox_l1 q) x t) = None).
Proof. intros H. destruct (@prox_l1_finite q x t H) as [H1 [H2 H3]]. repeat split; auto. intros; eexists; now apply H1. Qed.
Lemma prox_l1_undefined : exists q x t, 0 <= t * q /\ finite (prox_op (prox_l1 q) x t) = None.
Proof. exists 1, [0], 0. split; [lra|]. apply prox_l1_where; [lra|lra|now left]. Qed.

(** *** sorted l1 *)
Lemma owl1_diverges : exists lam x t,
  length lam = length x /\ descending lam /\ nonneg lam /\ 0 < t /\ forall fuel, prox_owl1 fuel lam x t = Fuel.
Proof.
  exists [7; 5; 3; 1], [7; 7; 4; 4], 1. split; [reflexivity|]. split; [|split; [|split; [lra|apply sorted_diverges]]].
  - intros [|[|[|[|i]]]] [|[|[|[|j]]]] Hij Hj; simpl in *; try lia; lra.
  - intros [|[|[|[|i]]]] Hi; simpl in *; try lia; lra.
Qed.
Lemma owl1_example : prox_owl1 1 [2; 1] [-3; 3] 1 = Done [-3 / 2; 3 / 2].
Proof.
  unfold prox_owl1, prox_ordered_l1_a. cbn [map]. rewrite (Rabs_right 3), (Rabs_left (-3)) by lra.
  replace (- (-3)) with 3 by ring.
  assert (E : argsort [3; 3] = [0; 1]%nat) by (unfold argsort; cbn -[Rleb]; decide_R; reflexivity).
  rewrite E. cbn -[Rltb Rleb Rminus Rplus Rdiv Rmult]. unfold sign.
  decide_R; cbn -[Rltb Rleb Rminus Rplus Rdiv Rmult]; decide_R;
  cbn -[Rltb Rleb Rminus Rplus Rdiv Rmult]; decide_R; cbn -[Rltb Rleb Rminus Rplus Rdiv Rmult]; decide_R; try (exfalso; lra); f_equal; lsplit.
Qed.

(** *** Moreau envelope *)
Lemma nrm1_convex n : convex n nrm1.
Proof.
  intros x y s Hx Hy Hs. rewrite !(nrm1_sum (n := n)) by vl.
  rewrite <- !rsum_mul_l, <- rsum_add. apply rsum_le. intros i Hi. rewrite radd_nth, !rscale_nth by vl.
  eapply Rle_trans; [apply Rabs_triang|]. rewrite !Rabs_mult, (Rabs_right (1 - s)), (Rabs_right s) by lra. lra.
Qed.
Lemma moreau_example : convex 1 nrm1 /\
  forall x, length x = 1%nat -> unique_minimiser 1 everywhere (prox_obj nrm1 2 x) (soft_threshold x 2).
Proof.
  split; [apply nrm1_convex|]. intros x Hx.
  exact (strong_min (@strong_shrink 1 2 x ltac:(lra) Hx)).
Qed.
Lemma env_value_ex x v z : envelope_value 1 nrm1 2 x v -> length z = 1%nat -> v <= nrm1 z + / (2 * 2) * nrm2 (rsub x z).
Proof. intros [_ H] Hz. auto. Qed.
Lemma moreau_value_wrong : exists f prox mu x, convex 1 f /\ 0 < mu /\ length x = 1%nat /\
  (forall x, length x = 1%nat -> unique_minimiser 1 everywhere (prox_obj f mu x) (prox x mu)) /\
  ~ envelope_value 1 f mu x (sfunc (moreau_envelope f prox mu) x).
Proof.
  exists nrm1, soft_threshold, 2, [10]. split; [apply nrm1_convex|]. split; [lra|]. split; [reflexivity|].
  split; [apply moreau_example|]. intros H. apply (fun H => @env_value_ex _ _ [8] H eq_refl) in H. revert H.
  cbn -[Rmax Rmin]. rewrite (Rmax_right 0), (Rmin_left 0) by lra. unfold nrm2. cbn. rewrite !Rabs_right by lra. lra.
Qed.
Lemma moreau_gradient_wrong : exists f prox mu x, convex 1 f /\ 0 < mu /\ length x = 1%nat /\
  (forall x, length x = 1%nat -> unique_minimiser 1 everywhere (prox_obj f mu x) (prox x mu)) /\
  ~ is_gradient 1 (sfunc (moreau_envelope f prox mu)) x (sgrad (moreau_envelope f prox mu) x).
Proof.
  exists nrm1, soft_threshold, 2, [1]. split; [apply nrm1_convex|]. split; [lra|]. split; [reflexivity|].
  split; [apply moreau_example|]. intros [_ H]. specialize (H [1] eq_refl).
  assert (E : rdot (sgrad (moreau_envelope nrm1 soft_threshold 2) [1]) [1] = / 2).
  { cbn -[Rmax Rmin]. rewrite (Rmax_left 0), (Rmin_left 0) by lra. lra. }
  rewrite E in H.
  assert (H' : derivable_pt_lim (fun s => / 2 * (1 + s) * (1 + s)) 0 (/ 2)).
  { eapply deriv_local; [|exact H]. exists 1. split; [lra|]. intros y Hy. rewrite Rminus_0_r in Hy. apply Rabs_def2 in Hy.
    cbn -[Rmax Rmin]. rewrite (Rmax_left 0), (Rmin_left 0) by lra. unfold nrm2. cbn. rewrite !Rplus_0_r, Rabs_R0. field. }
  assert (H1 : derivable_pt_lim (fun s => / 2 * (1 + s) * (1 + s)) 0 1).
  { apply quad_bound_deriv with (c := / 2); [lra|]. intros s.
    replace (/ 2 * (1 + s) * (1 + s) - / 2 * (1 + 0) * (1 + 0) - s * 1) with (/ 2 * (s * s)) by field.
    rewrite Rabs_right; [lra|]. pose proof (Rle_0_sqr s). unfold Rsqr in *. lra. }
  pose proof (uniqueness_limite _ _ _ _ H' H1). lra.
Qed.
Lemma moreau_env n f prox mu : 0 < mu ->
  (forall x, length x = n -> unique_minimiser n everywhere (prox_obj f mu x) (prox x mu)) ->
  forall x, length x = n -> envelope_value n f mu x (env f prox mu x).
Proof.
  intros Hmu HP x Hx. destruct (HP x Hx) as [Hl [_ _]]. split.
  - exists (prox x mu). split; auto.
  - intros z Hz. apply (@env_le n f prox mu Hmu); auto.
    + intros y Hy. apply (HP y Hy).
    + intros y Hy w Hw. now apply (HP y Hy).
Qed.
Lemma moreau_value_1 n f prox x : length x = n ->
  (forall x, length x = n -> unique_minimiser n everywhere (prox_obj f 1 x) (prox x 1)) ->
  envelope_value n f 1 x (sfunc (moreau_envelope f prox 1) x).
Proof.
  intros Hx HP. pose proof (moreau_env prox Rlt_0_1 HP x Hx) as H.
  replace (sfunc (moreau_envelope f prox 1) x) with (env f prox 1 x); auto. unfold env. cbn. f_equal. f_equal. field.
Qed.
Lemma moreau_gradient n f prox mu : 0 < mu -> convex n f ->
  (forall x, length x = n -> unique_minimiser n everywhere (prox_obj f mu x) (prox x mu)) ->
  exists E, (forall x, length x = n -> envelope_value n f mu x (E x)) /\
    forall x, length x = n -> is_gradient n E x (sgrad (moreau_envelope f prox mu) x).
Proof.
  intros Hmu Hf HP. exists (env f prox mu). split; [now apply moreau_env|].
  intros x Hx. apply (@env_gradient n f prox mu); auto.
  - intros y Hy. apply (HP y Hy).
  - intros y Hy w Hw. now apply (HP y Hy).
Qed.

(** *** indicators *)
Lemma proj_ind n C P (ind : vec -> bool) : projects_onto n C P -> (forall x, length x = n -> ind x = true <-> C x) ->
  forall x, length x = n -> ind (P x) = true /\ (P x = x <-> ind x = true).
Proof.
  intros HP Hi x Hx. destruct (HP x Hx) as [H1 [H2 [_ [_ [H3 _]]]]]. split; [now apply Hi|]. rewrite Hi by auto. auto.
Qed.
Lemma l2_at_ind n q b P ind x : 1 / 20000000 <= q -> length b = n ->
  proj_l2_ball_at q b = Some P -> ind_l2_ball_at q b = Some ind -> length x = n ->
  ind (P x) = true /\ (P x = x <-> ind x = true).
Proof.
  intros Hq Hb HP Hi Hx. destruct (@l2_at_partial n q b P Hb HP) as [N [_ H]]. destruct (H x Hx) as [H1 [H2 [_ H3]]].
  rewrite !(@ind_l2_at_spec q b ind _ Hi). split; [auto|]. split; [|auto]. intros E. rewrite <- E. auto.
Qed.
Lemma affine_ind m n A Rf b solveUT solveU x :
  shape m n A -> shape m m Rf -> length b = m ->
  (forall w, length w = m -> mtv m Rf (mv Rf w) = mv A (mtv n A w)) ->
  (forall r, length r = m -> length (solveUT r) = m /\ mtv m Rf (solveUT r) = r) ->
  (forall v, length v = m -> length (solveU v) = m /\ mv Rf (solveU v) = v) -> length x = n ->
  let P := proj_affine n A b solveUT solveU in
  ind_affine A b (P x) = true /\ (P x = x -> ind_affine A b x = true).
Proof.
  intros H1 H2 H3 H4 H5 H6 Hx P. destruct (@vi_affine m n A Rf b solveUT solveU H1 H3 H4 H5 H6 x Hx) as [_ [HC _]]. fold P in HC.
  assert (K : forall y, mv A y = b -> ind_affine A b y = true).
  { intros y Hy. apply (@ind_affine_spec A b y m); auto; [apply H1|]. rewrite Hy.
    replace (rsub b b) with (rzero m) by (apply vec_eq; [vl|]; intros i _; rewrite rsub_nth, rzero_nth by auto; ring).
    rewrite nrm_rzero. apply Rmult_le_pos; [lra|apply nrm_pos]. }
  split; [auto|]. intros E. apply K. now rewrite <- E.
Qed.
Lemma affine_ind_tolerance : exists A Rf b solveUT solveU x,
  shape 1 1 A /\ shape 1 1 Rf /\ length b = 1%nat /\
  (forall w, length w = 1%nat -> mtv 1 Rf (mv Rf w) = mv A (mtv 1 A w)) /\
  (forall r, length r = 1%nat -> length (solveUT r) = 1%nat /\ mtv 1 Rf (solveUT r) = r) /\
  (forall v, length v = 1%nat -> length (solveU v) = 1%nat /\ mv Rf (solveU v) = v) /\
  ind_affine A b x = true /\ proj_affine 1 A b solveUT solveU x <> x.
Proof.
  exists [[1]], [[1]], [1], (fun r => [r@0]), (fun r => [r@0]), [1 + 1 / 100000000000].
  split; [split; [reflexivity|intros r [<-|[]]; reflexivity]|].
  split; [split; [reflexivity|intros r [<-|[]]; reflexivity]|].
  split; [reflexivity|].
  split; [intros w Hw; rewrite (vec1 w Hw); cbn; f_equal; ring|].
  split; [intros w Hw; split; [reflexivity|]; rewrite (vec1 w Hw); cbn; f_equal; ring|].
  split; [intros w Hw; split; [reflexivity|]; rewrite (vec1 w Hw); cbn; f_equal; ring|].
  split.
  - apply (@ind_affine_spec [[1]] [1] _ 1%nat); auto. cbn. rewrite !nrm_1. rabs.
  - cbn. intros H. injection H as H. lra.
Qed.

(** *** gradients *)
Lemma quad_matrix_wrong : exists P x, shape 2 2 P /\ length x = 2%nat /\
  ~ is_gradient 2 (sfunc (smooth_quad_matrix (Some P) None None)) x (sgrad (smooth_quad_matrix (Some P) None None) x).
Proof.
  exists [[0; 1]; [0; 0]], [0; 1]. split; [split; [reflexivity|intros r [<-|[<-|[]]]; reflexivity]|]. split; [reflexivity|].
  intros [_ H]. specialize (H [1; 0] eq_refl).
  match type of H with derivable_pt_lim _ _ ?g => assert (E : g = 1) by (cbn; ring) end.
  rewrite E in H.
  assert (H1 : derivable_pt_lim (fun s => sfunc (smooth_quad_matrix (Some [[0; 1]; [0; 0]]) None None) (radd [0; 1] (rscale s [1; 0]))) 0 (/ 2)).
  { apply quad_bound_deriv with (c := 0); [lra|]. intros s. cbn.
    match goal with |- Rabs ?a <= _ => replace a with 0 by field end. rewrite Rabs_R0. lra. }
  pose proof (uniqueness_limite _ _ _ _ H H1). lra.
Qed.
Lemma entropy_full n x : length x = n -> positive x ->
  exists g E, (forall y v, entropy_func y = Some v -> E y = v) /\
    entropy_grad x = Some g /\ is_gradient n E x g /\ entropy_vg_grad_val x = Some (g, E x).
Proof.
  intros Hx Hp. destruct (grad_entropy Hx Hp) as [g [H1 [H2 H3]]]. exists g, entropy_value.
  split; [|auto]. intros y v H. unfold entropy_value. now rewrite H.
Qed.
Lemma entropy_dom x : (exists v, entropy_func x = Some v) <-> nonneg x.
Proof.
  unfold entropy_func. rewrite <- vany_nonneg. destruct (vany _ x); split; intros H; auto; try discriminate.
  - destruct H; discriminate.
  - eexists; reflexivity.
Qed.
Lemma grad_val_agrees f x :
  (exists c, f = smooth_constant c) \/ (exists C D, f = smooth_linear C D) \/ (exists P q r, f = smooth_quad_matrix P q r) \/
  (exists n A b, f = smooth_quad_error n A b) \/ (exists tau, f = smooth_huber tau) ->
  sgrad_val f x = (sgrad f x, sfunc f x).
Proof. intros [[c ->]|[[C [D ->]]|[[P [q [r ->]]]|[[n [A [b ->]]]|[tau ->]]]]]; reflexivity. Qed.

(** *** thresholding *)
Lemma hard_percentile perc x i : 0 <= perc (map Rabs x) ->
  (hard_threshold_percentile perc x)@i = if Rlt_dec (perc (map Rabs x)) (Rabs (x@i)) then x@i else 0.
Proof.
  intros H. unfold hard_threshold_percentile. cbv zeta. fold (gamma_to_tau_hard_threshold (perc (map Rabs x))).
  rewrite hard_nth. rewrite gamma_tau_hard by auto. auto.
Qed.
Lemma map_nth0 (h : R -> R) x i : (i < length x)%nat -> (map h x)@i = h (x@i).
Proof. intros H. rewrite nth_indep with (d' := h 0) by (rewrite map_length; auto). apply map_nth. Qed.
Lemma half_percentile perc x i : 0 < perc (map Rabs x) -> (i < length x)%nat ->
  ((half_threshold_percentile perc x)@i <> 0 <-> perc (map Rabs x) <= Rabs (x@i)).
Proof.
  intros H Hi. unfold half_threshold_percentile. cbv zeta. fold (gamma_to_tau_half_threshold (perc (map Rabs x))).
  set (tau := gamma_to_tau_half_threshold _). unfold half_threshold. rewrite map_nth0 by auto. cbv zeta.
  assert (Hg : half_gamma tau = perc (map Rabs x)) by now apply gamma_tau_half.
  assert (Ht : 0 < tau) by (unfold tau, gamma_to_tau_half_threshold, Rpower; apply exp_pos).
  destruct (Rleb_spec (half_gamma tau) (Rabs (x@i))) as [Hc|Hc].
  - split; [intros; lra|]. intros _. destruct (trig_root Ht Hc) as [w [W1 [W2 [W3 W4]]]].
    intros E. pose proof (gamma_pos tau). apply (f_equal Rabs) in E. rewrite !Rabs_mult, Rabs_R0, (Rabs_right (2 / 3)) in E by lra.
    rewrite (Rabs_right (1 + _)) in E. 2:{ match goal with |- 1 + cos ?a >= 0 => pose proof (COS_bound a); lra end. }
    rewrite E in W2. lra.
  - split; [intros Hn; exfalso; now apply Hn|lra].
Qed.
Lemma soft_percentile perc x i : 0 <= perc (map Rabs x) -> (i < length x)%nat ->
  ((soft_threshold_percentile perc x)@i <> 0 <-> perc (map Rabs x) < Rabs (x@i)).
Proof.
  intros H Hi. unfold soft_threshold_percentile, soft_threshold. cbv zeta. rewrite map_nth0 by auto.
  set (t := perc _) in *. set (a := x@i). unfold Rmax, Rmin, Rabs.
  destruct (Rcase_abs a), (Rle_dec 0 (a - t)), (Rle_dec 0 (a + t)); split; intros H'; lra.
Qed.
