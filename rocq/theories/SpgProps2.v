(** Convergence of the spectral projected gradient method (property C91). *)
From Coq Require Import List Arith Bool Lia Reals Lra Psatz.
From Verif Require Import Vec RVec RMat Loop LoopLemmas SolverSpec SolverLemmas OptSpec OptModel OptProofs SelModel SelProofs SpgModel SpgSpec SpgProofs SpgProofs2 SeqSpec SpgConv.
Import ListNotations.
Set Implicit Arguments.
Local Open Scope R_scope.

(** the function lies above its tangents on C *)
Definition tangent_below (n : nat) (C : vec -> Prop) (f : vec -> R) (grad : vec -> vec) : Prop :=
  forall x u, length x = n -> length u = n -> C x -> C u -> f x + rdot (grad x) (rsub u x) <= f u.
(** the points of C with values below any given level are bounded *)
Definition bounded_levels (n : nat) (C : vec -> Prop) (f : vec -> R) : Prop :=
  forall c, exists Rb, forall u, length u = n -> C u -> f u <= c -> nrm u <= Rb.

(** the values of the iterates approach the minimum over C: after N steps every iterate is
    feasible and within eps of the minimum, whatever the tolerances and the budgets *)
Theorem C91_converges n C func grad proj x0 L M gamma q :
  convex_set n C -> projects_onto n C proj -> (forall x, length x = n -> length (grad x) = n) ->
  (1 <= M)%nat -> length x0 = n -> smooth_on n C func grad L -> 0 <= L -> 0 < gamma < 1 -> L * 10 ^ 10 <= 2 ^ 50 * (1 - gamma) ->
  tangent_below n C func grad -> bounded_levels n C func -> minimises n C func q ->
  forall eps, 0 < eps -> exists N, forall opt k s, so_memory opt = M -> so_suff_dec opt = gamma -> (N <= k)%nat ->
    reaches (spg_cond proj opt) (spg_step func grad proj opt) (spg_init func grad proj opt x0) k s ->
    C (sg_x s) /\ func q <= func (sg_x s) <= func q + eps.
Proof.
  intros HC HP Hg HM Lx Sm L0 Gm HL Tb Bl [Lq [Cq Mq]] eps He.
  destruct (conv_exists HC HP Hg HM Lx Sm L0 Gm HL Tb Bl Lq Cq Mq He) as [N HN]. exists N. intros opt k s Em Eg Hk H. assert (Hm : (1 <= so_memory opt)%nat) by lia.
  pose proof (reach_inv HC HP Hg Hm Lx H) as (_ & Cx & _ & _ & _ & _ & Lf & F0 & _). split; [exact Cx|]. destruct (HN opt k s Em Eg Hk H) as [H1 H2]. split; [exact H1|].
  eapply Rle_trans; [|exact H2]. rewrite <- F0. apply vmax_spec; [intros E0; rewrite E0 in Lf; simpl in Lf; lia|]. apply nth_In. lia.
Qed.
Print Assumptions C91_converges.

(** with tolerances that are not positive and large enough budgets the solver returns a
    feasible point within eps of the minimum *)
Theorem C91_solves n C func grad proj x0 L M gamma q :
  convex_set n C -> projects_onto n C proj -> (forall x, length x = n -> length (grad x) = n) ->
  (1 <= M)%nat -> length x0 = n -> smooth_on n C func grad L -> 0 <= L -> 0 < gamma < 1 -> L * 10 ^ 10 <= 2 ^ 50 * (1 - gamma) ->
  tangent_below n C func grad -> bounded_levels n C func -> minimises n C func q ->
  forall eps, 0 < eps -> exists N, forall ptol otol iters calls fuel, ptol <= 0 -> otol <= 0 -> (N < iters)%nat -> (50 * N < calls)%nat -> (iters <= fuel)%nat ->
    exists s, spg_solve_from func grad proj (SPGOptions ptol otol gamma iters calls M) x0 fuel = Done s /\
      length (sg_x s) = n /\ C (sg_x s) /\ func q <= func (sg_x s) <= func q + eps.
Proof.
  intros HC HP Hg HM Lx Sm L0 Gm HL Tb Bl [Lq [Cq Mq]] eps He.
  destruct (@C91_converges n C func grad proj x0 L M gamma q HC HP Hg HM Lx Sm L0 Gm HL Tb Bl (conj Lq (conj Cq Mq)) eps He) as [N HN]. exists N. intros ptol otol iters calls fuel Hp Ho Hi Hc Hf.
  set (opt := SPGOptions ptol otol gamma iters calls M).
  destruct (SpgProofs.total func grad proj opt HM x0 Lx Hf) as [s Hs]. exists s. split; [exact Hs|].
  unfold spg_solve_from in Hs. apply while_done in Hs as [j [Hj [Hr Hcd]]].
  pose proof (@reach_inv n C func grad proj opt HC HP Hg HM x0 Lx _ _ Hr) as (Lxs & Cxs & _ & _ & _ & _ & _ & _ & Dl & _ & Fc & _). split; [exact Lxs|]. split; [exact Cxs|].
  apply (fun Hk => proj2 (HN opt j s eq_refl eq_refl Hk Hr)). assert (Ij : sg_iterations s = S j) by (exact (@SpgProofs.reach_iter n func grad proj opt HM x0 Lx j s Hr)).
  unfold spg_cond in Hcd. cbv zeta in Hcd. rewrite !andb_false_iff in Hcd. cbn [so_max_iters so_progress_tol so_optim_tol so_max_f_calls opt] in Hcd.
  destruct Hcd as [[[Q|Q]|Q]|Q]; [apply Nat.ltb_ge in Q; lia|apply Rleb_false in Q; lra| |apply Nat.ltb_ge in Q; lia].
  apply Rleb_false in Q. pose proof (nrminf_pos (rsub (proj (rsub (sg_x s) (sg_g s))) (sg_x s))). lra.
Qed.
Print Assumptions C91_solves.

(** with a positive progress tolerance no run takes more than N steps, whatever the other
    tolerance and the budgets *)
Theorem C91_stops n C func grad proj x0 L M gamma q :
  convex_set n C -> projects_onto n C proj -> (forall x, length x = n -> length (grad x) = n) ->
  (1 <= M)%nat -> length x0 = n -> smooth_on n C func grad L -> 0 <= L -> 0 < gamma < 1 -> L * 10 ^ 10 <= 2 ^ 50 * (1 - gamma) ->
  tangent_below n C func grad -> bounded_levels n C func -> minimises n C func q ->
  forall ptol, 0 < ptol -> exists N, forall opt k s, so_memory opt = M -> so_suff_dec opt = gamma -> ptol <= so_progress_tol opt ->
    reaches (spg_cond proj opt) (spg_step func grad proj opt) (spg_init func grad proj opt x0) k s -> (k <= N)%nat.
Proof.
  intros HC HP Hg HM Lx Sm L0 Gm HL Tb Bl [Lq [Cq Mq]]. exact (stops_exists HC HP Hg HM Lx Sm L0 Gm HL Tb Bl Lq Cq Mq).
Qed.
Print Assumptions C91_stops.

(** the statement applies: nearest point of a box to the origin shifted, in two dimensions *)
Example C91_nonvacuous : exists C func grad proj L gamma q,
  convex_set 2 C /\ projects_onto 2 C proj /\ (forall x, length x = 2%nat -> length (grad x) = 2%nat) /\
  smooth_on 2 C func grad L /\ 0 <= L /\ 0 < gamma < 1 /\ L * 10 ^ 10 <= 2 ^ 50 * (1 - gamma) /\
  tangent_below 2 C func grad /\ bounded_levels 2 C func /\ minimises 2 C func q /\ q = [1; 1 / 2] /\ ~ C [3; 1 / 2] /\ func q = 2.
Proof.
  assert (Rabs_inv : forall a, Rabs a <= 1 -> -1 <= a <= 1) by (intros a Ha; unfold Rabs in Ha; destruct (Rcase_abs a); lra).
  set (c := [3; 1 / 2]). exists (fun y => forall i, (i < 2)%nat -> Rabs (y@i) <= 1), (fun x => / 2 * nrm2 (rsub x c)), (fun x => rsub x c), (fun x => project_to_box x 1), 1, (/ 10 ^ 4), [1; 1 / 2].
  assert (Lc : length c = 2%nat) by reflexivity.
  split. { intros x y t Lx Ly Cx Cy Ht i Hi. specialize (Cx i Hi). specialize (Cy i Hi). rewrite radd_nth by vl. rewrite rscale_nth, rsub_nth by vl.
    apply Rabs_le. assert (Bx : -1 <= x@i <= 1) by (unfold Rabs in Cx; destruct (Rcase_abs (x@i)); lra). assert (By : -1 <= y@i <= 1) by (unfold Rabs in Cy; destruct (Rcase_abs (y@i)); lra). nra. }
  split; [apply vi_projects, vi_to_box; lra|]. split; [intros x Lx; vl|]. split.
  { intros x d t Lx Ld _ _ _. assert (E : rsub (radd x (rscale t d)) c = radd (rsub x c) (rscale t d)) by veq. rewrite E. assert (Lxc : length (rsub x c) = 2%nat) by vl.
    unfold nrm2. revert Lxc. generalize (rsub x c). intros u Lu. rewrite rdot_add_l, !rdot_add_r, !rdot_scale_l, !rdot_scale_r, (rdot_sym d u) by vl. right. field. }
  split; [lra|]. split. { split; [apply Rinv_0_lt_compat; lra|]. rewrite <- Rinv_1. apply Rinv_lt_contravar; lra. }
  split. { assert (/ 10 ^ 4 <= / 2) by (apply Rinv_le_contravar; lra). assert (2 ^ 49 = 562949953421312) by (simpl; ring). replace (2 ^ 50) with (2 * 2 ^ 49) by (simpl; ring). nra. }
  assert (Tb : forall x u, length x = 2%nat -> length u = 2%nat -> / 2 * nrm2 (rsub x c) + rdot (rsub x c) (rsub u x) <= / 2 * nrm2 (rsub u c)).
  { intros x u Lx Lu. assert (E : rsub u c = radd (rsub x c) (rsub u x)) by veq. rewrite E. assert (L1 : length (rsub x c) = 2%nat) by vl. assert (L2 : length (rsub u x) = 2%nat) by vl.
    revert L1 L2. generalize (rsub x c) (rsub u x). intros a b La Lb. unfold nrm2. rewrite rdot_add_l, !rdot_add_r, (rdot_sym b a) by vl. pose proof (rdot_pos b). lra. }
  split. { intros x u Lx Lu _ _. now apply Tb. }
  split. { intros lev. exists 2. intros u Lu Cu _. destruct u as [|a [|b [|]]]; try discriminate. pose proof (Cu 0%nat ltac:(lia)) as A. pose proof (Cu 1%nat ltac:(lia)) as B. cbn [nth] in A, B.
    unfold nrm. rewrite <- (sqrt_square 2) by lra. apply sqrt_le_1_alt. cbn. apply Rabs_inv in A. apply Rabs_inv in B. nra. }
  split. { split; [reflexivity|]. split. { intros [|[|i]] Hi; [cbn; rewrite Rabs_right; lra|cbn; rewrite Rabs_right; lra|lia]. }
    intros z Lz Cz. eapply Rle_trans; [|apply (Tb [1; 1 / 2] z); [reflexivity|exact Lz]]. destruct z as [|a [|b [|]]]; try discriminate.
    pose proof (Cz 0%nat ltac:(lia)) as A. cbn [nth] in A. apply Rabs_inv in A. unfold c. cbn. lra. }
  split; [reflexivity|]. split. { intros H. specialize (H 0%nat ltac:(lia)). cbn in H. rewrite Rabs_right in H by lra. lra. }
  unfold c, nrm2. cbn. lra.
Qed.
