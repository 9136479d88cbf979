(** Properties of the spectral projected gradient method (property C44). *)
From Coq Require Import List Arith Bool Lia Reals Lra Psatz.
From Verif Require Import Vec RVec RMat Loop LoopLemmas SolverSpec SolverLemmas OptSpec OptModel OptProofs SelModel SpgModel SpgSpec SpgProofs SpgProofs2.
Import ListNotations.
Set Implicit Arguments.
Local Open Scope R_scope.

(** every iterate is feasible; the stored gradient and function value are those of the iterate *)
Theorem C44_feasible n C func grad proj opt x0 k s :
  convex_set n C -> projects_onto n C proj -> (forall x, length x = n -> length (grad x) = n) ->
  (1 <= so_memory opt)%nat -> length x0 = n ->
  reaches (spg_cond proj opt) (spg_step func grad proj opt) (spg_init func grad proj opt x0) k s ->
  length (sg_x s) = n /\ C (sg_x s) /\ C (sg_x_prev s) /\ sg_g s = grad (sg_x s) /\
  length (sg_f_past s) = so_memory opt /\ (sg_f_past s)@0 = func (sg_x s) /\ sg_delta s <= 0.
Proof.
  intros HC HP Hg Hm Hx H. destruct (reach_inv HC HP Hg Hm Hx H) as (A & B & D & _ & E & _ & F & G & I & _). repeat (split; [assumption|]). assumption.
Qed.
Print Assumptions C44_feasible.
(** each step: a fraction of a feasible descent direction, with the Armijo decrease
    relative to the worst of the remembered values, or after 50 evaluations *)
Theorem C44_step n C func grad proj opt x0 k s s' :
  convex_set n C -> projects_onto n C proj -> (forall x, length x = n -> length (grad x) = n) ->
  (1 <= so_memory opt)%nat -> length x0 = n ->
  reaches (spg_cond proj opt) (spg_step func grad proj opt) (spg_init func grad proj opt x0) k s ->
  spg_step func grad proj opt s = Some s' ->
  exists alpha d calls, 0 < alpha <= 1 /\ length d = n /\ C (radd (sg_x s) d) /\
    sg_x s' = radd (sg_x s) (rscale alpha d) /\ sg_delta s' = rdot (grad (sg_x s)) d /\ nrm2 d <= - (10 ^ 10 * sg_delta s') /\
    sg_f_calls s' = (sg_f_calls s + calls)%nat /\ (1 <= calls <= 50)%nat /\
    sg_f_past s' = func (sg_x s') :: removelast (sg_f_past s) /\
    (func (sg_x s') <= vmax (sg_f_past s) + alpha * (so_suff_dec opt * sg_delta s') \/ calls = 50%nat).
Proof.
  intros HC HP Hg Hm Hx H B. pose proof (reach_inv HC HP Hg Hm Hx H) as Iv. destruct (step_facts HC HP Hg Hm _ Hx Iv B) as (al & d & c & Q1 & Q2 & Q3 & Q4 & Q5 & Q6 & Q7 & Q8 & Q9 & Q10).
  exists al, d, c. assert (G : sg_g s = grad (sg_x s)) by apply Iv. rewrite G in Q4. tauto.
Qed.
Print Assumptions C44_step.
(** it always returns; the counters are bounded by the budgets (the initial step is
    made, and the evaluations of the running line search completed, regardless of them) *)
Theorem C44_terminates n C func grad proj opt x0 fuel :
  convex_set n C -> projects_onto n C proj -> (forall x, length x = n -> length (grad x) = n) ->
  (1 <= so_memory opt)%nat -> length x0 = n -> (so_max_iters opt <= fuel)%nat ->
  exists s, spg_solve_from func grad proj opt x0 fuel = Done s /\
    (sg_iterations s <= Nat.max 1 (so_max_iters opt))%nat /\ (sg_f_calls s < Nat.max 3 (so_max_f_calls opt + 50))%nat /\
    sg_g_calls s = S (sg_iterations s) /\
    (sg_iterations s = Nat.max 1 (so_max_iters opt) \/ (so_max_f_calls opt <= sg_f_calls s)%nat \/
     - so_progress_tol opt < sg_delta s \/ nrminf (rsub (proj (rsub (sg_x s) (grad (sg_x s)))) (sg_x s)) < so_optim_tol opt).
Proof.
  intros HC HP Hg Hm Hx Hf. destruct (SpgProofs.total func grad proj opt Hm x0 Hx Hf) as [s Hs]. exists s. split; [auto|].
  unfold spg_solve_from in Hs. apply while_done in Hs as [j [Hj [Hr Hc]]].
  destruct (reach_max HC HP Hg Hm Hx Hr) as [M1 M2]. pose proof (reach_inv HC HP Hg Hm Hx Hr) as (_ & _ & G & _ & _ & _ & _ & _ & _ & I1 & _ & Gc).
  split; [auto|]. split; [auto|]. split; [auto|]. unfold spg_cond in Hc. cbv zeta in Hc. rewrite !andb_false_iff in Hc. rewrite G in Hc.
  destruct Hc as [[[Hc|Hc]|Hc]|Hc]; [left; apply Nat.ltb_ge in Hc; lia|right; right; left; now apply Rleb_false in Hc|right; right; right; now apply Rleb_false in Hc|right; left; now apply Nat.ltb_ge in Hc].
Qed.
Print Assumptions C44_terminates.
(** without the budget exhausted by the initial step alone, iterations <= max_iters; a
    zero budget still performs one step *)
Theorem C44_zero_budget_refuted : exists func grad proj opt x0 s,
  spg_solve_from func grad proj opt x0 0 = Done s /\ so_max_iters opt = 0%nat /\ sg_iterations s = 1%nat.
Proof.
  exists (fun _ => 0), (fun _ => [0]), (fun x => x), (SPGOptions 0 0 0 0 0 1), [0]. eexists. unfold spg_solve_from. cbn [while_ spg_cond sg_iterations spg_init so_max_iters Nat.ltb Nat.leb andb].
  split; [reflexivity|]. split; reflexivity.
Qed.
Print Assumptions C44_zero_budget_refuted.
(** for L-smooth functions with L at most about 10^5 every line search succeeds and no
    iterate is worse than the first one *)
Theorem C44_level_set n C func grad proj opt x0 L k s :
  convex_set n C -> projects_onto n C proj -> (forall x, length x = n -> length (grad x) = n) ->
  (1 <= so_memory opt)%nat -> length x0 = n -> smooth_on n C func grad L -> 0 <= L -> 0 <= so_suff_dec opt < 1 ->
  L * 10 ^ 10 <= 2 ^ 50 * (1 - so_suff_dec opt) ->
  reaches (spg_cond proj opt) (spg_step func grad proj opt) (spg_init func grad proj opt x0) k s ->
  func (sg_x s) <= func (sg_x (spg_init func grad proj opt x0)).
Proof. exact (fun HC HP Hg Hm Hx Sm L0 Hs HL H => level HC HP Hg Hm Hx Sm L0 Hs HL H). Qed.
Print Assumptions C44_level_set.
(** for larger L a search may exhaust its 50 evaluations and the increase is accepted *)
Theorem C44_capped_search_refuted : exists func grad proj opt x0 L s,
  projects_onto 1 (fun _ => True) proj /\ smooth_on 1 (fun _ => True) func grad L /\
  0 < so_suff_dec opt < 1 /\ (1 <= so_memory opt)%nat /\ length x0 = 1%nat /\
  spg_step func grad proj opt (spg_init func grad proj opt x0) = Some s /\
  func (sg_x (spg_init func grad proj opt x0)) + 100 < func (sg_x s).
Proof.
  destruct hstep as [s [Hs [_ Hv]]]. exists hf, hg, (fun v => v), hopt, [0], (2 ^ 61), s.
  split. { apply vi_projects. intros x Hx. split; [auto|]. split; [exact I|]. intros z Hz _.
    assert (E : rsub x x = rzero 1) by (unfold rzero; veq). rewrite E. right. rewrite rdot_sym. apply rdot_zero_r. }
  split; [exact hsmooth|]. split. { cbn. split; [apply Rinv_0_lt_compat; lra|]. rewrite <- Rinv_1. apply Rinv_lt_contravar; lra. }
  split; [cbn; lia|]. split; [reflexivity|]. split; [exact Hs|]. rewrite hinit. cbn [sg_x].
  assert (F1 : hf [1] = -1). { unfold hf. cbn [nth]. unfold Rmax. destruct (Rle_dec 0 (1 - 1)); lra. } rewrite F1. lra.
Qed.
Print Assumptions C44_capped_search_refuted.
(** the quadratic interpolation of the line search is never used: while it runs, the
    step is halved (the formula lacks the slope factor, so its value is negative) *)
Theorem C44_halving func x d f_max f_last gamma delta l : gamma < 1 -> delta < 0 -> f_last <= f_max ->
  line_search func x d f_max f_last gamma delta = Done l -> ls_alpha l = / 2 ^ (ls_calls l - 1).
Proof.
  intros Hg Hd Hf H. unfold line_search in H. apply while_done in H as [j [_ [Hr _]]]. pose proof (ls_reach Hr) as [_ Ec].
  rewrite Ec. replace (S j - 1)%nat with j by lia. eapply ls_halving; [| | |exact Hr]; assumption.
Qed.
Print Assumptions C44_halving.
(** the optimality measure vanishes only at minimisers of a convex function over C *)
Theorem C44_optimality n C func grad proj x z : convex_set n C -> projects_onto n C proj ->
  (forall x, length x = n -> length (grad x) = n) -> length x = n -> length z = n -> C z ->
  (forall u, length u = n -> C u -> func x + rdot (grad x) (rsub u x) <= func u) ->
  nrminf (rsub (proj (rsub x (grad x))) x) = 0 -> func x <= func z.
Proof.
  intros HC HP Hg Lx Lz Cz Cv Hn. pose proof (Hg x Lx) as Lg. assert (Ly : length (rsub x (grad x)) = n) by vl. destruct (HP _ Ly) as [Lp _].
  assert (F : proj (rsub x (grad x)) = x).
  { apply vec_eq; [unfold vec in *; congruence|]. intros i Hi. pose proof (@nrminf_ge (rsub (proj (rsub x (grad x))) x) i) as Hb.
    rewrite Hn in Hb. rewrite rsub_nth in Hb by (unfold vec in *; congruence). pose proof (Rabs_pos ((proj (rsub x (grad x)))@i - x@i)).
    assert (E : Rabs ((proj (rsub x (grad x)))@i - x@i) = 0) by (apply Rle_antisym; auto). 
    destruct (Req_dec ((proj (rsub x (grad x)))@i - x@i) 0) as [|Nz]; [lra|]. now apply Rabs_no_R0 in Nz. }
  exact (@fixed_point_minimises n C func grad proj hopt HC HP Hg ltac:(cbn; lia) x Lx x z Lx Lz Cz F Cv).
Qed.
Print Assumptions C44_optimality.
Example C44_nonvacuous : exists C func grad proj opt L,
  convex_set 2 C /\ projects_onto 2 C proj /\ (forall x, length x = 2%nat -> length (grad x) = 2%nat) /\ (1 <= so_memory opt)%nat /\
  smooth_on 2 C func grad L /\ 0 <= L /\ 0 <= so_suff_dec opt < 1 /\ L * 10 ^ 10 <= 2 ^ 50 * (1 - so_suff_dec opt) /\
  ~ C [2; 0] /\ C [1; 0].
Proof.
  exists (fun y => forall i, (i < 2)%nat -> Rabs (y@i) <= 1), (fun x => / 2 * nrm2 x), (fun x => x), (fun x => project_to_box x 1), hopt, 1.
  split. { intros x y t Lx Ly Cx Cy Ht i Hi. specialize (Cx i Hi). specialize (Cy i Hi). rewrite radd_nth by vl. rewrite rscale_nth, rsub_nth by vl.
    apply Rabs_le. assert (Bx : -1 <= x@i <= 1) by (unfold Rabs in Cx; destruct (Rcase_abs (x@i)); lra). assert (By : -1 <= y@i <= 1) by (unfold Rabs in Cy; destruct (Rcase_abs (y@i)); lra). nra. }
  split; [apply vi_projects, vi_to_box; lra|]. split; [auto|]. split; [cbn; lia|]. split.
  { intros x d t Lx Ld _ _ _. unfold nrm2. rewrite rdot_add_l, !rdot_add_r, !rdot_scale_l, !rdot_scale_r, (rdot_sym d x) by vl. right. field. }
  split; [lra|]. split. { cbn. split; [left; apply Rinv_0_lt_compat; lra|]. rewrite <- Rinv_1. apply Rinv_lt_contravar; lra. }
  split. { cbn [so_suff_dec hopt]. assert (/ 10 ^ 4 <= / 2) by (apply Rinv_le_contravar; lra). assert (2 ^ 49 = 562949953421312) by (simpl; ring). replace (2 ^ 50) with (2 * 2 ^ 49) by (simpl; ring). nra. }
  split. { intros H. specialize (H 0%nat ltac:(lia)). cbn in H. rewrite Rabs_right in H by lra. lra. }
  intros [|[|i]] Hi; cbn; [rewrite Rabs_right; lra|rewrite Rabs_R0; lra|lia].
Qed.
