(** Properties C21, C30, C42 and C73 for the entry points with default arguments: the
    conjugate gradient and SPGL1 solvers started from zero, and spectral clustering
    with the random walk Laplacian and an estimated number of clusters. *)
From Coq Require Import List Arith Bool Lia Reals Lra.
From Verif Require Import Vec RVec RMat Loop LoopLemmas SolverSpec CGModel SolverProps OptModel OptSpec OptProps SlsModel SelModel SpglModel SpglSpec SpglProofs SpglProofs2 SpglProofs3 SpglProofs4 SpglProps
  KMeansModel ClusterModel SscModel SscSpec SscProofs LaplacianProofs SpectralModel SpectralSpec SpectralProofs SpectralProofs2 SpectralProofs3 SpectralProps.
Import ListNotations.
Local Open Scope R_scope.

(** ** C30: pcg without x0 starts from zero: n steps are enough for a positive
    operator, and a limit of one, which allows no step, returns zero *)
Theorem C30_default_start n A b max_iters tol atol M fuel :
  linear_op n n A -> symmetric_op n A -> positive_op n A ->
  (forall x, length x = n -> length (pcg_M M x) = n) -> symmetric_op n (pcg_M M) -> positive_op n (pcg_M M) ->
  length b = n -> (n <= fuel)%nat ->
  exists s, pcg_solve A b max_iters tol atol M fuel = Done s /\ (pcg_it s <= S n)%nat /\
    pcg_r s = rsub b (A (pcg_x s)) /\
    ((n < max_iters)%nat -> nrm2 (rsub b (A (pcg_x s))) <= Rmax (tol * tol * nrm2 b) (atol * atol)) /\
    ((max_iters <= 1)%nat -> pcg_x s = rzero n).
Proof.
  intros LA SA PA LM SM PM Hb Hf. assert (L0 : length (rzero (length b)) = n) by (rewrite rzero_len; exact Hb).
  destruct (@C30_solves_in_n_steps n A b (rzero (length b)) max_iters tol atol M fuel LA SA PA LM SM PM Hb L0 Hf) as [s [E [I Q]]].
  exists s. split; [exact E|]. split; [exact I|].
  destruct (@C30_exit n A b (rzero (length b)) max_iters tol atol M fuel s LA LM Hb L0 E) as [R _]. split; [exact R|]. split; [exact Q|].
  intros Hm. unfold pcg_solve_from in E. destruct fuel as [|fuel].
  - cbn [while_] in E. destruct (pcg_cond _ _ _ _) in E; [discriminate|]. injection E as <-. cbn. now rewrite Hb.
  - cbn [while_] in E. assert (C : pcg_cond (pcg_is_id M) (pcg_max_gamma b tol atol) max_iters (pcg_init A (pcg_M M) b (rzero (length b))) = false).
    { unfold pcg_cond. cbn [pcg_it pcg_init]. destruct (Nat.ltb_spec 1 max_iters); [lia|]. apply andb_false_r. }
    rewrite C in E. injection E as <-. cbn. now rewrite Hb.
Qed.
Print Assumptions C30_default_start.

(** ** C21: the default threshold of ista and fista (percentile 20 of the magnitudes) is
    the proximal point of the l1 norm for the percentile of the given vector *)
Theorem C21_default_threshold n perc20 i x : 0 <= perc20 (map Rabs x) -> length x = n ->
  unique_minimiser n everywhere (prox_obj nrm1 (perc20 (map Rabs x)) x) (default_threshold perc20 i x).
Proof. exact (@C21_soft_threshold n (perc20 (map Rabs x)) x). Qed.
Print Assumptions C21_default_threshold.
(** ** C42: solve_bpic and solve_bp start from zero: what they return lies in the
    reported ball, and its residual and gradient are the reported ones *)
Theorem C42_bpic_from_zero n m times trans b sigma opt fuel s :
  adjoint_ops n m times trans -> length b = m -> 0 < go_alpha_min opt -> go_alpha_min opt <= go_alpha_max opt ->
  solve_bpic times trans b sigma opt n fuel = Done s \/ (sigma = 0 /\ solve_bp times trans b opt n fuel = Done s) ->
  length (bp_x s) = n /\ nrm1 (bp_x s) <= bp_tau s /\ bp_r s = rsub b (times (bp_x s)) /\ bp_g s = ropp (trans (bp_r s)).
Proof.
  intros H1 H2 H4 H5 H. assert (E : solve_bpic_from times trans b sigma opt (rzero n) fuel = Done s) by (destruct H as [H|[-> H]]; exact H).
  destruct (@bp_done times trans b sigma opt (rzero n) fuel s E) as [s0 [k [I0 [HR _]]]].
  destruct (@C42_bpic_state n m times trans b sigma opt (rzero n) s0 k s H1 H2 (rzero_len n) H4 H5 I0 HR) as [I1 [I2 [I3 [_ [_ [I4 _]]]]]]. auto.
Qed.
Print Assumptions C42_bpic_from_zero.
(** stopped within the budgets, basis pursuit has a point that fits the data up to the
    tolerances *)
Theorem C42_bp_fits n m times trans b opt fuel s :
  adjoint_ops n m times trans -> length b = m -> 0 < go_alpha_min opt -> go_alpha_min opt <= go_alpha_max opt ->
  solve_bp times trans b opt n fuel = Done s ->
  (bp_iterations s < go_max_iters opt)%nat -> (bp_n_times s + bp_n_trans s < go_max_matvec opt)%nat ->
  exists xl t, length xl = n /\ nrm1 xl <= t /\ figures_of times trans b 0 s xl t /\
    (nrm (rsub b (times xl)) <= go_opt_tol opt * Rmax 1 (nrm (rsub b (times xl))) \/ nrm (rsub b (times xl)) <= go_bp_tol opt * nrm b \/
     times xl = b).
Proof.
  intros H1 H2 H4 H5 E Hi Hm.
  destruct (@C42_bpic_certificate n m times trans b 0 opt (rzero n) fuel s H1 H2 (rzero_len n) H4 H5 E Hi Hm) as [xl [t [L [N [F [Q _]]]]]].
  exists xl, t. split; [exact L|]. split; [exact N|]. split; [exact F|]. destruct Q as [Q|[Q|Q]]; auto.
  - right. right. pose proof (nrm_pos (rsub b (times xl))). assert (Z : nrm (rsub b (times xl)) = 0) by lra.
    assert (LT : length (times xl) = length b) by (rewrite H2; apply H1; exact L).
    apply nrm_eq0 in Z. apply (nth_ext _ _ 0 0); [exact LT|]. intros i _.
    assert (Zi : (rsub b (times xl))@i = 0) by (rewrite Z; apply rzero_nth).
    rewrite rsub_nth in Zi by (symmetry; exact LT). lra.
  - left. lra.
Qed.
Print Assumptions C42_bp_fits.
(** solve_lasso starts from zero *)
Theorem C42_lasso_from_zero n m times trans b tau opt fuel :
  adjoint_ops n m times trans -> length b = m -> 0 <= tau ->
  0 < go_alpha_min opt -> go_alpha_min opt <= go_alpha_max opt -> (go_max_iters opt <= fuel)%nat ->
  exists s, solve_lasso times trans b tau opt n fuel = Done s /\ length (la_x s) = n /\ nrm1 (la_x s) <= tau /\
    ((la_iterations s < go_max_iters opt)%nat ->
      nrm (rsub b (times (la_x s))) < go_opt_tol opt * nrm b \/
      forall z, length z = n -> nrm1 z <= tau ->
        misfit times b (la_x s) - misfit times b z <= go_opt_tol opt * Rmax 1 (misfit times b (la_x s))) /\
    ((go_max_iters opt <= 1)%nat -> la_x s = rzero n).
Proof.
  intros H1 H2 H4 H5 H6 Hf. destruct (@C42_lasso_returns n m times trans b tau opt (rzero n) fuel H1 H2 (rzero_len n) H4 H5 H6 Hf) as [s E].
  destruct (@C42_lasso_certificate n m times trans b tau opt (rzero n) fuel s H1 H2 (rzero_len n) H4 H5 H6 E) as [L [N [_ Q]]].
  exists s. split; [exact E|]. split; [exact L|]. split; [exact N|]. split; [exact Q|].
  intros Hm. assert (P0 : spgl1_project_to_l1_ball (rzero n) tau = rzero n).
  { unfold spgl1_project_to_l1_ball. rewrite nrm1_zero. destruct (Rltb_spec tau 0); [lra|reflexivity]. }
  assert (C : lasso_cond b opt (lasso_init times trans b tau opt (rzero n)) = false).
  { unfold lasso_cond. replace (la_iterations (lasso_init times trans b tau opt (rzero n))) with 1%nat by reflexivity.
    destruct (Nat.ltb_spec 1 (go_max_iters opt)); [lia|reflexivity]. }
  unfold solve_lasso_from in E. destruct fuel as [|fuel]; cbn [while_] in E; rewrite C in E; injection E as <-; exact P0.
Qed.
Print Assumptions C42_lasso_from_zero.

(** ** C73: the random walk variant with an estimated number of clusters *)
Theorem C73_random_walk_automatic n k W L c svd keys U S VH :
  symmetric n W -> nonnegative n W -> components n W k c -> (2 <= k)%nat -> (k < n)%nat ->
  normalized_random_walk_laplacian n W = Some L -> svd L = (U, S, VH) -> is_svd n L U S VH ->
  (forall l, (l < n - 2)%nat -> l <> (n - 1 - k)%nat -> S@l - S@(l + 1) < S@(n - 1 - k)) ->
  (forall idx, In idx keys -> picks n k idx) ->
  (exists idx, In idx keys /\ picks_every_component n k c idx) ->
  exists sol, normalized_random_walk svd keys n W = Some sol /\ labels_components n W (sp_assignment sol) /\ sp_num_clusters sol = k.
Proof.
  intros Sy Nn HC H2 Hkn HL E HS Hgap Hk Hp.
  destruct (@zeros_last n k W L c U VH S (@rw_shape n W L HL) HC (fun x => @rw_kernel n W L x HL Sy Nn) HS) as [_ Hz]. pose proof HS as [_ [_ [LS _]]].
  assert (EK : estimated_clusters n S = Some k).
  { destruct (estimated_clusters n S) as [k'|] eqn:Q.
    - destruct (estimated_eq S LS Q) as [_ [B G]]. f_equal. destruct (Nat.eq_dec k' k) as [|Ne]; auto. exfalso.
      specialize (Hgap (n - 1 - k')%nat ltac:(lia) ltac:(lia)). specialize (G (n - 1 - k)%nat ltac:(lia)).
      replace (n - 1 - k' + 1)%nat with (n - k')%nat in Hgap by lia. replace (n - 1 - k + 1)%nat with (n - k)%nat in G by lia.
      rewrite (proj2 (Hz (n - k)%nat ltac:(lia))) in G by lia. lra.
    - apply (estimated_none S LS) in Q. lia. }
  unfold normalized_random_walk, spectral_auto. rewrite HL, E, EK.
  destruct (@C73_random_walk_k n k W L c svd keys U S VH Sy Nn HC ltac:(lia) HL E HS Hk Hp) as [sol [R [La [N _]]]].
  unfold normalized_random_walk_k in R. rewrite HL in R. eauto.
Qed.
Print Assumptions C73_random_walk_automatic.
(** a vertex without edges: no Laplacian, and no result *)
Theorem C73_random_walk_isolated n W svd keys i : (i < n)%nat -> (forall j, (j < n)%nat -> ent W j i = 0) ->
  normalized_random_walk svd keys n W = None.
Proof.
  intros Hi H. unfold normalized_random_walk, normalized_random_walk_laplacian.
  assert (Z : (degrees n W)@i = 0) by (unfold degrees; rewrite nth_tab by exact Hi; apply rsum_0'; intros j Hj; now apply H).
  replace (all_nonzero (degrees n W)) with false; [reflexivity|]. symmetry. unfold all_nonzero. apply not_true_is_false. intros F.
  rewrite forallb_forall in F. specialize (F ((degrees n W)@i)). rewrite Z in F.
  assert (IN : In 0 (degrees n W)) by (rewrite <- Z; apply nth_In; unfold degrees; rewrite tab_length; exact Hi).
  specialize (F IN). destruct (Reqb_spec 0 0); [discriminate|lra].
Qed.
Print Assumptions C73_random_walk_isolated.

Example C73_random_walk_ex : exists L sol, normalized_random_walk_laplacian 4 W2 = Some L /\ is_svd 4 L V4T [2;2;0;0] V4 /\
  normalized_random_walk (fun _ => (V4T, [2;2;0;0], V4)) [[1;2]%nat] 4 W2 = Some sol /\ sp_num_clusters sol = 2%nat.
Proof.
  assert (D : forall i, (i < 4)%nat -> (degrees 4 W2)@i = 1) by (intros i Hi; rewrite degrees_nth by auto; four i; crunch).
  assert (B : all_nonzero (degrees 4 W2) = true).
  { apply forallb_forall. intros d Hd. destruct (In_nth _ _ 0 Hd) as [i [Li Ei]]. unfold degrees in Li. rewrite tab_length in Li.
    rewrite <- Ei, D by auto. destruct (Reqb_spec 1 0); auto; lra. }
  destruct (normalized_random_walk_laplacian 4 W2) as [L|] eqn:E; [|unfold normalized_random_walk_laplacian in E; cbv zeta in E; rewrite B in E; discriminate].
  assert (HS : is_svd 4 L V4T [2;2;0;0] V4).
  { destruct W2_svd as [A1 [A2 [A3 [A4 [A5 A6]]]]]. repeat (split; [assumption|]). intros i j Hi Hj. rewrite <- A6 by auto.
    rewrite <- (@rw_ent 4 W2 L E i j Hi Hj), D by auto. ring. }
  destruct (@C73_random_walk_automatic 4 2 W2 L c2 (fun _ => (V4T, [2;2;0;0], V4)) [[1;2]%nat] V4T [2;2;0;0] V4 W2_sym W2_nonneg W2_components ltac:(lia) ltac:(lia) E eq_refl HS) as [sol [R [_ N]]].
  - intros l Hl Hne. destruct l as [|[|l]]; [|lia|lia]. cbn. lra.
  - intros idx [<-|[]]. split; [reflexivity|]. intros i [<-|[<-|[]]]; lia.
  - exists [1;2]%nat. split; [left; reflexivity|]. intros a Ha. destruct a as [|[|]]; [exists 1%nat|exists 2%nat|lia]; split; simpl; auto.
  - exists L, sol. auto.
Qed.
Example C21_default_threshold_ex : 0 <= (fun v => v@0) (map Rabs [1; -3]) /\ default_threshold (fun v => v@0) 0 [1; -3] = [0; -2].
Proof.
  split; [cbn; apply Rabs_pos|]. unfold default_threshold. cbn [map nth]. rewrite Rabs_R1. repeat f_equal.
  - rewrite Rmax_left, Rmin_left by lra. ring.
  - rewrite Rmax_left, Rmin_right by lra. ring.
Qed.
