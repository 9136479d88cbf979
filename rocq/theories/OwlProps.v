(** C45 for the ordered weighted l1 norm: owl1rls. *)
From Coq Require Import List Arith Bool Lia Reals Lra Psatz.
From Verif Require Import Vec RVec RMat Loop LoopLemmas SolverSpec SolverLemmas XReal OptSpec OptModel OptProofs OptProofs2 OptProofs3 SpgSpec
  SortedL1Model SortedL1Proofs FomSpec FomModel FomProofs FomProofs2 FomProps OwlModel OwlProofs.
Import ListNotations.
Set Implicit Arguments.
Local Open Scope R_scope.

(** When owl1rls returns (for decreasing nonnegative weights, a known Lipschitz constant
    and any starting point), its objective
    1/2 |A x - b|^2 + sum_i lambda_i |x|_(i) is within the accelerated rate of every minimiser u.
    Missing: that it returns, which is false in general, see the refutation below. *)
Theorem C45_owl1rls_partial n m times trans b lam opt x0 L u pfuel fuel s : adjoint_ops n m times trans -> length b = m ->
  length lam = n -> descending lam -> nonneg lam ->
  0 < L -> (forall x, length x = n -> nrm2 (times x) <= L * nrm2 x) ->
  0 < fo_beta opt -> fo_alpha opt = 1 -> fo_L0 opt = L -> fo_Lexact opt = Some L ->
  length x0 = n -> length u = n ->
  (forall v, length v = n -> / 2 * nrm2 (rsub (times u) b) + owl1_func lam u <= / 2 * nrm2 (rsub (times v) b) + owl1_func lam v) ->
  fom_owl1rls pfuel times trans b lam x0 opt fuel = Done s ->
  length (fm_x s) = n /\ (1 <= fm_iterations s)%nat /\
  (/ 2 * nrm2 (rsub (times (fm_x s)) b) + owl1_func lam (fm_x s)) - (/ 2 * nrm2 (rsub (times u) b) + owl1_func lam u)
    <= 2 * L * nrm2 (rsub x0 u) / INR (fm_iterations s + 1) ^ 2.
Proof.
  intros Ha Lb Ll Dl Nl PL HL Hbt Hal E0 EL Lx Lu Mu E.
  assert (Sm : smooth_ok m (smooth_quad_matrix None None None)) by (split; auto). destruct Sm as [Hv Hl].
  assert (Lob : length (ropp b) = m) by vl.
  assert (Cmp : forall v, length v = n -> composite (sfunc (smooth_quad_matrix None None None)) times (ropp b) (owl1_func lam) v = / 2 * nrm2 (rsub (times v) b) + owl1_func lam v).
  { intros v Lv. assert (length (times v) = m) by (apply Ha; auto). unfold composite. cbn. replace (radd (times v) (ropp b)) with (rsub (times v) b) by veq. unfold nrm2. ring. }
  unfold fom_owl1rls, fom in E. destruct (fom_first _ _ _ _ _ _ _) as [s1|] eqn:E1; [|discriminate].
  apply while_done in E as [j [_ [Hr _]]].
  pose proof (@owl1_sound n pfuel lam Ll Dl Nl) as Sd.
  assert (O1 : 0 < fo_alpha opt <= 1) by lra. assert (O3 : 0 < fo_L0 opt) by lra.
  assert (O4 : forall e, fo_Lexact opt = Some e -> fo_L0 opt <= e) by (intros e Ee; rewrite EL in Ee; injection Ee as <-; lra).
  assert (Hne : fom_init (smooth_quad_matrix None None None) (prox_owl1_cap pfuel lam) times (ropp b) opt x0 <> None)
    by (intros Hn; unfold fom_first in E1; rewrite Hn in E1; discriminate).
  destruct (@init_ok n _ _ times (ropp b) opt _ _ Hv Sd O3 O4 x0 Lx Hne) as (s0 & Ei & I0 & _ & _ & _ & Ex & It0).
  assert (Eb : fom_body (smooth_quad_matrix None None None) (prox_owl1_cap pfuel lam) times trans (ropp b) opt s0 = Some s1)
    by (unfold fom_first in E1; now rewrite Ei in E1).
  destruct (body_ok Ha Lob Hv Hl (@everywhere_convex n) Sd O1 O4 I0 (some_ne Eb)) as [q [Eq [I1 Q]]]. rewrite Eb in Eq. injection Eq as <-.
  cbv zeta in Q. destruct Q as (_ & _ & _ & _ & _ & It1 & _).
  destruct (reach_ok Ha Lob Hv Hl (@everywhere_convex n) Sd O1 O4 I1 Hr) as [Is It].
  assert (Ls : length (fm_x s) = n) by apply Is.
  split; [exact Ls|]. split; [lia|].
  destruct (@rate n m _ _ times trans (ropp b) opt everywhere (owl1_func lam) Ha Lob Hv Hl (@everywhere_convex n) Sd O1 O3 O4
     (owl1_convex_on Ll Dl Nl) (@quad_convex m) Hal) with (x0 := x0) (s1 := s1) (k := j) (s := s) (u := u) as [z0 [Ez R0]]; auto.
  - congruence.
  - rewrite E0. apply quad_lipschitz with trans; auto.
  - exact I.
  - intros v Lv _. rewrite !Cmp by auto. auto.
  - rewrite !Cmp, E0 in R0 by auto. rewrite (Ez _ Ei), (Ex I) in R0. exact R0.
Qed.
Print Assumptions C45_owl1rls_partial.

Lemma id_adj n : adjoint_ops n n (fun x => x) (fun x => x).
Proof. repeat split; intros; auto. Qed.
(** owl1rls hangs on an identity operator with decreasing positive weights: its first
    proximal step never ends, so it returns no result whatever the budgets. *)
Theorem C45_owl1rls_terminates_refuted : exists n b lam x0 opt, adjoint_ops n n (fun x => x) (fun x => x) /\
  length b = n /\ length lam = n /\ length x0 = n /\ descending lam /\ (forall a, In a lam -> 0 < a) /\
  fom_options_ok opt /\ (0 < fo_max_iters opt)%nat /\
  forall pfuel fuel s, fom_owl1rls pfuel (fun x => x) (fun x => x) b lam x0 opt fuel <> Done s.
Proof.
  exists 4%nat, [7; 7; 4; 4], [7; 5; 3; 1], [0; 0; 0; 0], (FomOptions 100 (1 / 1000) 1 None 1 (1 / 2)).
  split; [apply id_adj|]. split; [reflexivity|]. split; [reflexivity|]. split; [reflexivity|]. split.
  { intros i j Hij Hj. simpl in Hj. assert (D : (i = 0 \/ i = 1 \/ i = 2 \/ i = 3)%nat) by lia. assert (D' : (j = 0 \/ j = 1 \/ j = 2 \/ j = 3)%nat) by lia.
    destruct D as [->|[->|[->| ->]]], D' as [->|[->|[->| ->]]]; simpl; try lra; lia. }
  split. { intros a Hin. simpl in Hin. destruct Hin as [<-|[<-|[<-|[<-|[]]]]]; lra. }
  split. { unfold fom_options_ok; cbn. split; [lra|]. split; [lra|]. split; [lra|]. discriminate. }
  split; [cbn; lia|].
  intros pfuel fuel s. unfold fom_owl1rls, fom, fom_first, fom_init. cbn [prox_owl1_cap pfunc build].
  cbn [sgrad_val fom_f smooth_func_translate smooth_quad_matrix build2]. unfold fom_body. cbn [fm_L fm_theta fm_x fm_z fo_alpha fo_L0].
  rewrite theta_first, Rmult_1_r, Rmult_1_l. destruct (Reqb_spec 1 0); [lra|].
  cbn [sgrad_val fom_f smooth_func_translate smooth_quad_matrix build2].
  cbn [prox_vec_val prox_owl1_cap build].
  match goal with |- context [prox_owl1 pfuel _ ?v ?t] => replace v with [7; 7; 4; 4]; [replace t with 1 by field|] end.
  - rewrite sorted_diverges. cbn. discriminate.
  - unfold rsub, radd, rscale, ropp. cbn. repeat (f_equal; try field).
Qed.
Print Assumptions C45_owl1rls_terminates_refuted.
(** a run that does return: one variable, weight 1 *)
Example C45_owl1rls_ex : adjoint_ops 1 1 (fun x => x) (fun x => x) /\
  exists s, fom_owl1rls 1 (fun x => x) (fun x => x) [3] [1] [0] (FomOptions 0 (1 / 1000) 1 (Some 1) 1 (1 / 2)) 1 = Done s /\ fm_x s = [2].
Proof.
  split; [apply id_adj|].
  unfold fom_owl1rls, fom, fom_first, fom_init. cbn [prox_owl1_cap pfunc build].
  cbn [sgrad_val fom_f smooth_func_translate smooth_quad_matrix build2]. unfold fom_body. cbn [fm_L fm_theta fm_x fm_z fo_alpha fo_L0].
  rewrite theta_first, Rmult_1_r, Rmult_1_l. destruct (Reqb_spec 1 0); [lra|].
  cbn [sgrad_val fom_f smooth_func_translate smooth_quad_matrix build2].
  cbn [prox_vec_val prox_owl1_cap build].
  match goal with |- context [prox_owl1 1 _ ?v ?t] => replace v with [3]; [replace t with 1 by field|] end.
  - assert (E : prox_owl1 1 [1] [3] 1 = Done [2]).
    { unfold prox_owl1, prox_ordered_l1_a. cbn. rewrite (Rabs_right 3) by lra. unfold sign. 
      destruct (Rltb_spec 0 3); [|lra]. destruct (Rltb_spec 0 (3 - 1 * 1)); [|lra]. cbn. do 2 f_equal. ring. }
    rewrite E. cbn [map finite option_map]. cbn [while_]. unfold fom_cond. cbn. eexists. split; [reflexivity|]. cbn. f_equal. ring.
  - unfold rsub, radd, rscale, ropp. cbn. f_equal. field.
Qed.
