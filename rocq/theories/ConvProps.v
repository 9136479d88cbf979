(** Convergence of the iterates to a solution (property C87). *)
From Coq Require Import List Arith Bool Lia Reals Lra Psatz.
From Verif Require Import Vec RVec RMat Loop LoopLemmas XReal SolverSpec SolverLemmas OptSpec OptModel OptProofs SlsModel SlsSpec SlsProofs SlsLemmas FomSpec FomModel YallModel YallSpec YallProofs2 SeqSpec SeqProofs SeqProofs2 ConvProofs ConvProofs2 ConvProofs3 YallConvProofs YallConvProofs2 YallConvProofs3.
Import ListNotations.
Set Implicit Arguments.
Local Open Scope R_scope.

(** ISTA, any convex regulariser whose proximal map is the threshold: if a minimiser exists, the
    iterates approach one minimiser, the same for all tolerances and limits *)
Theorem C87_ista n m A B b x0 f step L thr q :
  prox_gradient_setting n m A B b x0 f step L thr -> minimises n everywhere (reg_objective (so_times A) (so_trans B) b f) q ->
  exists xs, minimises n everywhere (reg_objective (so_times A) (so_trans B) b f) xs /\
  forall eps, 0 < eps -> exists N, forall rtol xtol max_iters k s, (N <= k)%nat ->
    ista_after A b x0 step thr B rtol xtol max_iters k s -> nrm (rsub (is_x s) xs) < eps.
Proof.
  intros HS Mq. destruct (X_converges_min HS Mq) as (xs & Mx & Lx & C). exists xs. split; auto.
  intros eps He. destruct (C eps He) as [N Q]. exists N. intros rtol xtol mx k s Hk H. rewrite (run_iterate HS H). now apply Q.
Qed.
Print Assumptions C87_ista.
(** the l1 regularised problem has a solution *)
Theorem C87_l1_solution n m A T W Wt b lambda : adjoint_ops n m A T -> orthonormal_basis n W Wt -> length b = m -> 0 < lambda ->
  exists q, minimises n everywhere (reg_objective A Wt b (fun z => lambda * nrm1 z)) q.
Proof. intros HA HB Hb Pl. exact (l1_attains HA HB Hb Pl). Qed.
Print Assumptions C87_l1_solution.
(** ISTA with soft thresholding: nothing to assume *)
Theorem C87_ista_l1 n m A B b x0 lambda step L :
  adjoint_ops n m (so_times A) (so_trans A) -> orthonormal_basis n (so_times B) (so_trans B) -> length b = m -> length x0 = n -> 0 < lambda ->
  0 < step -> step * L <= 1 -> (forall x, length x = n -> nrm2 (so_times A x) <= L * nrm2 x) ->
  exists xs, minimises n everywhere (reg_objective (so_times A) (so_trans B) b (fun z => lambda * nrm1 z)) xs /\
  forall eps, 0 < eps -> exists N, forall rtol xtol max_iters k s, (N <= k)%nat ->
    ista_after A b x0 step (fun _ a => soft_threshold a (step * lambda)) B rtol xtol max_iters k s -> nrm (rsub (is_x s) xs) < eps.
Proof. intros HA HB Hb Hx Pl Hs HsL HL. exact (soft_converges HA HB Hb Hx Pl Hs HsL HL). Qed.
Print Assumptions C87_ista_l1.
(** with a positive tolerance on the change ISTA stops by itself: the number of iterations is
    bounded independently of the limit, for every objective bounded below *)
Theorem C87_ista_stops n m A B b x0 f step L thr c xtol :
  prox_gradient_setting n m A B b x0 f step L thr -> (forall x, length x = n -> c <= reg_objective (so_times A) (so_trans B) b f x) -> 0 < xtol ->
  exists N, forall rtol max_iters fuel s, ista A b x0 step thr B rtol xtol max_iters fuel = Done s -> (is_it s <= N)%nat.
Proof. intros HS Hc Hx. exact (ista_stops HS Hc Hx). Qed.
Print Assumptions C87_ista_stops.
(** FISTA with soft thresholding comes and stays as close as wanted to the set of solutions *)
Theorem C87_fista_l1 n m A B b x0 lambda step L eps :
  adjoint_ops n m (so_times A) (so_trans A) -> orthonormal_basis n (so_times B) (so_trans B) -> length b = m -> length x0 = n -> 0 < lambda ->
  0 < step -> step * L <= 1 -> (forall x, length x = n -> nrm2 (so_times A x) <= L * nrm2 x) -> 0 < eps ->
  exists N, forall rtol xtol max_iters k s, (N <= k)%nat ->
    fista_after A b x0 step (fun _ a => soft_threshold a (step * lambda)) B rtol xtol max_iters k s ->
    exists xs, minimises n everywhere (reg_objective (so_times A) (so_trans B) b (fun z => lambda * nrm1 z)) xs /\ nrm (rsub (fs_x s) xs) < eps.
Proof. intros HA HB Hb Hx Pl Hs HsL HL He. exact (soft_fista_approaches HA HB Hb Hx Pl Hs HsL HL He). Qed.
Print Assumptions C87_fista_l1.
(** the first order method on the lasso with the exact constant: a solution exists, and results
    of runs with many iterations are close to one *)
Theorem C87_fom_lasso n m A T b tau x0 L eps : adjoint_ops n m A T -> length b = m -> length x0 = n -> 0 <= tau -> nrm1 x0 <= tau ->
  0 < L -> (forall x, length x = n -> nrm2 (A x) <= L * nrm2 x) -> 0 < eps ->
  (exists q, minimises n (fun v => nrm1 v <= tau) (fun v => / 2 * nrm2 (rsub (A v) b)) q) /\
  exists N, forall opt fuel s, 0 < fo_beta opt -> fo_alpha opt = 1 -> fo_L0 opt = L -> fo_Lexact opt = Some L -> (fo_max_iters opt <= fuel)%nat ->
    fom_lasso A T b tau x0 opt fuel = Done s -> (N <= fm_iterations s)%nat ->
    exists p, minimises n (fun v => nrm1 v <= tau) (fun v => / 2 * nrm2 (rsub (A v) b)) p /\ nrm (rsub (fm_x s) p) < eps.
Proof.
  intros HA Hb Hx Ht N0 PL HL He. split; [now apply (@lasso_attains n m A T b x0 HA Hb Hx)|].
  destruct (@lasso_approaches n m A T b x0 L HA Hb Hx PL HL tau Ht N0 eps He) as [N Q]. exists N. intros opt fuel s H1 H2 H3 H4. apply Q. split; auto.
Qed.
Print Assumptions C87_fom_lasso.
(** and on the l1 regularised problem *)
Theorem C87_fom_l1rls n m A T b lambda x0 L eps : adjoint_ops n m A T -> length b = m -> length x0 = n -> 0 < lambda ->
  0 < L -> (forall x, length x = n -> nrm2 (A x) <= L * nrm2 x) -> 0 < eps ->
  (exists q, minimises n everywhere (fun v => / 2 * nrm2 (rsub (A v) b) + lambda * nrm1 v) q) /\
  exists N, forall opt fuel s, 0 < fo_beta opt -> fo_alpha opt = 1 -> fo_L0 opt = L -> fo_Lexact opt = Some L -> (fo_max_iters opt <= fuel)%nat ->
    fom_l1rls A T b lambda x0 opt fuel = Done s -> (N <= fm_iterations s)%nat ->
    exists p, minimises n everywhere (fun v => / 2 * nrm2 (rsub (A v) b) + lambda * nrm1 v) p /\ nrm (rsub (fm_x s) p) < eps.
Proof.
  intros HA Hb Hx Pl PL HL He. split; [now apply (@rls_attains n m A T b x0 HA Hb Hx)|].
  destruct (@rls_approaches n m A T b x0 L HA Hb Hx PL HL lambda Pl eps He) as [N Q]. exists N. intros opt fuel s H1 H2 H3 H4. apply Q. split; auto.
Qed.
Print Assumptions C87_fom_l1rls.
(** the problems of YALL1 have solutions with dual certificates when the rows are orthonormal *)
Theorem C87_yall1_certificate n m A T b w nonneg p :
  adjoint_ops n m A T -> length b = m -> length w = n -> (forall i, (i < n)%nat -> 0 < w@i) -> problem_ok p -> orthonormal_rows m A T ->
  nonneg = false \/ (exists rho, p = L1L2 rho) -> exists x y, yall_kkt n m A T b w nonneg p x y /\ yall_solves n A b w nonneg p x.
Proof.
  intros HA Lb Lw Pw P O H. destruct (@kkt_exists n m A T b w nonneg p HA Lb Lw Pw P O H) as (x & y & K). exists x, y. split; auto.
  eapply kkt_solves; eauto. intros i Hi. left. auto.
Qed.
Print Assumptions C87_yall1_certificate.
(** YALL1 with the standard step: the iterates converge to one solution and the dual variables to
    its certificate, whenever some solution has a certificate *)
Theorem C87_yall1 n m A T b w nonneg p x0 z0 :
  adjoint_ops n m A T -> length b = m -> length w = n -> (forall i, (i < n)%nat -> 0 < w@i) -> problem_ok p -> orthonormal_rows m A T ->
  b <> rzero m -> length x0 = n -> length z0 = n ->
  (exists x y, yall_kkt n m A T b w nonneg p x y) ->
  exists xs ys, yall_solves n A b w nonneg p xs /\ yall_kkt n m A T b w nonneg p xs ys /\
  forall eps, 0 < eps -> exists N, forall tolerance max_iters k s, (N <= k)%nat ->
    reaches (ya_cond b tolerance max_iters p) (ya_double A T b w nonneg 1 p) (ya_init A T b w p x0 z0) k s ->
    nrm (rsub (ya_x s) xs) < eps /\ nrm (rsub (ya_z s) (T ys)) < eps.
Proof.
  intros HA Lb Lw Pw P O N0 L0 L1 (x & y & K). destruct (@runs_converge n m A T b w nonneg p x0 z0 HA Lb Lw Pw P O N0 L0 L1 x y K) as (xl & yl & Kl & Q).
  exists xl, yl. split; [|split; auto]. eapply kkt_solves; eauto. intros i Hi. left. auto.
Qed.
Print Assumptions C87_yall1.
(** in particular always for problems without sign constraint *)
Theorem C87_yall1_signed n m A T b w p x0 z0 :
  adjoint_ops n m A T -> length b = m -> length w = n -> (forall i, (i < n)%nat -> 0 < w@i) -> problem_ok p -> orthonormal_rows m A T ->
  b <> rzero m -> length x0 = n -> length z0 = n ->
  exists xs, yall_solves n A b w false p xs /\
  forall eps, 0 < eps -> exists N, forall tolerance max_iters k s, (N <= k)%nat ->
    reaches (ya_cond b tolerance max_iters p) (ya_double A T b w false 1 p) (ya_init A T b w p x0 z0) k s -> nrm (rsub (ya_x s) xs) < eps.
Proof.
  intros HA Lb Lw Pw P O N0 L0 L1. pose proof (@kkt_exists n m A T b w false p HA Lb Lw Pw P O (or_introl eq_refl)) as K.
  destruct (@C87_yall1 n m A T b w false p x0 z0 HA Lb Lw Pw P O N0 L0 L1 K) as (xs & ys & S & _ & Q). exists xs. split; auto.
  intros eps He. destruct (Q eps He) as [N R]. exists N. intros tol mx k s Hk H. apply (R tol mx k s Hk H).
Qed.
Print Assumptions C87_yall1_signed.
(** YALL1 stops by itself when zero is no solution *)
Theorem C87_yall1_stops n m A T b w nonneg p x0 z0 tolerance :
  adjoint_ops n m A T -> length b = m -> length w = n -> (forall i, (i < n)%nat -> 0 < w@i) -> problem_ok p -> orthonormal_rows m A T ->
  b <> rzero m -> length x0 = n -> length z0 = n ->
  (exists x y, yall_kkt n m A T b w nonneg p x y) -> ~ yall_solves n A b w nonneg p (rzero n) -> 0 < tolerance ->
  exists N, forall max_iters fuel s, ya_run A T b w nonneg 1 tolerance max_iters p x0 z0 fuel = Done s -> (ya_iterations s <= N)%nat.
Proof.
  intros HA Lb Lw Pw P O N0 L0 L1 (x & y & K) NZ Ht. exact (@stops n m A T b w nonneg p x0 z0 HA Lb Lw Pw P O N0 L0 L1 x y tolerance K Ht NZ).
Qed.
Print Assumptions C87_yall1_stops.
Theorem C87_yall1_basis_pursuit_stops n m A T b w x0 z0 tolerance :
  adjoint_ops n m A T -> length b = m -> length w = n -> (forall i, (i < n)%nat -> 0 < w@i) -> orthonormal_rows m A T ->
  b <> rzero m -> length x0 = n -> length z0 = n -> 0 < tolerance ->
  exists N, forall max_iters fuel s, ya_run A T b w false 1 tolerance max_iters BP x0 z0 fuel = Done s -> (ya_iterations s <= N)%nat.
Proof.
  intros HA Lb Lw Pw O N0 L0 L1 Ht. apply (@C87_yall1_stops n m A T b w false BP x0 z0 tolerance HA Lb Lw Pw I O N0 L0 L1 (@kkt_exists n m A T b w false BP HA Lb Lw Pw I O (or_introl eq_refl))); auto.
  intros (_ & F & _). apply N0. cbn in F. rewrite <- F. destruct HA as [[LA [Ad Sc]] _].
  replace (rzero n) with (rscale 0 (rzero n)) by veq. rewrite Sc by vl. assert (LA0 : length (A (rzero n)) = m) by (apply LA; vl). veq.
Qed.
Print Assumptions C87_yall1_basis_pursuit_stops.

(** *** instances *)
Example C87_ista_instance : exists xs, minimises 2 everywhere (reg_objective (mv A22) (fun x => x) [3; 3] (fun z => / 2 * nrm1 z)) xs /\
  forall eps, 0 < eps -> exists N, forall rtol xtol max_iters k s, (N <= k)%nat ->
    ista_after (SimpleOp (mv A22) (mtv 2 A22)) [3; 3] [0; 0] (/ 10) (fun _ a => soft_threshold a (/ 10 * / 2)) identity_op rtol xtol max_iters k s -> nrm (rsub (is_x s) xs) < eps.
Proof.
  pose proof A22_setting as [HA [HB [Hb [Hx [Hs [HsL [HL _]]]]]]].
  apply (@C87_ista_l1 2 2 (SimpleOp (mv A22) (mtv 2 A22)) identity_op [3; 3] [0; 0] (/ 2) (/ 10) 10); auto. lra.
Qed.
(** basis pursuit with the single orthonormal row [3/5 4/5] *)
Definition row35 (x : vec) : vec := [3 / 5 * x@0 + 4 / 5 * x@1].
Definition row35_t (y : vec) : vec := [3 / 5 * y@0; 4 / 5 * y@0].
Lemma row35_adjoint : adjoint_ops 2 1 row35 row35_t.
Proof.
  repeat split.
  - intros [|a [|c [|]]] [|u [|v [|]]] H1 H2; try discriminate. unfold row35. cbn [radd zipw nth]. leq.
  - intros k [|a [|c [|]]] H1; try discriminate. unfold row35. cbn [rscale map nth]. leq.
  - intros [|a [|]] [|u [|]] H1 H2; try discriminate. unfold row35_t. cbn [radd zipw nth]. leq.
  - intros k [|a [|]] H1; try discriminate. unfold row35_t. cbn [rscale map nth]. leq.
  - intros [|a [|c [|]]] [|u [|]] H1 H2; try discriminate. unfold row35, row35_t. cbn [rdot nth]. ring.
Qed.
Lemma row35_rows : orthonormal_rows 1 row35 row35_t.
Proof. intros [|a [|]] H; try discriminate. unfold row35, row35_t. cbn [nth]. leq. Qed.
Example C87_yall1_instance : (exists xs, yall_solves 2 row35 [2] [1; 1] false BP xs /\
  forall eps, 0 < eps -> exists N, forall tolerance max_iters k s, (N <= k)%nat ->
    reaches (ya_cond [2] tolerance max_iters BP) (ya_double row35 row35_t [2] [1; 1] false 1 BP) (ya_init row35 row35_t [2] [1; 1] BP [0; 0] [0; 0]) k s -> nrm (rsub (ya_x s) xs) < eps) /\
  exists N, forall max_iters fuel s, ya_run row35 row35_t [2] [1; 1] false 1 (/ 100) max_iters BP [0; 0] [0; 0] fuel = Done s -> (ya_iterations s <= N)%nat.
Proof.
  assert (Pw : forall i, (i < 2)%nat -> 0 < [1; 1]@i) by (intros [|[|i]] Hi; cbn; try lra; lia).
  assert (Nb : [2] <> rzero 1) by (intros E; injection E as E; lra).
  split; [apply (@C87_yall1_signed 2 1)|apply (@C87_yall1_basis_pursuit_stops 2 1)]; auto; try exact I; try apply row35_adjoint; try apply row35_rows. lra.
Qed.
Example C87_fom_instance : exists N, forall opt fuel s, 0 < fo_beta opt -> fo_alpha opt = 1 -> fo_L0 opt = 10 -> fo_Lexact opt = Some 10 -> (fo_max_iters opt <= fuel)%nat ->
    fom_lasso (mv A22) (mtv 2 A22) [3; 3] 1 [0; 0] opt fuel = Done s -> (N <= fm_iterations s)%nat ->
    exists p, minimises 2 (fun v => nrm1 v <= 1) (fun v => / 2 * nrm2 (rsub (mv A22 v) [3; 3])) p /\ nrm (rsub (fm_x s) p) < / 100.
Proof.
  pose proof A22_setting as [HA [HB [Hb [Hx [Hs [HsL [HL _]]]]]]]. refine (proj2 (@C87_fom_lasso 2 2 (mv A22) (mtv 2 A22) [3; 3] 1 [0; 0] 10 (/ 100) HA Hb Hx _ _ _ HL _)); try lra.
  unfold nrm1. cbn. rewrite Rabs_R0. lra.
Qed.
