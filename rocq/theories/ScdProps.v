(** C67, what the smoothed conic dual solvers do compute. *)
From Coq Require Import List Arith Bool Lia Reals Lra Psatz.
From Verif Require Import Vec RVec RMat Loop LoopLemmas SolverSpec SolverLemmas XReal OptSpec OptModel OptProofs OptProofs2 OptProofs3 SpgSpec
  FomSpec FomModel FomProofs FomProofs2 FomProps ScdModel.
Import ListNotations.
Set Implicit Arguments.
Local Open Scope R_scope.

Lemma fom_done_inv n m f h times trans b opt dom hv x0 fuel :
  adjoint_ops n m times trans -> length b = m -> smooth_ok m f -> convex_set n dom -> capable n dom hv h -> fom_options_ok opt -> length x0 = n ->
  (fo_max_iters opt <= fuel)%nat ->
  exists s, fom f h times trans b opt x0 fuel = Done s /\ fom_inv n f times b opt dom hv s.
Proof.
  intros Ha Lb Sm Hd Hc Ho Lx Hf.
  destruct (@C45_terminates n m f h times trans b opt dom hv x0 fuel Ha Lb Sm Hd Hc Ho Lx Hf) as [s [E _]].
  exists s. split; [exact E|]. destruct Sm as [Hv Hl]. destruct Ho as (O1 & O2 & O3 & O4).
  destruct (@first_okc n m f h times trans b opt dom hv Ha Lb Hv Hl Hd Hc O1 O3 O4 x0 Lx) as (s0 & s1 & _ & E1 & _ & _ & I1).
  unfold fom in E. rewrite E1 in E. apply while_done in E as [j [_ [Hr _]]].
  now destruct (@reach_okc n m f h times trans b opt dom hv Ha Lb Hv Hl Hd Hc O1 O4 s1 j s I1 Hr).
Qed.

(** scd returns; minus the reported gradient is the point that maximises
    <A z + b, u> - f(u) - |u - x0|^2 / (2 mu) and minus the reported value is the
    maximum, at each of the two dual points x and y of the state *)
Theorem C67_scd n m fdom f prox dom hv h times trans b mu x0 z0 opt fuel : adjoint_ops n m times trans -> length b = m ->
  convex_set m fdom -> convex_on m fdom f ->
  (forall v t, length v = m -> 0 < t -> unique_minimiser m fdom (prox_obj f t v) (prox v t)) -> 0 < mu -> length x0 = m ->
  convex_set n dom -> capable n dom hv h -> fom_options_ok opt -> length z0 = n -> (fo_max_iters opt <= fuel)%nat ->
  exists s, scd f prox h times trans b mu x0 z0 opt fuel = Done s /\ dom (fm_x s) /\ dom (fm_y s) /\ dom (fm_z s) /\
    length (fm_x s) = n /\ length (fm_y s) = n /\
    conjugate_at m fdom f (/ mu) x0 (radd (times (fm_x s)) b) (ropp (fm_gAx s)) (- fm_fx s) /\
    conjugate_at m fdom f (/ mu) x0 (radd (times (fm_y s)) b) (ropp (fm_gAy s)) (- fm_fy s).
Proof.
  intros Ha Lb Cd Cf Hp Hmu Lx Hd Hc Ho Lz Hf.
  assert (Sm : smooth_ok m (smooth_dual f prox mu x0)).
  { split; [reflexivity|]. intros u Lu. cbn. assert (length (prox (radd x0 (rscale mu u)) mu) = m) by (apply Hp; vl). unfold ropp. now rewrite map_length. }
  destruct (@fom_done_inv n m _ h times trans b opt dom hv z0 fuel Ha Lb Sm Hd Hc Ho Lz Hf) as [s [E I]].
  exists s. split; [exact E|].
  destruct I as (PL & He & Ht & Lx' & Dx & Lz' & Dz & Ly & Dy & Q1 & Q2 & Q3 & Q4 & Q5 & Q6 & Q7 & _).
  split; [auto|]. split; [auto|]. split; [auto|]. split; [auto|]. split; [auto|].
  assert (Lt : forall z, length z = n -> length (radd (times z) b) = m). { intros z L. assert (length (times z) = m) by (apply Ha; auto). vl. }
  rewrite Q4, Q5, Q6, Q7. split.
  - exact (proj1 (@C67_smooth_dual m fdom f prox mu x0 _ Cd Cf Hp Hmu Lx (Lt _ Lx'))).
  - exact (proj1 (@C67_smooth_dual m fdom f prox mu x0 _ Cd Cf Hp Hmu Lx (Lt _ Ly))).
Qed.
Print Assumptions C67_scd.
Lemma capable_zero n : capable n everywhere (fun _ => 0) prox_zero.
Proof.
  split; [intros x Lx; split; [reflexivity|intros N; now elim N]|]. intros v t Lv Ht. exists v. split; [reflexivity|].
  split; [auto|]. split; [exact I|]. intros y Ly _. unfold prox_obj. rewrite Rmult_0_r, !Rplus_0_l.
  assert (E : nrm2 (rsub v v) = 0). { replace (rsub v v) with (rscale 0 v) by veq. unfold nrm2. rewrite rdot_scale_l. ring. }
  rewrite E. pose proof (rdot_pos (rsub y v)) as P. unfold nrm2. split; [lra|]. intros Q.
  assert (Z : rdot (rsub y v) (rsub y v) = 0) by lra. apply rdot_eq0 in Z.
  replace y with (radd (rsub y v) v) by veq. rewrite Z. rewrite rsub_len. veq.
Qed.
Lemma shrink_prox n v t : length v = n -> 0 < t -> unique_minimiser n everywhere (prox_obj nrm1 t v) (shrink v t).
Proof. intros Lv Ht. apply strong_min, strong_shrink; [lra|auto]. Qed.
Lemma nrm1_convex n : convex_on n everywhere nrm1.
Proof. intros x y t Lx Ly _ _ Ht. pose proof (@l1_convex n 1 ltac:(lra) x y t Lx Ly I I Ht) as Q. cbv beta in Q. lra. Qed.
Lemma sub_opp m (u b : vec) : length u = m -> length b = m -> radd u (ropp b) = rsub u b.
Proof. intros. veq. Qed.
(** bp_scd (A given as the map from dual to primal points): the same for f = |u|_1
    and the dual points A z - b *)
Theorem C67_bp_scd n m times trans b mu x0 z0 opt fuel : adjoint_ops n m times trans -> length b = m -> 0 < mu -> length x0 = m ->
  fom_options_ok opt -> length z0 = n -> (fo_max_iters opt <= fuel)%nat ->
  exists s, bp_scd times trans b mu x0 z0 opt fuel = Done s /\
    conjugate_at m everywhere nrm1 (/ mu) x0 (rsub (times (fm_x s)) b) (ropp (fm_gAx s)) (- fm_fx s) /\
    conjugate_at m everywhere nrm1 (/ mu) x0 (rsub (times (fm_y s)) b) (ropp (fm_gAy s)) (- fm_fy s).
Proof.
  intros Ha Lb Hmu Lx Ho Lz Hf. assert (Lob : length (ropp b) = m) by vl.
  destruct (@C67_scd n m everywhere nrm1 shrink everywhere (fun _ => 0) prox_zero times trans (ropp b) mu x0 z0 opt fuel Ha Lob (@everywhere_convex m) (@nrm1_convex m) (@shrink_prox m) Hmu Lx (@everywhere_convex n) (@capable_zero n) Ho Lz Hf)
    as (s & E & _ & _ & _ & Ls & Ly & Q1 & Q2).
  exists s. split; [exact E|]. rewrite !(@sub_opp m) in Q1, Q2 by (auto; apply Ha; auto). auto.
Qed.
Print Assumptions C67_bp_scd.
(** dantzig_scd: the same for f = |u|_1 and the dual points A^T (A z - b) *)
Theorem C67_dantzig_scd n m times trans b delta mu x0 z0 opt fuel : adjoint_ops n m times trans -> length b = m -> 0 < delta -> 0 < mu -> length x0 = n ->
  fom_options_ok opt -> length z0 = n -> (fo_max_iters opt <= fuel)%nat ->
  exists s, dantzig_scd times trans b delta mu x0 z0 opt fuel = Done s /\
    conjugate_at n everywhere nrm1 (/ mu) x0 (trans (rsub (times (fm_x s)) b)) (ropp (fm_gAx s)) (- fm_fx s) /\
    conjugate_at n everywhere nrm1 (/ mu) x0 (trans (rsub (times (fm_y s)) b)) (ropp (fm_gAy s)) (- fm_fy s).
Proof.
  intros Ha Lb Hd Hmu Lx Ho Lz Hf. destruct Ha as [[T1 [T2 T3]] [[U1 [U2 U3]] Ad]].
  assert (Hg : adjoint_ops n n (fun x => trans (times x)) (fun x => trans (times x))).
  { assert (Lg : linear_op n n (fun x => trans (times x))).
    { split; [auto|]. split; [intros; rewrite T2, U2 by auto; reflexivity|intros; rewrite T3, U3 by auto; reflexivity]. }
    split; [exact Lg|]. split; [exact Lg|]. intros x y Hx Hy. rewrite <- Ad by auto. rewrite rdot_sym, <- Ad by auto. apply rdot_sym. }
  assert (Lob : length (ropp (trans b)) = n) by (assert (length (trans b) = n) by auto; vl).
  destruct (@C67_scd n n everywhere nrm1 shrink everywhere (fun z => delta * nrm1 z) (prox_l1 delta) _ _ (ropp (trans b)) mu x0 z0 opt fuel Hg Lob (@everywhere_convex n) (@nrm1_convex n) (@shrink_prox n) Hmu Lx (@everywhere_convex n) (@capable_l1 n delta Hd) Ho Lz Hf)
    as (s & E & _ & _ & _ & Ls & Ly & Q1 & Q2).
  exists s. split; [exact E|].
  assert (Eq : forall z, length z = n -> radd (trans (times z)) (ropp (trans b)) = trans (rsub (times z) b)).
  { intros z Hz. assert (Lt : length (times z) = m) by auto. assert (Lu : length (trans b) = n) by auto. assert (Lv : length (trans (times z)) = n) by auto.
    replace (rsub (times z) b) with (radd (times z) (rscale (-1) b)) by veq. rewrite U2, U3 by vl. veq. }
  rewrite !Eq in Q1, Q2 by auto. auto.
Qed.
Print Assumptions C67_dantzig_scd.
(** a case with a nonempty domain of everything: two measurements of one unknown *)
Example C67_scd_ex : exists s, dantzig_scd (fun x => [x@0; x@0]) (fun y => [y@0 + y@1]) [1; 2] (1 / 2) 1 [0] [0] (FomOptions 5 0 4 None 1 (1 / 2)) 5 = Done s.
Proof.
  destruct (@C67_dantzig_scd 1 2 (fun x => [x@0; x@0]) (fun y => [y@0 + y@1]) [1; 2] (1 / 2) 1 [0] [0] (FomOptions 5 0 4 None 1 (1 / 2)) 5) as [s [E _]]; try lra; try reflexivity.
  - split; [|split].
    + split; [reflexivity|]. split; intros; repeat match goal with x : list R |- _ => destruct x as [|? [|]]; try discriminate end; cbn; repeat (f_equal; try ring).
    + split; [reflexivity|]. split; intros; repeat match goal with x : list R |- _ => destruct x as [|? [|? [|]]]; try discriminate end; cbn; repeat (f_equal; try ring).
    + intros [|? [|]] [|? [|? [|]]] ? ?; try discriminate. cbn. ring.
  - unfold fom_options_ok. cbn. split; [lra|]. split; [lra|]. split; [lra|]. discriminate.
  - eauto.
Qed.
