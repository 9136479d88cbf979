(** Concrete measurement operators for the recovery theorems, and the failure of recovery
    when two columns are parallel. *)
From Coq Require Import List Arith Bool Lia Reals Lra Psatz.
From Verif Require Import Scalar Vec RVec RMat SolverSpec CGProofs SelSpec SlsModel SlsLemmas YallModel YallSpec L1RecSpec L1RecProofs L1RecProofs2.
Import ListNotations.
Set Implicit Arguments.
Local Open Scope R_scope.

Lemma mtv_linear n m M : shape m n M -> linear_op m n (mtv n M).
Proof.
  intros [S1 S2]. assert (L : forall y, length (mtv n M y) = n) by (intros; now apply mtv_len).
  assert (X : forall u v, length u = n -> length v = n -> (forall r, length r = n -> rdot r u = rdot r v) -> u = v).
  { intros u v Lu Lv H. apply rdot_sub_eq0; [congruence|]. pose proof (H (rsub u v) ltac:(vl)) as E.
    rewrite rdot_sub_r by congruence. lra. }
  split; [auto|]. split.
  - intros u v Lu Lv. apply X; auto; [rewrite radd_len, !L; lia|]. intros r Lr.
    rewrite rdot_add_r by (rewrite !L; auto). rewrite <- !(@mv_adj n) by (auto; vl). now rewrite rdot_add_r by congruence.
  - intros c u Lu. apply X; auto; [now rewrite rscale_len|]. intros r Lr.
    rewrite rdot_scale_r. rewrite <- !(@mv_adj n) by (auto; vl). apply rdot_scale_r.
Qed.
Lemma mv_linear' n m M : shape m n M -> linear_op n m (mv M).
Proof.
  intros [S1 S2]. split; [intros; unfold mv; now rewrite map_length|]. split.
  - intros u v Lu Lv. clear S1. unfold mv. induction M as [|r M IH]; auto. simpl.
    unfold radd in *. cbn [zipw]. f_equal; [|apply IH; intros; apply S2; now right]. 
    change (zipw Rplus u v) with (radd u v). apply rdot_add_r. congruence.
  - intros c u Lu. unfold mv, rscale. rewrite map_map. apply map_ext. intros r. apply rdot_scale_r.
Qed.
Lemma mat_adjoint n m M : shape m n M -> adjoint_ops n m (mv M) (mtv n M).
Proof. intros S. split; [now apply mv_linear'|]. split; [now apply mtv_linear|]. intros. apply mv_adj; auto; try apply S. destruct S. lia. Qed.

(** three vectors of the plane at angles of 120 degrees, scaled to orthonormal rows *)
Definition mercedes : mat := [[2 * / sqrt 6; - / sqrt 6; - / sqrt 6]; [0; / sqrt 2; - / sqrt 2]].
Lemma i6 : / sqrt 6 * / sqrt 6 = 1 / 6.
Proof. rewrite <- Rinv_mult, sqrt_sqrt by lra. lra. Qed.
Lemma i2 : / sqrt 2 * / sqrt 2 = 1 / 2.
Proof. rewrite <- Rinv_mult, sqrt_sqrt by lra. lra. Qed.
Lemma third : sqrt (2 / 3) * sqrt (2 / 3) = 2 / 3. Proof. apply sqrt_sqrt. lra. Qed.
Lemma mercedes_rows : orthonormal_rows 2 (mv mercedes) (mtv 3 mercedes).
Proof.
  intros [|a [|b [|]]] H; try discriminate. unfold mercedes. cbn [mv mtv fold_right map zipw radd rscale rzero repeat rdot].
  pose proof i6 as E6. pose proof i2 as E2. set (p := / sqrt 6) in *. set (q := / sqrt 2) in *. unfold radd, rscale. cbn. f_equal; [|f_equal].
  - transitivity (6 * (p * p) * a); [ring|rewrite E6; field].
  - transitivity (2 * (q * q) * b); [ring|rewrite E2; field].
Qed.
Lemma mercedes_measures : measures 3 2 (mv mercedes) (mtv 3 mercedes) (sqrt (2 / 3)) (1 / 2) [0; 3; 0] /\ sparse 1 [0; 3; 0] /\ (2 * INR 1 - 1) * (1 / 2) < 1.
Proof.
  pose proof i6 as E6. pose proof i2 as E2.
  split; [|split].
  - split; [|split; [split|split; [lra|split; [apply sqrt_lt_R0; lra|reflexivity]]]].
    + apply mat_adjoint. split; auto. intros r [<-|[<-|[]]]; reflexivity.
    + intros [|[|[|]]] Hi; try lia; unfold nrm; f_equal; unfold mercedes, mv, coordinate; cbn; set (p := / sqrt 6) in *; set (q := / sqrt 2) in *.
      * transitivity (4 * (p * p)); [ring|rewrite E6; field].
      * transitivity (p * p + q * q); [ring|rewrite E6, E2; field].
      * transitivity (p * p + q * q); [ring|rewrite E6, E2; field].
    + rewrite third. intros i j Hi Hj N.
      assert (G : rdot (mv mercedes (coordinate 3 i)) (mv mercedes (coordinate 3 j)) = - (1 / 3)).
      { destruct i as [|[|[|]]]; try lia; destruct j as [|[|[|]]]; try lia; unfold mercedes, mv, coordinate; cbn; set (p := / sqrt 6) in *; set (q := / sqrt 2) in *;
          first [transitivity (- (2 * (p * p))); [ring|rewrite E6; field] | transitivity (p * p - q * q); [ring|rewrite E6, E2; field]]. }
      rewrite G, Rabs_Ropp, Rabs_pos_eq by lra. lra.
  - exists [1%nat]. split; auto. intros [|[|[|i]]] H; auto. exfalso. apply H. now left. destruct i; auto.
  - simpl. lra.
Qed.
(** two nearly orthogonal unit columns *)
Definition skew : mat := [[1; 100 / 2501]; [0; 2499 / 2501]].
Lemma skew_measures : measures 2 2 (fun a => so_times (SimpleOp (mv skew) (mtv 2 skew)) (so_times identity_op a)) (fun y => so_trans identity_op (so_trans (SimpleOp (mv skew) (mtv 2 skew)) y)) 1 (100 / 2501) [0; 3] /\
  sparse 1 [0; 3] /\ (25 * INR 1 - 1) * (100 / 2501) < 1 /\ forall z, length z = 2%nat -> nrm2 (mv skew z) <= 2 * nrm2 z.
Proof.
  assert (G : forall i j, (i < 2)%nat -> (j < 2)%nat -> rdot (mv skew (coordinate 2 i)) (mv skew (coordinate 2 j)) = if Nat.eqb i j then 1 else 100 / 2501).
  { intros [|[|]] [|[|]] Hi Hj; try lia; unfold skew, mv, coordinate; cbn; field. }
  split; [|split; [|split]].
  - cbn [so_times so_trans identity_op]. split; [|split; [split|split; [lra|split; [lra|reflexivity]]]].
    + apply mat_adjoint. split; auto. intros r [<-|[<-|[]]]; reflexivity.
    + intros i Hi. unfold nrm. rewrite G, Nat.eqb_refl by auto. apply sqrt_1.
    + intros i j Hi Hj N. rewrite G by auto. destruct (Nat.eqb_spec i j); [contradiction|]. rewrite Rabs_pos_eq by lra. lra.
  - exists [1%nat]. split; auto. intros [|[|[|i]]] H; auto. exfalso. apply H. now left.
  - simpl. lra.
  - intros [|a [|b [|]]] H; try discriminate. unfold skew, mv, nrm2. cbn. pose proof (Rle_0_sqr (a - b)). pose proof (Rle_0_sqr a). pose proof (Rle_0_sqr b). unfold Rsqr in *. nra.
Qed.
(** two parallel columns: (2 K - 1) mu = 1 with K = 1, and basis pursuit has a second solution *)
Lemma parallel_wrong : exists n m K A T s mu x z,
  measures n m A T s mu x /\ sparse K x /\ (2 * INR K - 1) * mu = 1 /\
  yall_solves n A (A x) (repeat 1 n) false BP x /\ yall_solves n A (A x) (repeat 1 n) false BP z /\ z <> x.
Proof.
  exists 2%nat, 1%nat, 1%nat, (mv [[1; 1]]), (mtv 2 [[1; 1]]), 1, 1, [1; 0], [0; 1].
  assert (S : forall v, candidate 2 false v -> yall_feasible (mv [[1; 1]]) (mv [[1; 1]] [1; 0]) BP v -> 1 <= nrm1 v).
  { intros [|a [|b [|]]] [Lv _] F; try discriminate. cbn in F. injection F as F. cbn. pose proof (Rle_abs a). pose proof (Rle_abs b). lra. }
  assert (W : forall v, candidate 2 false v -> yall_feasible (mv [[1; 1]]) (mv [[1; 1]] [1; 0]) BP v -> nrm1 v <= 1 -> yall_solves 2 (mv [[1; 1]]) (mv [[1; 1]] [1; 0]) [1; 1] false BP v).
  { intros v Cv Fv Nv. split; [auto|]. split; [auto|]. intros u Cu Fu. cbn [yall_value]. change [1; 1] with (repeat 1 2). rewrite !ones_wnorm by (apply Cv || apply Cu).
    specialize (S u Cu Fu). lra. }
  split; [|split; [|split; [|split; [|split]]]].
  - split; [|split; [split|split; [lra|split; [lra|reflexivity]]]].
    + apply mat_adjoint. split; auto. intros r [<-|[]]; reflexivity.
    + intros [|[|]] Hi; try lia; (transitivity (sqrt 1); [unfold nrm; f_equal; unfold coordinate, mv; cbn; ring|apply sqrt_1]).
    + intros [|[|]] [|[|]] Hi Hj N; try lia; unfold coordinate, mv; cbn; rewrite Rabs_pos_eq; lra.
  - exists [0%nat]. split; auto. intros [|[|[|i]]] H; auto. exfalso. apply H. now left.
  - simpl. lra.
  - apply W; [split; auto; discriminate|reflexivity|cbn; rewrite Rabs_R1, Rabs_R0; lra].
  - apply W; [split; auto; discriminate|cbn; f_equal; ring|cbn; rewrite Rabs_R1, Rabs_R0; lra].
  - intros E. injection E as E1 E2. lra.
Qed.
