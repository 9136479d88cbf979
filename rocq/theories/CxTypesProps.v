(** C102: YALL1, the interior point method and FOCUSS take real data only. *)
From Coq Require Import List Bool.
From Verif Require Import CxSpglModel CxTypesModel.
Import ListNotations.

(** the loops of YALL1 are accepted exactly when the operator, the data and both
    starts are real *)
Theorem C102_yall1 : forall k ta tb tx tz,
  yall_accepts k ta tb tx tz <-> ta = RealArr /\ tb = RealArr /\ tx = RealArr /\ tz = RealArr.
Proof.
  intros k ta tb tx tz. unfold yall_accepts. split.
  - destruct k, ta, tb, tx, tz; cbv; intros H; try discriminate H; auto.
  - intros (-> & -> & -> & ->). now destruct k.
Qed.
Print Assumptions C102_yall1.
(** in particular no choice of starts, given or not, makes them run when the
    operator or the data are complex *)
Theorem C102_yall1_complex_refuted : forall k ta tb x0 z0, ta = ComplexArr \/ tb = ComplexArr ->
  ~ yall_accepts k ta tb (yall_x0 ta tb x0) (yall_z0 z0).
Proof. intros k ta tb x0 z0 H A. apply C102_yall1 in A as (-> & -> & _). destruct H; discriminate. Qed.
Print Assumptions C102_yall1_complex_refuted.
Theorem C102_yall1_default : forall k, yall_accepts k RealArr RealArr (yall_x0 RealArr RealArr None) (yall_z0 None).
Proof. intros k. apply C102_yall1. auto. Qed.
Print Assumptions C102_yall1_default.

(** conjugate gradients (pcg.solve_from) accept complex starts, and real starts
    exactly when everything else is real *)
Theorem C102_pcg : forall ta tm tb tx,
  pcg_accepts ta tm tb tx <-> tx = ComplexArr \/ ta = RealArr /\ tm = RealArr /\ tb = RealArr.
Proof.
  intros ta tm tb tx. unfold pcg_accepts. split.
  - destruct ta, tm, tb, tx; cbv; intros H; try discriminate H; auto.
  - destruct ta, tm, tb, tx; cbv; auto; intros [H|(H1 & H2 & H3)]; discriminate.
Qed.
Print Assumptions C102_pcg.

(** the interior point method is accepted exactly when the operator, the data
    and both starts are real *)
Theorem C102_l1ls : forall ta ty tx tu,
  l1ls_accepts ta ty tx tu <-> ta = RealArr /\ ty = RealArr /\ tx = RealArr /\ tu = RealArr.
Proof.
  intros ta ty tx tu. unfold l1ls_accepts. split.
  - intros [H _]. unfold l1ls_inner_accepts in H. apply C102_pcg in H as [H|(H1 & H2 & H3)]; [discriminate H|].
    destruct ta, ty, tx, tu; try discriminate; auto.
  - intros (-> & -> & -> & ->). now split.
Qed.
Print Assumptions C102_l1ls.
Theorem C102_l1ls_complex_refuted : forall ta ty x0 u0, ta = ComplexArr \/ ty = ComplexArr ->
  ~ l1ls_accepts ta ty (l1ls_start x0) (l1ls_start u0).
Proof. intros ta ty x0 u0 H A. apply C102_l1ls in A as (-> & -> & _). destruct H; discriminate. Qed.
Print Assumptions C102_l1ls_complex_refuted.
Theorem C102_l1ls_default : l1ls_accepts RealArr RealArr (l1ls_start None) (l1ls_start None).
Proof. apply C102_l1ls. auto. Qed.
Print Assumptions C102_l1ls_default.

(** FOCUSS is accepted exactly for real dictionaries and data *)
Theorem C102_focuss : forall tp ty, focuss_accepts tp ty <-> tp = RealArr /\ ty = RealArr.
Proof.
  intros tp ty. unfold focuss_accepts. split.
  - destruct tp, ty; cbv; intros H; try discriminate H; auto.
  - now intros (-> & ->).
Qed.
Print Assumptions C102_focuss.

(** real data are accepted by all three, a complex operator with real data by none *)
Example C102_nonvacuous : yall_accepts YallL1L2 RealArr RealArr RealArr RealArr /\ l1ls_accepts RealArr RealArr RealArr RealArr /\
  focuss_accepts RealArr RealArr /\ ~ yall_accepts YallBp ComplexArr RealArr ComplexArr ComplexArr /\
  ~ l1ls_accepts ComplexArr RealArr ComplexArr RealArr /\ ~ focuss_accepts ComplexArr RealArr.
Proof.
  rewrite !C102_yall1, !C102_l1ls, !C102_focuss. repeat split; intros H; decompose [and] H; discriminate.
Qed.
