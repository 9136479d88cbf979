(** Real matrices as lists of rows. *)
From Coq Require Import List Arith Bool Lia Reals Lra Psatz.
From Verif Require Import Scalar Vec RVec.
Import ListNotations.
Set Implicit Arguments.
Local Open Scope R_scope.
Definition mat := list vec.
Definition shape (m n : nat) (A : mat) : Prop := length A = m /\ forall r, In r A -> length r = n.
(** A @ x *)
Definition mv (A : mat) (x : vec) : vec := map (fun r => rdot r x) A.
(** A.T @ y (or y @ A) for A with n columns *)
Definition mtv (n : nat) (A : mat) (y : vec) : vec :=
  fold_right radd (rzero n) (zipw rscale y A).
(** entry *)
Definition ent (A : mat) (i j : nat) : R := (nth i A [])@j.

Lemma shape_row m n A i : shape m n A -> (i < m)%nat -> length (nth i A []) = n.
Proof. intros [H1 H2] Hi. apply H2, nth_In. lia. Qed.
Lemma mv_len A x : length (mv A x) = length A.
Proof. apply map_length. Qed.
Lemma mtv_len n (A : mat) y : (forall r, In r A -> length r = n) -> length (mtv n A y) = n.
Proof.
  unfold mtv. revert y. induction A as [|a A IH]; intros [|b y] H; simpl; try apply rzero_len.
  rewrite radd_len, rscale_len, IH by (intros; apply H; now right). rewrite (H a) by now left. lia.
Qed.
Global Hint Rewrite mv_len : rlen.
Lemma mv_nth A x i : (mv A x)@i = rdot (nth i A []) x.
Proof. unfold mv. change 0 with (rdot [] x). apply map_nth with (f := fun r => rdot r x). Qed.
Lemma mv_adj n (A : mat) : forall x y, (forall r, In r A -> length r = n) -> length x = n -> length y = length A ->
  rdot (mv A x) y = rdot x (mtv n A y).
Proof.
  unfold mtv. induction A as [|a A IH]; intros x [|b y] H Hx Hy; simpl in *; try discriminate.
  - now rewrite rdot_zero_r.
  - pose proof (mtv_len A y (fun r Hr => H r (or_intror Hr))) as HL. unfold mtv in HL.
    rewrite rdot_add_r by (rewrite rscale_len, HL; apply H; now left).
    rewrite IH by (auto; lia). rewrite rdot_scale_r, (rdot_sym a x). ring.
Qed.
Lemma mv_add (A : mat) x y n : (forall r, In r A -> length r = n) -> length x = n -> length y = n ->
  mv A (radd x y) = radd (mv A x) (mv A y).
Proof.
  intros H Hx Hy. induction A as [|a A IH]; [reflexivity|]. unfold mv, radd in *. cbn [map zipw].
  f_equal; [|apply IH; intros; apply H; now right]. fold (radd x y). rewrite rdot_add_r by lia. reflexivity.
Qed.
Lemma mv_sub (A : mat) x y n : (forall r, In r A -> length r = n) -> length x = n -> length y = n ->
  mv A (rsub x y) = rsub (mv A x) (mv A y).
Proof.
  intros H Hx Hy. induction A as [|a A IH]; [reflexivity|]. unfold mv, rsub in *. cbn [map zipw].
  f_equal; [|apply IH; intros; apply H; now right]. fold (rsub x y). rewrite rdot_sub_r by lia. reflexivity.
Qed.
Lemma mv_scale A c x : mv A (rscale c x) = rscale c (mv A x).
Proof.
  unfold mv. unfold rscale at 2. rewrite map_map. apply map_ext. intros a. apply rdot_scale_r.
Qed.
