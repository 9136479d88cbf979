(** Coordinatewise limits of vectors. *)
From Coq Require Import List Arith Bool Lia Reals Lra Psatz.
From Verif Require Import Scalar Vec RVec RMat OptProofs SolverSpec SeqSpec SeqProofs L1RecSpec L1RecProofs.
Import ListNotations.
Set Implicit Arguments.
Unset Strict Implicit.
Local Open Scope R_scope.

Lemma cv_const c : Un_cv (fun _ => c) c.
Proof. intros e He. exists O. intros k _. unfold R_dist. rewrite Rminus_diag_eq, Rabs_R0 by auto. lra. Qed.
Lemma cv_ext u v l : (forall k, u k = v k) -> Un_cv u l -> Un_cv v l.
Proof. intros E H e He. destruct (H e He) as [N Q]. exists N. intros k Hk. rewrite <- E. now apply Q. Qed.
Lemma cv_rsum n (f : nat -> nat -> R) g : (forall i, (i < n)%nat -> Un_cv (fun k => f k i) (g i)) -> Un_cv (fun k => rsum n (f k)) (rsum n g).
Proof.
  induction n as [|n IH]; intros H; cbn [rsum]; [apply cv_const|]. apply CV_plus; [apply IH; intros; apply H; lia|apply H; lia].
Qed.
Definition cvg (n : nat) (x : nat -> vec) (l : vec) : Prop :=
  (forall k, length (x k) = n) /\ length l = n /\ forall i, (i < n)%nat -> Un_cv (fun k => (x k)@i) (l@i).
Lemma cvg_of n x l : (forall k, length (x k) = n) -> converges n x l -> cvg n x l.
Proof.
  intros L [Ll H]. split; auto. split; auto. intros i Hi e He. destruct (H e He) as [N Q]. exists N. intros k Hk. unfold R_dist.
  specialize (Q k ltac:(lia)). specialize (L k). pose proof (entry_nrm (rsub (x k) l) i) as E. rewrite rsub_nth in E by vl. lra.
Qed.
Lemma cvg_const n c : length c = n -> cvg n (fun _ => c) c.
Proof. intros L. repeat split; auto. intros i Hi. apply cv_const. Qed.
Lemma cvg_add n x y l l' : cvg n x l -> cvg n y l' -> cvg n (fun k => radd (x k) (y k)) (radd l l').
Proof.
  intros (L1 & L2 & H) (L3 & L4 & H'). split; [intros k; specialize (L1 k); specialize (L3 k); vl|]. split; [vl|]. intros i Hi. rewrite radd_nth by vl.
  apply cv_ext with (u := fun k => (x k)@i + (y k)@i); [intros k; specialize (L1 k); specialize (L3 k); now rewrite radd_nth by vl|]. apply CV_plus; auto.
Qed.
Lemma cvg_sub n x y l l' : cvg n x l -> cvg n y l' -> cvg n (fun k => rsub (x k) (y k)) (rsub l l').
Proof.
  intros (L1 & L2 & H) (L3 & L4 & H'). split; [intros k; specialize (L1 k); specialize (L3 k); vl|]. split; [vl|]. intros i Hi. rewrite rsub_nth by vl.
  apply cv_ext with (u := fun k => (x k)@i - (y k)@i); [intros k; specialize (L1 k); specialize (L3 k); now rewrite rsub_nth by vl|]. apply CV_minus; auto.
Qed.
Lemma cvg_scale n c x l : cvg n x l -> cvg n (fun k => rscale c (x k)) (rscale c l).
Proof.
  intros (L1 & L2 & H). split; [intros k; specialize (L1 k); vl|]. split; [vl|]. intros i Hi. rewrite rscale_nth by vl.
  apply cv_ext with (u := fun k => c * (x k)@i); [intros k; specialize (L1 k); now rewrite rscale_nth by vl|]. apply CV_mult; [apply cv_const|auto].
Qed.
Lemma cvg_dot n x y l l' : cvg n x l -> cvg n y l' -> Un_cv (fun k => rdot (x k) (y k)) (rdot l l').
Proof.
  intros (L1 & L2 & H) (L3 & L4 & H'). rewrite (@rdot_sum n) by auto.
  apply cv_ext with (u := fun k => rsum n (fun i => (x k)@i * (y k)@i)); [intros k; now rewrite (@rdot_sum n) by auto|].
  apply cv_rsum with (f := fun k i => (x k)@i * (y k)@i). intros i Hi. apply CV_mult; auto.
Qed.
Lemma cvg_nrm n x l : cvg n x l -> Un_cv (fun k => nrm (x k)) (nrm l).
Proof. intros H. unfold nrm. apply continuity_seq with (f := sqrt); [apply continuity_pt_sqrt; apply rdot_pos|]. now apply cvg_dot with n. Qed.
Lemma cvg_unique n x l l' : cvg n x l -> cvg n x l' -> l = l'.
Proof.
  intros (L1 & L2 & H) (_ & L4 & H'). apply vec_eq; [congruence|]. intros i Hi. rewrite L2 in Hi. eapply UL_sequence; eauto.
Qed.
Lemma cvg_ext n x y l : (forall k, x k = y k) -> cvg n x l -> cvg n y l.
Proof.
  intros E (L1 & L2 & H). split; [intros k; now rewrite <- E|]. split; auto. intros i Hi. apply cv_ext with (u := fun k => (x k)@i); auto. intros k. now rewrite E.
Qed.
Lemma cvg_op n m A T x l : adjoint_ops n m A T -> cvg n x l -> cvg m (fun k => A (x k)) (A l).
Proof.
  intros (LA & LT & Adj) (L1 & L2 & H). split; [intros k; now apply LA|]. split; [now apply LA|]. intros i Hi.
  set (e := coordinate m i). assert (Le : length e = m) by apply coord_len.
  assert (E : forall v, length v = n -> (A v)@i = rdot v (T e)).
  { intros v Lv. rewrite <- Adj by auto. unfold e. rewrite rdot_sym. symmetry. apply coord_dot; auto; now apply LA. }
  rewrite E by auto. apply cv_ext with (u := fun k => rdot (x k) (T e)); [intros k; now rewrite E|].
  apply cvg_dot with n; [repeat split; auto|]. apply cvg_const. now apply LT.
Qed.
Lemma cv_subseq u l phi : (forall k, (phi k < phi (S k))%nat) -> Un_cv u l -> Un_cv (fun k => u (phi k)) l.
Proof.
  intros M H e He. destruct (H e He) as [N Q]. exists N. intros k Hk. apply Q. pose proof (phi_ge M k). lia.
Qed.
Lemma converges_subseq n x l phi : (forall k, (phi k < phi (S k))%nat) -> converges n x l -> converges n (fun k => x (phi k)) l.
Proof.
  intros M [Ll H]. split; auto. intros e He. destruct (H e He) as [N Q]. exists N. intros k Hk. apply Q. pose proof (phi_ge M k). lia.
Qed.
(** sequences that get close to convergent ones converge *)
Lemma cvg_close n x y l : cvg n x l -> (forall k, length (y k) = n) -> (forall eps, 0 < eps -> exists N, forall k, (N <= k)%nat -> nrm (rsub (y k) (x k)) < eps) -> cvg n y l.
Proof.
  intros (L1 & L2 & H) L3 HC. split; auto. split; auto. intros i Hi.
  apply cv_ext with (u := fun k => ((y k)@i - (x k)@i) + (x k)@i); [intros; ring|]. replace (l@i) with (0 + l@i) by ring. apply CV_plus; auto.
  intros e He. destruct (HC e He) as [N Q]. exists N. intros k Hk. unfold R_dist. rewrite Rminus_0_r. specialize (Q k ltac:(lia)).
  specialize (L1 k). specialize (L3 k). pose proof (entry_nrm (rsub (y k) (x k)) i) as E. rewrite rsub_nth in E by vl. lra.
Qed.
