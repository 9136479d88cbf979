(** Complex vectors as real vectors of twice the length; runs of the complex solvers as runs of the
    real ones. *)
From Coq Require Import List Arith Bool Lia Reals Lra Psatz.
From Verif Require Import Scalar Vec RVec RMat Loop LoopLemmas XReal SolverSpec SolverLemmas LopModel LopSpec LopProofs2 OptSpec OptModel OptProofs OptProofs2 OptProofs3 OptProofs5 SlsModel SlsSpec SlsProofs SlsLemmas SeqSpec SeqProofs ConvProofs ConvProofs2 CxSpec CxModel CxSpec2.
Import ListNotations.
Set Implicit Arguments.
Unset Strict Implicit.
Local Open Scope R_scope.

Fixpoint flat (x : cvec) : vec := match x with [] => [] | z :: x => fst z :: snd z :: flat x end.
Fixpoint unflat (v : vec) : cvec := match v with a :: b :: v => ((a, b) : Cs) :: unflat v | _ => [] end.
Lemma flat_len x : length (flat x) = (2 * length x)%nat.
Proof. induction x as [|z x IH]; [reflexivity|]. cbn [flat length]. rewrite IH. cbn [Nat.mul Nat.add]. rewrite !Nat.add_0_r, Nat.add_succ_r. reflexivity. Qed.
Lemma unflat_flat x : unflat (flat x) = x.
Proof. induction x as [|[a b] x IH]; simpl; auto. now rewrite IH. Qed.
Lemma flat_unflat n : forall v, length v = (2 * n)%nat -> flat (unflat v) = v.
Proof.
  induction n as [|n IH]; intros v H.
  - destruct v; [reflexivity|discriminate].
  - destruct v as [|a [|b v]]; simpl in H; try lia. simpl. rewrite IH; [reflexivity|lia].
Qed.
Lemma unflat_len n : forall v, length v = (2 * n)%nat -> length (unflat v) = n.
Proof.
  induction n as [|n IH]; intros v H.
  - destruct v; [reflexivity|discriminate].
  - destruct v as [|a [|b v]]; simpl in H; try lia. simpl. rewrite IH; [reflexivity|lia].
Qed.
Lemma flat_inj x y : flat x = flat y -> x = y.
Proof. intros H. rewrite <- (unflat_flat x), H. apply unflat_flat. Qed.
Lemma flat_add x : forall y, flat (vadd x y) = radd (flat x) (flat y).
Proof.
  induction x as [|a x IH]; intros [|b y]; simpl; try reflexivity. unfold vadd, radd in *. simpl. f_equal. f_equal. apply IH.
Qed.
Lemma flat_sub x : forall y, flat (vsub x y) = rsub (flat x) (flat y).
Proof.
  induction x as [|a x IH]; intros [|b y]; simpl; try reflexivity. unfold vsub, rsub in *. simpl. f_equal. f_equal. apply IH.
Qed.
Lemma flat_scale c x : flat (vscale (ofR c : Cs) x) = rscale c (flat x).
Proof.
  induction x as [|a x IH]; [reflexivity|]. unfold vscale, rscale in *. cbn [map flat]. rewrite <- IH. f_equal; [simpl; ring|]. f_equal. simpl; ring.
Qed.
Lemma flat_dot x : forall y, rdot (flat x) (flat y) = fst (inner x y : Cx).
Proof. induction x as [|a x IH]; intros [|b y]; simpl; try reflexivity. rewrite IH. ring. Qed.
Lemma flat_nrm2 x : nrm2 (flat x) = cnsq x.
Proof. unfold nrm2, cnsq. induction x as [|a x IH]; simpl; [reflexivity|]. rewrite IH. unfold Cnsq. ring. Qed.
Lemma flat_nrm x : nrm (flat x) = cnorm x.
Proof. unfold nrm, cnorm. now rewrite <- flat_nrm2. Qed.
Lemma cnsq_cdot x : cnsq x = cdot x x.
Proof. unfold cnsq, cdot. induction x as [|a x IH]; simpl; [reflexivity|]. rewrite IH. reflexivity. Qed.
Lemma vsub_csub (x y : cvec) : vsub x y = csub x y.
Proof. reflexivity. Qed.
Lemma cnsq_sym n x y : length x = n -> length y = n -> cnsq (vsub x y) = cnsq (vsub y x).
Proof. intros Lx Ly. rewrite <- !flat_nrm2, !flat_sub. unfold nrm2. pose proof (flat_len x). pose proof (flat_len y). vdot. ring. Qed.

(** operators *)
Definition lift (f : cvec -> cvec) (v : vec) : vec := flat (f (unflat v)).
Lemma lift_flat f x : lift f (flat x) = flat (f x).
Proof. unfold lift. now rewrite unflat_flat. Qed.
Lemma lift_adjoint n m f g : is_adjoint m n f g -> adjoint_ops (2 * n) (2 * m) (lift f) (lift g).
Proof.
  intros H. pose proof (adjoint_linear H) as [Fa Fs].
  assert (H' : is_adjoint n m g f).
  { destruct H as (D1 & D2 & A). split; auto. split; auto. intros x y Lx Ly. rewrite (@inner_sym Cs y (g x)), <- A by auto. symmetry. apply inner_sym. }
  pose proof (adjoint_linear H') as [Ga Gs]. destruct H as (D1 & D2 & A).
  assert (Lin : forall (n m : nat) (f : cvec -> cvec), maps_dim m n f ->
     (forall x y, length x = n -> length y = n -> f (vadd x y) = vadd (f x) (f y)) ->
     (forall (c : Cs) x, length x = n -> f (vscale c x) = vscale c (f x)) -> linear_op (2 * n) (2 * m) (lift f)).
  { clear. intros n m f D Fa Fs. split; [|split].
    - intros v Lv. unfold lift. rewrite flat_len, D; [reflexivity|now apply unflat_len].
    - intros v w Lv Lw. rewrite <- (flat_unflat Lv), <- (flat_unflat Lw), <- flat_add, !lift_flat, Fa by now apply unflat_len. apply flat_add.
    - intros c v Lv. rewrite <- (flat_unflat Lv), <- flat_scale, !lift_flat, Fs by now apply unflat_len. apply flat_scale. }
  split; [now apply Lin|]. split; [now apply Lin|].
  intros v w Lv Lw. rewrite <- (flat_unflat Lv), <- (flat_unflat Lw), !lift_flat, !flat_dot, A by now apply unflat_len. reflexivity.
Qed.
Lemma lift_basis n f g : unitary_basis n f g -> orthonormal_basis (2 * n) (lift f) (lift g).
Proof.
  intros (A & I1 & I2). split; [now apply lift_adjoint|]. split.
  - intros v Lv. rewrite <- (flat_unflat Lv), !lift_flat, I1; [reflexivity|now apply unflat_len].
  - intros v Lv. rewrite <- (flat_unflat Lv), !lift_flat, I2; [reflexivity|now apply unflat_len].
Qed.
Definition lift_op (A : csimple_op) : simple_op := SimpleOp (lift (co_times A)) (lift (co_trans A)).
Definition lift_thr (thr : nat -> cvec -> cvec) (i : nat) (v : vec) : vec := lift (thr i) v.
Definition lift_f (f : cvec -> R) (v : vec) : R := f (unflat v).
Lemma lift_bound n A L : (forall x, length x = n -> cnsq (A x) <= L * cnsq x) -> forall v, length v = (2 * n)%nat -> nrm2 (lift A v) <= L * nrm2 v.
Proof. intros H v Lv. rewrite <- (flat_unflat Lv), lift_flat, !flat_nrm2. apply H. now apply unflat_len. Qed.
Lemma lift_obj A B b f x : reg_objective (lift A) (lift B) (flat b) (lift_f f) (flat x) = creg_objective A B b f x.
Proof. unfold reg_objective, creg_objective, lift_f. rewrite !lift_flat, <- flat_sub, flat_nrm2, unflat_flat. reflexivity. Qed.
Lemma lift_minimises n A B b f q : cminimises n (creg_objective A B b f) q -> minimises (2 * n) everywhere (reg_objective (lift A) (lift B) (flat b) (lift_f f)) (flat q).
Proof.
  intros [Lq H]. split; [rewrite flat_len; lia|]. split; [exact I|]. intros v Lv _. rewrite <- (flat_unflat Lv), !lift_obj. apply H. now apply unflat_len.
Qed.
Lemma unlift_minimises n A B b f v : minimises (2 * n) everywhere (reg_objective (lift A) (lift B) (flat b) (lift_f f)) v -> cminimises n (creg_objective A B b f) (unflat v).
Proof.
  intros (Lv & _ & H). split; [now apply unflat_len|]. intros z Lz. rewrite <- !lift_obj, (flat_unflat Lv). apply H; [rewrite flat_len; lia|exact I].
Qed.

(** runs *)
Definition fl_ista (s : cista_state) : ista_state := IstaState (flat (ci_x s)) (flat (ci_r s)) (ci_rn2 s) (ci_change s) (ci_it s).
Definition fl_fista (s : cfista_state) : fista_state := FistaState (flat (cf_x s)) (flat (cf_z s)) (flat (cf_r s)) (cf_t s) (cf_rn2 s) (cf_change s) (cf_it s).
Lemma fl_ista_init A b x0 : ista_init (lift_op A) (flat b) (flat x0) = fl_ista (cista_init A b x0).
Proof. unfold ista_init, fl_ista, cista_init. simpl. now rewrite lift_flat, <- flat_sub, flat_nrm2. Qed.
Lemma fl_ista_body A b step thr B s : ista_body (lift_op A) (flat b) step (lift_thr thr) (lift_op B) (fl_ista s) = option_map fl_ista (cista_body A b step thr B s).
Proof.
  unfold ista_body, fl_ista, cista_body, lift_thr. cbn [option_map lift_op so_times so_trans is_x is_r is_rn2 is_change is_it ci_x ci_r ci_rn2 ci_change ci_it].
  rewrite lift_flat, <- flat_scale, <- flat_add, !lift_flat, <- !flat_sub, flat_nrm2, flat_nrm. reflexivity.
Qed.
Lemma fl_ista_cond b rtol xtol mx s : ista_cond (flat b) rtol xtol mx (fl_ista s) = cista_cond b rtol xtol mx s.
Proof. unfold ista_cond, cista_cond. rewrite flat_nrm2. reflexivity. Qed.
Lemma fl_fista_init A b x0 : fista_init (lift_op A) (flat b) (flat x0) = fl_fista (cfista_init A b x0).
Proof. unfold fista_init, fl_fista, cfista_init. simpl. now rewrite lift_flat, <- flat_sub, flat_nrm2. Qed.
Lemma fl_fista_body A b step thr B s : fista_body (lift_op A) (flat b) step (lift_thr thr) (lift_op B) (fl_fista s) = option_map fl_fista (cfista_body A b step thr B s).
Proof.
  unfold fista_body, fl_fista, cfista_body, lift_thr. cbn [option_map lift_op so_times so_trans fs_x fs_z fs_r fs_t fs_rn2 fs_change fs_it cf_x cf_z cf_r cf_t cf_rn2 cf_change cf_it].
  rewrite lift_flat, <- flat_scale, <- flat_add, !lift_flat, <- !flat_sub, <- flat_scale, <- flat_add, lift_flat, <- !flat_sub, flat_nrm2, flat_nrm. reflexivity.
Qed.
Lemma fl_fista_cond b rtol xtol mx s : fista_cond (flat b) rtol xtol mx (fl_fista s) = cfista_cond b rtol xtol mx s.
Proof. unfold fista_cond, cfista_cond. rewrite flat_nrm2. reflexivity. Qed.
Section Sim.
  Variables (S T : Type) (h : S -> T) (c : S -> bool) (g : S -> option S) (c' : T -> bool) (g' : T -> option T).
  Hypothesis Hc : forall s, c' (h s) = c s.
  Hypothesis Hg : forall s, g' (h s) = option_map h (g s).
  Lemma sim_reaches s0 k s : reaches c g s0 k s -> reaches c' g' (h s0) k (h s).
  Proof.
    induction 1 as [|k s s' H IH E B]; [constructor|]. econstructor; [exact IH|now rewrite Hc|]. now rewrite Hg, B.
  Qed.
  Lemma sim_while fuel : forall s, while_ c' g' fuel (h s) = match while_ c g fuel s with Done s => Done (h s) | Fail => Fail | Fuel => Fuel end.
  Proof.
    induction fuel as [|f IH]; intros s; simpl; rewrite Hc; destruct (c s); auto. rewrite Hg. destruct (g s); simpl; auto.
  Qed.
End Sim.
Lemma fl_ista_after A b x0 step thr B rtol xtol mx k s : cista_after A b x0 step thr B rtol xtol mx k s ->
  ista_after (lift_op A) (flat b) (flat x0) step (lift_thr thr) (lift_op B) rtol xtol mx k (fl_ista s).
Proof. intros H. unfold ista_after. rewrite fl_ista_init. apply (sim_reaches (h := fl_ista) (fl_ista_cond b rtol xtol mx) (fl_ista_body A b step thr B) H). Qed.
Lemma fl_fista_after A b x0 step thr B rtol xtol mx k s : cfista_after A b x0 step thr B rtol xtol mx k s ->
  fista_after (lift_op A) (flat b) (flat x0) step (lift_thr thr) (lift_op B) rtol xtol mx k (fl_fista s).
Proof. intros H. unfold fista_after. rewrite fl_fista_init. apply (sim_reaches (h := fl_fista) (fl_fista_cond b rtol xtol mx) (fl_fista_body A b step thr B) H). Qed.
Lemma fl_ista_run A b x0 step thr B rtol xtol mx fuel s : cista A b x0 step thr B rtol xtol mx fuel = Done s ->
  ista (lift_op A) (flat b) (flat x0) step (lift_thr thr) (lift_op B) rtol xtol mx fuel = Done (fl_ista s).
Proof. intros H. unfold ista. rewrite fl_ista_init, (sim_while (fl_ista_cond b rtol xtol mx) (fl_ista_body A b step thr B)). unfold cista in H. now rewrite H. Qed.
Lemma fl_fista_run A b x0 step thr B rtol xtol mx fuel s : cfista A b x0 step thr B rtol xtol mx fuel = Done s ->
  fista (lift_op A) (flat b) (flat x0) step (lift_thr thr) (lift_op B) rtol xtol mx fuel = Done (fl_fista s).
Proof. intros H. unfold fista. rewrite fl_fista_init, (sim_while (fl_fista_cond b rtol xtol mx) (fl_fista_body A b step thr B)). unfold cfista in H. now rewrite H. Qed.
