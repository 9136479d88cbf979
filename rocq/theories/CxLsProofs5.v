(** The norm estimate on complex data. *)
From Coq Require Import List Arith Bool Lia Reals Lra.
From Verif Require Import Scalar Vec RVec RMat Loop LoopLemmas SolverSpec SolverLemmas LopModel LopModel3 LopSpec LopOpSpec LopLemmas LopProofs2 SlsModel SlsSpec SlsProofs SlsLemmas PowerSpec PowerSpec2 PowerProofs3 PowerProofs4 PowerProps2
  CxSpec CxModel CxProofs CxSpglModel CxPursuitModel CxPursuitProofs CxLsModel CxLsSpec CxLsProofs CxLsProofs2 CxLsProofs4.
Import ListNotations.
Set Implicit Arguments.
Local Open Scope R_scope.

Definition lift_operator (A : operator Cs) : operator Rs :=
  Op (K:=Rs) (lift (times A)) (lift (trans A)) (2 * om A) (2 * on A) (linear A) (jit_safe A) (matrix_safe A) (real A).
Lemma lift_adj A : adj A -> adj (lift_operator A).
Proof.
  intros HA. destruct (lift_adjoint HA) as ((L1 & _) & (L2 & _) & Adj). split; [exact L1|]. split; [exact L2|]. intros x y Lx Ly. rewrite !inner_rdot. now apply Adj.
Qed.
Lemma Cabs_sq z : Cabs z * Cabs z = Cnsq z.
Proof. unfold Cabs. apply sqrt_sqrt. unfold Cnsq. nra. Qed.
Lemma l2norm_c (x : cvec) : @l2norm Cs Cabs x = cnorm x.
Proof.
  unfold l2norm, cnorm, cnsq. f_equal. induction x as [|z x IH]; [reflexivity|]. cbn [fold_right map rlsum]. rewrite IH. f_equal. exact (Cabs_sq z).
Qed.
Definition fl_ne (s : ne_state Cs) : ne_state Rs := NE (K:=Rs) (flat (ne_v s)) (ne_old s) (ne_new s) (ne_it s).
Section Norm.
  Variables (A : operator Cs) (b : cvec).
  Hypothesis HA : adj A.
  Hypothesis Hb : length b = on A.
  Definition ne_inv (s : ne_state Cs) : Prop := length (ne_v s) = on A.
  Lemma ne_inv_body s s' : ne_inv s -> ne_body (K:=Cs) Cabs A s = Some s' -> ne_inv s'.
  Proof.
    unfold ne_inv, ne_body. intros L. destruct (Reqb _ 0); [discriminate|]. intros [= <-]. cbn [ne_v]. apply HA, HA. rewrite (@vscale_length Cs). exact L.
  Qed.
  Lemma abs_real (v : cvec) : length v = on A -> Cabs (inner v (trans A (times A v)) : Cx) = Rabs (rdot (flat v) (lift (trans A) (lift (times A) (flat v)))).
  Proof.
    intros Lv. rewrite !lift_flat, flat_dot. pose proof (@herm_real (on A) (fun x => trans A (times A x)) v (gram_self HA) Lv) as Z. unfold im in Z.
    destruct (inner v (trans A (times A v)) : Cx) as [p q]. cbn [snd] in Z. subst q. cbn [fst]. unfold Cabs, Cnsq. cbn [fst snd]. replace (p * p + 0 * 0) with (Rsqr p) by (unfold Rsqr; ring). apply sqrt_Rsqr_abs.
  Qed.
  Lemma fl_ne_body s : ne_inv s -> ne_body (K:=Rs) Rabs (lift_operator A) (fl_ne s) = option_map fl_ne (ne_body (K:=Cs) Cabs A s).
  Proof.
    unfold ne_inv. intros L. unfold ne_body. cbn [fl_ne ne_v ne_old ne_new ne_it]. rewrite l2norm_nrm, l2norm_c, flat_nrm. destruct (Reqb (cnorm (ne_v s)) 0); [reflexivity|]. cbn [option_map lift_operator times trans].
    cbv zeta. change (@vscale Rs (@ofR Rs (/ cnorm (ne_v s))) (flat (ne_v s))) with (rscale (/ cnorm (ne_v s)) (flat (ne_v s))). rewrite <- flat_scale.
    set (v := vscale (ofR (/ cnorm (ne_v s)) : Cs) (ne_v s)). assert (Lv : length v = on A) by (unfold v; now rewrite (@vscale_length Cs)).
    unfold fl_ne. cbn [ne_v ne_old ne_new ne_it]. rewrite inner_rdot, (@abs_real v Lv), !lift_flat. reflexivity.
  Qed.
  Lemma normest_lift mx tol : normest (K:=Cs) Cabs A b mx tol = normest (K:=Rs) Rabs (lift_operator A) (flat b) mx tol.
  Proof.
    unfold normest. rewrite l2norm_nrm, l2norm_c, flat_nrm. destruct (Reqb (cnorm b) 0); [reflexivity|].
    change (@ne_init Rs (@vscale Rs (@ofR Rs (/ cnorm b)) (flat b))) with (@ne_init Rs (rscale (/ cnorm b) (flat b))). rewrite <- flat_scale.
    change (@ne_init Rs (flat (vscale (ofR (/ cnorm b) : Cs) b))) with (fl_ne (@ne_init Cs (vscale (ofR (/ cnorm b) : Cs) b))).
    assert (I0 : ne_inv (@ne_init Cs (vscale (ofR (/ cnorm b) : Cs) b))) by (unfold ne_inv, ne_init; cbn [ne_v]; now rewrite (@vscale_length Cs)).
    rewrite (@sim2_while _ _ fl_ne ne_inv (ne_cond (K:=Cs) mx tol) _ (ne_cond (K:=Rs) mx tol) _ (fun s _ => eq_refl) fl_ne_body ne_inv_body mx _ I0).
    destruct (while_ _ _ mx _) as [s| |]; reflexivity.
  Qed.
End Norm.
Lemma cnormest_any (A : operator Cs) b : adj A -> length b = on A -> times A b <> @vzero Cs (om A) ->
  exists sg tau v, 0 <= tau < sg /\ cseen (on A) (fun x => trans A (times A x)) b (sg ^ 2) /\ length v = on A /\ cnsq v = 1 /\ trans A (times A v) = vscale (ofR (sg ^ 2) : Cs) v /\ 0 < fst (inner b v : Cx) /\
  (forall max_iters tol, exists e, normest (K:=Cs) Cabs A b max_iters tol = Done e) /\
  (forall max_iters tol e, (1 <= max_iters)%nat -> tol + sg ^ 2 / 10 ^ 20 < 1 -> normest (K:=Cs) Cabs A b max_iters tol = Done e ->
    exists k, (1 <= k <= max_iters)%nat /\ 0 <= e /\
    Rabs (e ^ 2 - sg ^ 2) <= (sg ^ 2 + tau ^ 2) * ((tau / sg) ^ (4 * (k - 1)) * ctan2 v b) /\
    (k = max_iters \/ (2 <= k)%nat /\ exists e', 0 <= e' /\ Rabs (e ^ 2 - e' ^ 2) <= tol * e' ^ 2 /\
      Rabs (e' ^ 2 - sg ^ 2) <= (sg ^ 2 + tau ^ 2) * ((tau / sg) ^ (4 * (k - 2)) * ctan2 v b))).
Proof.
  intros HA Hb Nz. assert (Lf : length (flat b) = on (lift_operator A)) by (cbn [lift_operator on]; rewrite flat_len; now rewrite Hb).
  assert (Nf : times (lift_operator A) (flat b) <> rzero (om (lift_operator A))).
  { cbn [lift_operator times om]. rewrite lift_flat, <- flat_zero'. intros E. apply Nz. now apply flat_inj. }
  destruct (C89_normest_converges (lift_operator A) (flat b) (lift_adj HA) Lf Nf) as (sg & tau & v & Hs & S & Lv & Nv & Ev & Pv & D & C).
  cbn [lift_operator on times trans] in *. pose proof (unflat_len Lv) as Lw. rewrite <- (flat_unflat Lv) in Nv, Ev, Pv, C. set (w := unflat v) in *. exists sg, tau, w.
  rewrite !lift_flat in Ev. rewrite <- flat_scale in Ev. apply flat_inj in Ev. rewrite flat_nrm2 in Nv. rewrite flat_dot in Pv.
  split; [exact Hs|]. split.
  { apply lift_seen; auto; [exact (gram_self HA)|]. destruct S as [(u & Lu & Eu & Nu) S2]. split.
    - exists u. split; [auto|]. split; [|auto]. revert Eu. unfold lift. now rewrite unflat_flat.
    - intros lam' u' Hl Lu' Eu'. apply (S2 lam' u' Hl Lu'). revert Eu'. unfold lift. now rewrite unflat_flat. }
  split; [exact Lw|]. split; [exact Nv|]. split; [exact Ev|]. split; [exact Pv|]. split.
  - intros mx tol. rewrite (@normest_lift A b HA Hb). apply D.
  - intros mx tol e Hm Ht. rewrite (@normest_lift A b HA Hb). intros E. destruct (C mx tol e Hm Ht E) as (k & Q). rewrite lift_tan2 in Q. exists k. exact Q.
Qed.
Lemma cnormest_norm (A : operator Cs) b sg N u : adj A -> length b = on A -> 0 <= sg -> 0 <= N ->
  cseen (on A) (fun x => trans A (times A x)) b (sg ^ 2) ->
  (forall x, length x = on A -> cnorm (times A x) <= N * cnorm x) -> length u = on A -> cnorm (times A u) = N * cnorm u -> inner b u <> ((0, 0) : Cx) -> sg = N.
Proof.
  intros HA Hb Hs HN S HL Lu Eu Nu. pose proof (gram_self HA) as HG. pose proof HA as (D1 & D2 & Adj).
  assert (E0 : forall x : cvec, length x = on A -> (inner x (trans A (times A x)) : Cx) = (cnsq (times A x), 0)).
  { intros x Lx. rewrite <- inner_self. symmetry. apply Adj; auto. }
  assert (Sq : forall x : cvec, cnorm x * cnorm x = cnsq x) by (intros x; unfold cnorm; apply sqrt_sqrt, cnsq_nonneg).
  assert (E : sg ^ 2 = N ^ 2).
  { apply (@cseen_top (on A) (fun x => trans A (times A x)) b (sg ^ 2) (N ^ 2) u); auto.
    - split; [exact HG|]. intros x Lx. rewrite E0 by auto. apply cnsq_nonneg.
    - intros x Lx. rewrite E0 by auto. cbn [fst]. rewrite <- !Sq. pose proof (HL x Lx). assert (0 <= cnorm (times A x)) by apply sqrt_pos. replace (N ^ 2 * (cnorm x * cnorm x)) with (N * cnorm x * (N * cnorm x)) by ring. now apply Rmult_le_compat.
    - rewrite E0 by auto. cbn [fst]. rewrite <- !Sq, Eu. ring. }
  apply Rsqr_inj; auto. unfold Rsqr. cbn in E. lra.
Qed.
Lemma cnorm_attained (A : operator Cs) : adj A -> (0 < on A)%nat -> exists N u, 0 <= N /\ length u = on A /\ cnorm u = 1 /\ cnorm (times A u) = N /\
  forall x, length x = on A -> cnorm (times A x) <= N * cnorm x.
Proof.
  intros HA Hn. destruct (C89_norm_attained (lift_operator A) (lift_adj HA)) as (N & u & HN & Lu & Nu & Au & M); [cbn [lift_operator on]; lia|].
  cbn [lift_operator on times] in *. rewrite <- (flat_unflat Lu) in Nu, Au. rewrite lift_flat in Au. rewrite !flat_nrm in *. exists N, (unflat u). split; [exact HN|]. split; [now apply unflat_len|]. split; [exact Nu|]. split; [exact Au|].
  intros x Lx. assert (Lf : length (flat x) = (2 * on A)%nat) by (rewrite flat_len; now rewrite Lx). pose proof (M _ Lf) as Q. rewrite lift_flat, !flat_nrm in Q. exact Q.
Qed.
