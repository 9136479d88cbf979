(** C95: the conjugate gradient solvers on complex data (model: CxCgModel.v, vocabulary: CxSpec.v). *)
From Coq Require Import List Arith Bool Lia Reals Lra Psatz.
From Verif Require Import Scalar Vec RVec Loop LoopLemmas SolverSpec LopSpec LopProofs2 OptProofs CxSpec CxProofs CxCgModel CxCgProofs CxCgProofs2.
Import ListNotations.
Local Open Scope R_scope.

Lemma rsub_nrm2_zero (u v : list R) : length u = length v -> nrm2 (rsub u v) = 0 -> v = u.
Proof.
  revert v. induction u as [|a u IH]; intros [|b v]; try discriminate; auto. intros L H. injection L as L.
  change ((a - b) * (a - b) + nrm2 (rsub u v) = 0) in H. pose proof (nrm2_pos (rsub u v)). pose proof (Rle_0_sqr (a - b)) as P. unfold Rsqr in P.
  f_equal; [nra|]. apply IH; auto. lra.
Qed.
Lemma while_stop (S : Type) (cond : S -> bool) body fuel s : cond s = false -> while_ cond body fuel s = Done s.
Proof. intros H. destruct fuel; simpl; now rewrite H. Qed.
(** the carried residual of preconditioned conjugate gradients is that of the iterate, at every iteration *)
Theorem C95_pcg_residual n A M b x0 max_iters tol atol k s :
  maps_dim n n A -> is_linear n A -> maps_dim n n (cpcg_M M) -> length b = n -> length x0 = n ->
  reaches (cpcg_cond (cpcg_is_id M) (cpcg_max_gamma b tol atol) max_iters) (cpcg_body A (cpcg_M M)) (cpcg_init A (cpcg_M M) b x0) k s ->
  cp_r s = vsub b (A (cp_x s)) /\ cp_it s = S k.
Proof. intros DA LA DM Lb Lx H. destruct (cp_reach DA LA DM Lb Lx H) as [O I]. split; [apply O|exact I]. Qed.
Print Assumptions C95_pcg_residual.
(** what a returned result means.  The second alternative is the defect below: without a
    preconditioner the solver may return its start *)
Theorem C95_pcg_exit n A M b x0 max_iters tol atol fuel s :
  maps_dim n n A -> is_linear n A -> maps_dim n n (cpcg_M M) -> length b = n -> length x0 = n ->
  cpcg_solve_from A b x0 max_iters tol atol M fuel = Done s ->
  cp_r s = vsub b (A (cp_x s)) /\ (cp_it s <= Nat.max 1 max_iters)%nat /\
  ((max_iters <= cp_it s)%nat \/ cpcg_is_id M = true /\ cp_it s = 1%nat \/
   cnsq (vsub b (A (cp_x s))) <= Rmax (tol * tol * cnsq b) (atol * atol)).
Proof. intros. eapply cp_exit; eauto. Qed.
Print Assumptions C95_pcg_exit.
(** Hermitian positive definite systems whose initial residual is real are solved in n iterations *)
Theorem C95_pcg_terminates n A M b x0 max_iters tol atol fuel :
  hermitian_positive n A -> hermitian_positive n (cpcg_M M) -> length b = n -> length x0 = n -> is_real_vec (vsub b (A x0)) ->
  (n <= fuel)%nat ->
  exists s, cpcg_solve_from A b x0 max_iters tol atol M fuel = Done s /\ (cp_it s <= S n)%nat /\
    ((n < max_iters)%nat -> cnsq (vsub b (A (cp_x s))) <= Rmax (tol * tol * cnsq b) (atol * atol)).
Proof. intros [HA PA] [HM PM] Lb Lx R0. exact (@cpcg_terminates _ _ _ _ _ max_iters tol atol HA HM PA PM Lb Lx R0 fuel). Qed.
Print Assumptions C95_pcg_terminates.
(** with zero tolerances the solution is exact *)
Theorem C95_pcg_exact n A M b x0 max_iters fuel :
  hermitian_positive n A -> hermitian_positive n (cpcg_M M) -> length b = n -> length x0 = n -> is_real_vec (vsub b (A x0)) ->
  (n <= fuel)%nat -> (n < max_iters)%nat ->
  exists s, cpcg_solve_from A b x0 max_iters 0 0 M fuel = Done s /\ A (cp_x s) = b.
Proof.
  intros HA HM Lb Lx R0 Hf Hm. destruct (C95_pcg_terminates n A M b x0 max_iters 0 0 fuel HA HM Lb Lx R0 Hf) as (s & E & _ & T). exists s. split; auto.
  specialize (T Hm). replace (0 * 0 * cnsq b) with 0 in T by ring. rewrite Rmult_0_l, Rmax_left in T by lra.
  destruct HA as [HA PA], HM as [HM PM]. pose proof E as E'. apply while_done in E' as (k & _ & H & _).
  destruct (cp_reach (proj1 HA) (adjoint_linear HA) (proj1 HM) Lb Lx H) as [(Lxs & _) _].
  pose proof (proj1 HA _ Lxs) as L1. rewrite <- flat_nrm2, flat_sub in T. apply flat_inj.
  assert (Z : nrm2 (rsub (flat b) (flat (A (cp_x s)))) = 0) by (apply Rle_antisym; [exact T|apply nrm2_pos]).
  assert (L2 : length (flat b) = length (flat (A (cp_x s)))) by (rewrite !flat_len; f_equal; exact (eq_trans Lb (eq_sym L1))).
  now apply rsub_nrm2_zero.
Qed.
Print Assumptions C95_pcg_exact.
(** gamma starts without a conjugation.  For the identity and b = (i) it starts at -1, and for all
    tolerances and iteration limits the solver returns its start, with the whole residual left *)
Theorem C95_pcg_start_refuted max_iters tol atol fuel :
  exists s, cpcg_solve (fun x => x) [(0, 1) : Cs] max_iters tol atol None fuel = Done s /\ cp_x s = [(0, 0) : Cs] /\
    cnsq (vsub [(0, 1) : Cs] (cp_x s)) = cnsq [(0, 1) : Cs].
Proof.
  exists (cpcg_init (fun x => x) (fun x => x) [(0, 1) : Cs] (vzero 1)). unfold cpcg_solve, cpcg_solve_from. split.
  - change (length [(0, 1) : Cs]) with 1%nat. apply while_stop. unfold cpcg_cond. cbn [cpcg_is_id].
    match goal with |- Rltb ?a ?b && _ = _ => destruct (Rltb_spec a b) as [Q|Q] end; [exfalso|reflexivity].
    assert (P : 0 <= cpcg_max_gamma [(0, 1) : Cs] tol atol) by (unfold cpcg_max_gamma; eapply Rle_trans; [|apply Rmax_r]; apply Rle_0_sqr).
    assert (G : cp_gamma (cpcg_init (fun x : cvec => x) (fun x : cvec => x) [(0, 1) : Cs] (vzero 1)) = -1) by (simpl; ring).
    cbn [cpcg_M] in Q. rewrite G in Q. lra.
  - split; [reflexivity|]. cbn. unfold Cnsq. cbn. ring.
Qed.
Print Assumptions C95_pcg_start_refuted.
(** finite termination is lost as well: one unknown, the identity, b = (2 + i) and two iterations
    allowed return (3/5) b; the residual is (2/5) b *)
Theorem C95_pcg_steps_refuted fuel : (1 <= fuel)%nat ->
  exists s, cpcg_solve (fun x => x) [(2, 1) : Cs] 2 0 0 None fuel = Done s /\ cp_x s = [(6 / 5, 3 / 5) : Cs] /\
    cnsq (vsub [(2, 1) : Cs] (cp_x s)) = 4 / 5.
Proof.
  intros Hf. destruct fuel as [|fuel]; [lia|]. unfold cpcg_solve, cpcg_solve_from. change (length [(2, 1) : Cs]) with 1%nat. cbn [cpcg_M cpcg_is_id].
  set (s1 := CPcgState [(6 / 5, 3 / 5) : Cs] [(4 / 5, 2 / 5) : Cs] [(4 / 3, 2 / 3) : Cs] (4 / 5) 2). exists s1.
  assert (C0 : cpcg_cond true (cpcg_max_gamma [(2, 1) : Cs] 0 0) 2 (cpcg_init (fun x : cvec => x) (fun x : cvec => x) [(2, 1) : Cs] (vzero 1)) = true).
  { unfold cpcg_cond, cpcg_max_gamma. cbn. rewrite Rmax_left by lra. rewrite andb_true_r. destruct (Rltb_spec (0 * 0 * (2 * 2 - - (1) * 1 + 0)) ((2 - 0) * (2 - 0) - (1 - 0) * (1 - 0) + 0)); [reflexivity|lra]. }
  assert (B0 : cpcg_body (fun x : cvec => x) (fun x : cvec => x) (cpcg_init (fun x : cvec => x) (fun x : cvec => x) [(2, 1) : Cs] (vzero 1)) = Some s1).
  { unfold cpcg_body. cbn [cpcg_init cp_p cp_gamma cp_x cp_r cp_it].
    replace (vsub [(2, 1) : Cs] (vzero 1)) with [(2, 1) : Cs] by (cbn; unfold Csub, Cadd, Copp; cbn; f_equal; f_equal; ring).
    replace (fst (dotu [(2, 1) : Cs] [(2, 1) : Cs] : Cx)) with 3 by (cbn; ring). replace (inner [(2, 1) : Cs] [(2, 1) : Cs]) with ((5, 0) : Cs) by (cbn; unfold Cadd, Cmul, Cconj; cbn; apply (f_equal2 pair); ring).
    assert (E : cdivo (ofR 3) (5, 0) = Some ((3 / 5, 0) : Cs)).
    { unfold cdivo. cbn [fst snd]. unfold Reqb. destruct (Req_EM_T 5 0); [lra|]. cbn [andb]. f_equal. cbn. unfold Cdiv, Cmul, Cinv, Cnsq. cbn. f_equal; field. }
    rewrite E.
    replace (vadd (vzero 1) (vscale ((3 / 5, 0) : Cs) [(2, 1) : Cs])) with [(6 / 5, 3 / 5) : Cs] by (cbn; unfold Cadd, Cmul; cbn; f_equal; f_equal; field).
    replace (vsub [(2, 1) : Cs] (vscale ((3 / 5, 0) : Cs) [(2, 1) : Cs])) with [(4 / 5, 2 / 5) : Cs] by (cbn; unfold Csub, Cmul; cbn; f_equal; f_equal; field).
    replace (fst (inner [(4 / 5, 2 / 5) : Cs] [(4 / 5, 2 / 5) : Cs] : Cx)) with (4 / 5) by (cbn; field).
    unfold rdivo, Reqb. destruct (Req_EM_T 3 0); [lra|]. unfold s1. f_equal. f_equal. cbn. unfold Cadd, Cmul. cbn. f_equal. f_equal; field. }
  split; [|split].
  - cbn [while_]. rewrite C0, B0. apply while_stop. unfold cpcg_cond, s1. cbn [cp_it]. apply andb_false_r.
  - reflexivity.
  - cbn. unfold Cnsq. cbn. field.
Qed.
Print Assumptions C95_pcg_steps_refuted.
(** the unpreconditioned solver never conjugates: for the identity and b = (i) it returns its start *)
Theorem C95_cg_refuted max_iters rtol fuel : -1 <= rtol <= 1 ->
  exists s, ccg_solve_from (fun x => x) 1 [(0, 1) : Cs] [(0, 0) : Cs] max_iters rtol fuel = Done s /\ cc_x s = [(0, 0) : Cs] /\
    cnsq (vsub [(0, 1) : Cs] (cc_x s)) = cnsq [(0, 1) : Cs].
Proof.
  intros Hr. eexists. split; [|split]. 
  - unfold ccg_solve_from. apply while_stop. unfold ccg_cond, cltb. cbn.
    match goal with |- (Rltb ?a ?b || _) && _ = _ => destruct (Rltb_spec a b) as [Q|Q] end; [exfalso; nra|].
    match goal with |- (_ || _ && Rltb ?a ?b) && _ = _ => destruct (Rltb_spec a b) as [Q2|Q2] end; [exfalso; lra|]. now rewrite andb_false_r.
  - reflexivity.
  - cbn. unfold Cnsq. cbn. ring.
Qed.
Print Assumptions C95_cg_refuted.

(** a Hermitian matrix with imaginary entries, a preconditioner and real data meet the hypotheses *)
Definition c95_A (v : cvec) : cvec :=
  let a := nth 0 v (0, 0) in let c := nth 1 v (0, 0) in
  [sadd (smul ((2, 0) : Cs) a) (smul ((0, 1) : Cs) c); sadd (smul ((0, -1) : Cs) a) (smul ((2, 0) : Cs) c)].
Example C95_nonvacuous :
  hermitian_positive 2 c95_A /\ hermitian_positive 2 (cpcg_M (Some (vscale ((/ 2, 0) : Cs)))) /\ hermitian_positive 2 (cpcg_M None) /\
  is_real_vec (vsub [(1, 0) : Cs; (0, 0)] (c95_A [(0, 0) : Cs; (0, 0)])) /\ maps_dim 2 2 c95_A /\ is_linear 2 c95_A /\
  exists s, cpcg_solve c95_A [(1, 0) : Cs; (0, 0)] 3 0 0 None 2 = Done s /\ c95_A (cp_x s) = [(1, 0) : Cs; (0, 0)].
Proof.
  assert (D2 : forall v : cvec, length v = 2%nat -> exists a b c d, v = [(a, b) : Cs; (c, d)]).
  { intros [|[a b] [|[c d] [|]]]; try discriminate. intros _. now exists a, b, c, d. }
  assert (NZ : forall a b c d, [(a, b) : Cs; (c, d)] <> vzero 2 -> 0 < a * a + b * b + c * c + d * d).
  { intros a b c d H. destruct (Rle_lt_dec (a * a + b * b + c * c + d * d) 0) as [Q|Q]; auto. exfalso. apply H.
    assert (a = 0 /\ b = 0 /\ c = 0 /\ d = 0) as (-> & -> & -> & ->) by (repeat split; nra). reflexivity. }
  assert (HA : hermitian_positive 2 c95_A).
  { split; [split; [|split]|]; try (intros v _; reflexivity).
    - intros u v Lu Lv. destruct (D2 u Lu) as (a & b & c & d & ->), (D2 v Lv) as (a' & b' & c' & d' & ->). cbn; unfold Cadd, Cmul, Cconj; cbn; f_equal; ring.
    - intros v Lv Hv. destruct (D2 v Lv) as (a & b & c & d & ->). apply NZ in Hv. cbn. pose proof (Rle_0_sqr (a - d)). pose proof (Rle_0_sqr (b + c)). unfold Rsqr in *. nra. }
  assert (HM0 : hermitian_positive 2 (cpcg_M None)).
  { split; [split; [|split]|]; try (intros v Lv; exact Lv).
    - reflexivity.
    - intros v Lv Hv. destruct (D2 v Lv) as (a & b & c & d & ->). apply NZ in Hv. cbn. nra. }
  assert (R0 : is_real_vec (vsub [(1, 0) : Cs; (0, 0)] (c95_A [(0, 0) : Cs; (0, 0)]))).
  { intros z [<-|[<-|[]]]; cbn; unfold Cconj, Csub, Cadd, Cmul; cbn; apply (f_equal2 pair); ring. }
  split; auto. split; [|split; [auto|split; [auto|split; [exact (proj1 (proj1 HA))|split; [exact (adjoint_linear (proj1 HA))|]]]]].
  - split; [split; [|split]|]; try (intros v Lv; cbn [cpcg_M]; now rewrite vscale_length).
    + intros u v Lu Lv. destruct (D2 u Lu) as (a & b & c & d & ->), (D2 v Lv) as (a' & b' & c' & d' & ->). cbn; unfold Cadd, Cmul, Cconj; cbn; f_equal; ring.
    + intros v Lv Hv. destruct (D2 v Lv) as (a & b & c & d & ->). apply NZ in Hv. cbn. nra.
  - exact (C95_pcg_exact 2 c95_A None [(1, 0) : Cs; (0, 0)] [(0, 0) : Cs; (0, 0)] 3 2 HA HM0 eq_refl eq_refl R0 (le_n 2) (le_n 3)).
Qed.
Print Assumptions C95_nonvacuous.
