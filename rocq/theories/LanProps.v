(** C70: Lanczos bidiagonalisation.

    [pol] holds all decisions about reorthogonalisation, [draw_p] and
    [draw_r] the random vectors used after a breakdown: the theorems hold for
    all of them. *)
From Coq Require Import List Arith Bool Reals Lia Lra.
From Verif Require Import Vec RVec Loop BsblModel SubspSpec SubspProofs LanModel LanSpec LanProofs LanProofs2.
Import ListNotations.
Local Open Scope R_scope.

(** After t iterations there are t + 1 left and t + 1 right vectors, both
    orthonormal, and they bidiagonalise the operator. *)
Theorem C70_bidiagonal : forall m n k times trans pol draw_p draw_r t p0 st,
  adjoint_pair m n times trans -> (t < k)%nat -> normf n (trans p0) <> 0 ->
  exact_breakdowns m n k times trans pol draw_p draw_r t p0 ->
  lanbpro m n k times trans pol draw_p draw_r t p0 = Some st ->
  ls_iterations st = (t + 1)%nat /\
  orthonormal m (t + 1) (ls_U st) /\ orthonormal n (t + 1) (ls_V st) /\
  bidiagonalises m n times trans (ls_U st) (ls_V st) (ls_alpha st) (ls_beta st) (t + 1).
Proof.
  intros m n k times trans pol draw_p draw_r t p0 st Ha Ht Hp Hs H.
  pose proof (run_iter _ _ _ _ _ _ _ _ _ _ _ H) as Ei.
  destruct (run_inv m n k times trans pol draw_p draw_r Ha t p0 st Ht Hp Hs H) as (Hj & HU & HV & HZ & Hn & HB & RL).
  rewrite Ei in *. auto.
Qed.
Print Assumptions C70_bidiagonal.

(** Ritz triplets: a singular triplet (s, w, q) of the bidiagonal matrix gives
    unit vectors x = V q and y = U w with A^T y = s x exactly, and the norm
    of A x - s y is beta_j |q_{j-1}|; in particular they are exact when the
    last beta is zero. *)
Theorem C70_ritz : forall m n k times trans pol draw_p draw_r t p0 st s q w,
  adjoint_pair m n times trans -> (t < k)%nat -> normf n (trans p0) <> 0 ->
  exact_breakdowns m n k times trans pol draw_p draw_r t p0 ->
  lanbpro m n k times trans pol draw_p draw_r t p0 = Some st ->
  let j := (t + 1)%nat in
  ip j q q = 1 -> ip j w w = 1 ->
  (forall i, (i < j)%nat -> bidiag_mv (ls_alpha st) (ls_beta st) q i = s * w i) ->
  (forall i, (i < j)%nat -> bidiag_tmv j (ls_alpha st) (ls_beta st) w i = s * q i) ->
  let x := combine_cols j (ls_V st) q in let y := combine_cols j (ls_U st) w in
  ip n x x = 1 /\ ip m y y = 1 /\
  (forall l, (l < n)%nat -> trans y l = s * x l) /\
  let e := fun l => times x l - s * y l in
  (ls_nan st = false \/ ls_beta st j = 0 -> normf m e = Rabs (ls_beta st j * q (j - 1)%nat)).
Proof.
  intros m n k times trans pol draw_p draw_r t p0 st s q w Ha Ht Hp Hs H.
  pose proof (run_iter _ _ _ _ _ _ _ _ _ _ _ H) as Ei. rewrite <- Ei.
  apply ritz_triplet; auto. eapply run_inv; eauto.
Qed.
Print Assumptions C70_ritz.

(** The residual norm used by lansvd_simple for its error bounds is the last
    beta, unless the last beta is zero: then the triplets are exact but the
    residual norm is reported as 1 (or NaN). *)
Theorem C70_residual_refuted : forall m n k times trans pol draw_p draw_r t p0 st,
  adjoint_pair m n times trans -> (t < k)%nat -> normf n (trans p0) <> 0 ->
  exact_breakdowns m n k times trans pol draw_p draw_r t p0 ->
  lanbpro m n k times trans pol draw_p draw_r t p0 = Some st ->
  (ls_beta st (t + 1)%nat <> 0 -> lansvd_res_norm m st = Some (ls_beta st (t + 1)%nat)) /\
  (ls_beta st (t + 1)%nat = 0 ->
     lansvd_res_norm m st = None \/ lansvd_res_norm m st = Some 1).
Proof.
  intros m n k times trans pol draw_p draw_r t p0 st Ha Ht Hp Hs H.
  pose proof (run_iter _ _ _ _ _ _ _ _ _ _ _ H) as Ei. rewrite <- Ei. split.
  - eapply res_norm_regular; eauto.
  - eapply res_norm_breakdown. eapply run_inv; eauto.
Qed.
Print Assumptions C70_residual_refuted.

(** When the rows of the operator span fewer than t + 1 dimensions, t
    iterations produce NaN: the number of vectors cannot exceed the rank,
    whatever the start, the decisions and the draws. *)
Theorem C70_rank_refuted : forall m n k times trans pol draw_p draw_r t p0 d W,
  adjoint_pair m n times trans -> (t < k)%nat -> normf n (trans p0) <> 0 ->
  exact_breakdowns m n k times trans pol draw_p draw_r t p0 ->
  (forall y, in_span_of n d W (trans y)) -> (d < t + 1)%nat ->
  lanbpro m n k times trans pol draw_p draw_r t p0 = None.
Proof.
  intros m n k times trans pol draw_p draw_r t p0 d W Ha Ht Hp Hs HW Hd.
  destruct (lanbpro m n k times trans pol draw_p draw_r t p0) as [st|] eqn:H; auto. exfalso.
  destruct (C70_bidiagonal _ _ _ _ _ _ _ _ _ _ _ Ha Ht Hp Hs H) as (_ & _ & HV & _).
  pose proof (on_span_le n d (t + 1) (ls_V st) W HV) as Hle.
  enough (t + 1 <= d)%nat by lia. apply Hle. intros c Hc.
  destruct (run_range m n k times trans pol draw_p draw_r Ha t p0 st H c) as [y Hy].
  apply span_ext with (trans y); auto. intros. symmetry. auto.
Qed.
Print Assumptions C70_rank_refuted.

(** The start is not checked: if A^T p0 = 0, the first right vector is zero,
    not a unit vector. *)
Theorem C70_start_refuted : forall m n k times trans pol draw_p p0,
  adjoint_pair m n times trans -> normf n (trans p0) = 0 ->
  ~ orthonormal n 1 (ls_V (lanbpro_init m n k times trans pol draw_p p0)).
Proof.
  intros m n k times trans pol draw_p p0 Ha Ht H.
  specialize (H 0%nat 0%nat ltac:(lia) ltac:(lia)). cbn in H.
  rewrite start_zero in H by auto. lra.
Qed.
Print Assumptions C70_start_refuted.

(** The hypotheses hold for a run on the identity of R^2 with a breakdown
    after the first vector and one at the end. *)
Example C70_nonvacuous :
  adjoint_pair 2 2 idop idop /\ normf 2 (idop e_0) <> 0 /\
  exact_breakdowns 2 2 2 idop idop pol0 (fun _ => e_1) (fun _ => e_1) 1 e_0 /\
  exists st, lanbpro 2 2 2 idop idop pol0 (fun _ => e_1) (fun _ => e_1) 1 e_0 = Some st /\ ls_beta st 2%nat = 0.
Proof.
  split; [intros x y; reflexivity|]. split; [unfold idop; rewrite norm_e0; lra|].
  split; [exact ex_exact|exact ex_run].
Qed.
