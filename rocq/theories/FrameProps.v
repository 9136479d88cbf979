(** C79: frame bounds and Grassmannian frames. *)
From Coq Require Import List Arith Bool ZArith Reals Lra Lia.
From Verif Require Import Vec RVec Loop OptModel BsblModel DictModel ProblemModel SubspSpec SensingSpec SensingProofs FrameSpec FrameModel FrameProofs FrameProofs2.
Import ListNotations.
Local Open Scope R_scope.

(** For a dictionary with at least as many atoms as dimensions the two bounds are
    the extreme values of the energy of the inner products of unit signals with the
    atoms. *)
Theorem C79_bounds : forall m n A s up lo, (m <= n)%nat -> singular_values m n A s -> frame_bounds s = Some (up, lo) ->
  (forall x, lo ^ 2 * ip m x x <= analysis_energy m n A x <= up ^ 2 * ip m x x) /\
  (exists x, ip m x x = 1 /\ analysis_energy m n A x = up ^ 2) /\
  exists x, ip m x x = 1 /\ analysis_energy m n A x = lo ^ 2.
Proof.
  intros m n A s up lo Hmn H E. destruct (upper_bound m n A s up lo H E). destruct (lower_bound m n A s up lo Hmn H E). auto.
Qed.
Print Assumptions C79_bounds.
(** The bounds are given for every matrix that is not empty, and the functions for one
    bound agree with the pair. *)
Theorem C79_bounds_defined : forall m n A s, (0 < m)%nat -> (0 < n)%nat -> singular_values m n A s ->
  exists up lo, frame_bounds s = Some (up, lo) /\ upper_frame_bound s = Some up /\ lower_frame_bound s = Some lo.
Proof.
  intros m n A s Hm Hn [HL _]. destruct s as [|a s]; [cbn in HL; lia|]. cbn [frame_bounds upper_frame_bound lower_frame_bound]. eauto.
Qed.
Print Assumptions C79_bounds_defined.
(** The upper bound holds for every shape. *)
Theorem C79_upper : forall m n A s up lo, singular_values m n A s -> frame_bounds s = Some (up, lo) ->
  (forall x, analysis_energy m n A x <= up ^ 2 * ip m x x) /\ exists x, ip m x x = 1 /\ analysis_energy m n A x = up ^ 2.
Proof. exact upper_bound. Qed.
Print Assumptions C79_upper.
(** The lower bound is wrong when there are fewer atoms than dimensions: a single
    atom in the plane gets the lower bound 1, but a vector orthogonal to it has energy 0. *)
Theorem C79_lower_tall_refuted :
  ~ (forall m n A s up lo, singular_values m n A s -> frame_bounds s = Some (up, lo) ->
       forall x, lo ^ 2 * ip m x x <= analysis_energy m n A x).
Proof.
  intros H. destruct lower_tall_counter as [S1 [E1 E2]]. specialize (H _ _ _ _ 1 1 S1 eq_refl (fun i => if Nat.eqb i 1 then 1 else 0)). lra.
Qed.
Print Assumptions C79_lower_tall_refuted.
Example C79_bounds_ex : singular_values 1 2 (fun _ j => if Nat.eqb j 0 then 3 else 4) [5] /\ frame_bounds [5] = Some (5, 5).
Proof.
  split; [|reflexivity]. split; [reflexivity|]. split; [intros a [<-|[]]; lra|]. split; [intros i [|j] Hi Hj; cbn in Hj; [|lia]; replace i with 0%nat by lia; lra|].
  exists (fun _ _ => 1), (fun j _ => if Nat.eqb j 0 then 3 / 5 else 4 / 5). split; [|split].
  - intros [|j] [|k] Hj Hk; cbn in Hj, Hk; try lia. unfold ip, column. cbn. ring.
  - intros [|j] [|k] Hj Hk; cbn in Hj, Hk; try lia. unfold ip, column. cbn. field.
  - intros i j _ _. cbn. destruct (Nat.eqb j 0); field.
Qed.

(** Grassmannian frames.  Without iterations the returned frame has the inner
    products of the initial one. *)
Theorem C79_grass_start : forall svd m n frac mu init F, svd_ok svd n (fun i j => ip m (column init i) (column init j)) ->
  build_grassmannian_frame svd m n frac mu init 0 = Some F ->
  fst F = (Nat.min m n, n) /\
  forall i j, (i < n)%nat -> (j < n)%nat ->
    ip (fst (fst F)) (column (snd F) i) (column (snd F) j) = ip m (column init i) (column init j).
Proof. exact grass_start. Qed.
Print Assumptions C79_grass_start.
(** The frame has one column for each initial atom. *)
Theorem C79_grass_shape : forall svd m n frac mu init it F, build_grassmannian_frame svd m n frac mu init it = Some F ->
  fst F = (Nat.min m n, n).
Proof.
  intros svd m n frac mu init it F. unfold build_grassmannian_frame. destruct (grass_loop _ _ _ _ _ _ _ _); [|discriminate].
  destruct (svd _) as [[U s] VT]. now intros [= <-].
Qed.
Print Assumptions C79_grass_shape.
(** The matrix the frame is read from after one or more iterations has a unit diagonal
    and rank at most m. *)
Theorem C79_grass_gram : forall svd m n frac mu off it g g', (m <= n)%nat -> grass_loop svd m n frac mu off (S it) g = Some g' ->
  (forall j, (j < n)%nat -> g' j j = 1) /\ rank_at_most m n g'.
Proof. intros. eapply grass_loop_spec; eauto. Qed.
Print Assumptions C79_grass_gram.
(** The frame is read from the last of a sequence of matrices that starts with the Gram
    matrix of the initial atoms and follows the rounds of the published algorithm; only
    entries whose initial inner product is not 1 are shrunk. *)
Theorem C79_grass_rounds : forall svd m n frac mu init it r c F, (m <= n)%nat -> (0 < n)%nat -> 0 <= frac <= 1 -> mu <> 0 ->
  (forall G, svd_ok svd n G) -> build_grassmannian_frame svd m n frac mu init it = Some (r, c, F) ->
  exists gs : nat -> nat -> nat -> R,
    (forall i j, gs 0%nat i j = ip m (column init i) (column init j)) /\
    (forall k, (k < it)%nat -> grass_step m n frac mu (fun i j => / 10 ^ 6 < Rabs (ip m (column init i) (column init j) - 1)) (gs k) (gs (S k))) /\
    r = m /\ c = n /\ exists U s VT, svd_of n (gs it) U s VT /\ forall k j, F k j = sqrt (s k) * U j k.
Proof. exact grass_build_spec. Qed.
Print Assumptions C79_grass_rounds.
(** a routine for 1 x 1 matrices, and a run *)
Definition one_svd (G : nat -> nat -> R) : (nat -> nat -> R) * (nat -> R) * (nat -> nat -> R) :=
  (fun _ _ => if Rltb (G 0%nat 0%nat) 0 then - (1) else 1, fun _ => Rabs (G 0%nat 0%nat), fun _ _ => 1).
Example C79_grass_rounds_ex : (forall G, svd_ok one_svd 1 G) /\
  exists F, build_grassmannian_frame one_svd 1 1 (1 / 2) 2 (fun _ _ => 3) 2 = Some F.
Proof.
  assert (HV : forall G, svd_ok one_svd 1 G).
  { intros G. unfold svd_ok, one_svd. split; [|split; [|split; [|split]]].
    - intros i j Hi Hj. replace i with 0%nat by lia. replace j with 0%nat by lia. unfold ip, column. cbn. destruct (Rltb _ _); ring.
    - intros i j Hi Hj. replace i with 0%nat by lia. replace j with 0%nat by lia. unfold ip, column. cbn. ring.
    - intros. apply Rabs_pos.
    - intros. lra.
    - intros i j Hi Hj. replace i with 0%nat by lia. replace j with 0%nat by lia. cbn.
      destruct (Rltb_spec (G 0%nat 0%nat) 0); [rewrite Rabs_left by lra|rewrite Rabs_right by lra]; ring. }
  split; [exact HV|].
  assert (HB : forall off g, 0 < g 0%nat 0%nat -> exists g', grass_body one_svd 1 1 (1 / 2) 2 off g = Some g' /\ 0 < g' 0%nat 0%nat).
  { intros off g Hg. unfold grass_body, one_svd. set (E := grass_entries 1 (1 / 2) 2 off g 0%nat 0%nat).
    assert (HE : 0 < E) by (unfold E, grass_entries; cbv zeta; destruct (_ && _), (Rltb _ _); lra).
    cbn [seq forallb rsum Nat.ltb Nat.leb]. destruct (Rltb_spec E 0); [lra|]. rewrite (Rabs_right E) by lra.
    destruct (Rltb_spec 0 (0 + 1 * E * 1)); [|lra]. cbn [andb]. eexists. split; [reflexivity|]. cbn beta.
    assert (0 < / sqrt (0 + 1 * E * 1)) by (apply Rinv_0_lt_compat, sqrt_lt_R0; lra).
    apply Rmult_lt_0_compat; [apply Rmult_lt_0_compat|]; lra. }
  unfold build_grassmannian_frame. set (g := fmul _ _ _).
  assert (Hg : 0 < g 0%nat 0%nat) by (unfold g, fmul, ftr; cbn; lra).
  cbn [grass_loop]. destruct (HB (off_ind g) g Hg) as [g1 [E1 H1]]. rewrite E1.
  destruct (HB (off_ind g) g1 H1) as [g2 [E2 H2]]. rewrite E2. eexists. reflexivity.
Qed.
(** The atoms of the returned frame need not have norm one, because the diagonal is
    repaired by scaling the columns only: from the atoms 1 and 2 on a line, with
    shrink_mu = 1, every number of iterations gives atoms of squared norms 1/2 and 2. *)
Theorem C79_grass_unit_refuted : forall svd frac it,
  (forall G, is_matrix2 G 1 2 2 4 \/ is_matrix2 G 1 (1 / 2) 2 1 -> svd_ok svd 2 G) ->
  exists F, build_grassmannian_frame svd 1 2 frac 1 (fun _ j => if Nat.eqb j 0 then 1 else 2) (S it) = Some (1%nat, 2%nat, F) /\
    ip 1 (column F 0) (column F 0) = 1 / 2 /\ ip 1 (column F 1) (column F 1) = 2.
Proof. exact grass_line. Qed.
Print Assumptions C79_grass_unit_refuted.
(** An initial frame with a zero atom gives no frame (NaN) after one or more iterations. *)
Theorem C79_grass_zero_refuted : forall svd m n frac mu init it j, mu <> 0 ->
  (forall G : nat -> nat -> R, (forall l, (l < n)%nat -> G j l = 0 /\ G l j = 0) -> svd_ok svd n G) -> (j < n)%nat ->
  (forall i, (i < m)%nat -> init i j = 0) -> build_grassmannian_frame svd m n frac mu init (S it) = None.
Proof. exact grass_zero_column. Qed.
Print Assumptions C79_grass_zero_refuted.

(** a routine that decomposes the matrices of the two-atom example *)
Definition line_svd (G : nat -> nat -> R) : (nat -> nat -> R) * (nat -> R) * (nat -> nat -> R) :=
  let r := / sqrt 5 in
  let U := fun i k => match i, k with O, O => r | O, _ => 2 * r | _, O => 2 * r | _, _ => - r end in
  if Req_EM_T (G 0%nat 1%nat) 2 then (U, fun k => if Nat.eqb k 0 then 5 else 0, U)
  else (U, fun k => if Nat.eqb k 0 then 5 / 2 else 0, fun k j => match k, j with O, O => 2 * r | O, _ => r | _, O => r | _, _ => - (2 * r) end).
Example C79_grass_ex : forall G, is_matrix2 G 1 2 2 4 \/ is_matrix2 G 1 (1 / 2) 2 1 -> svd_ok line_svd 2 G.
Proof.
  assert (Q : / sqrt 5 * / sqrt 5 = / 5) by (rewrite <- Rinv_mult, sqrt_sqrt by lra; reflexivity).
  intros G H. unfold svd_ok, line_svd. set (r := / sqrt 5) in *.
  assert (T : forall P : nat -> Prop, P 0%nat -> P 1%nat -> forall k, (k < 2)%nat -> P k) by (intros P P0 P1 [|[|k]] Hk; [auto|auto|lia]).
  destruct H as [[a [b [c d]]]|[a [b [c d]]]]; destruct (Req_EM_T (G 0%nat 1%nat) 2); try lra; (split; [|split; [|split; [|split]]]).
  all: try (intros i j Hi Hj; revert j Hj; revert i Hi; refine (T _ _ _); refine (T _ _ _); unfold ip, column; cbn; rewrite ?a, ?b, ?c, ?d; ring_simplify; rewrite ?Rmult_1_r; try lra; nra).
  all: try (refine (T _ _ _); cbn; lra).
  all: intros i [|[|j]] Hi Hj; try lia; destruct i as [|[|i]]; cbn; try lia; lra.
Qed.
(** and one for matrices whose second row and column vanish *)
Example C79_grass_zero_ex : forall G : nat -> nat -> R, (forall l, (l < 2)%nat -> G 1%nat l = 0 /\ G l 1%nat = 0) ->
  svd_ok (fun G => (fun i k => if Nat.eqb i k then (if Nat.eqb i 0 then (if Rltb (G 0 0)%nat 0 then -1 else 1) else 1) else 0,
                    fun k => if Nat.eqb k 0 then Rabs (G 0 0)%nat else 0, fun k j => if Nat.eqb k j then 1 else 0)) 2 G.
Proof.
  intros G H. destruct (H 0%nat ltac:(lia)) as [E1 E2]. destruct (H 1%nat ltac:(lia)) as [E3 _].
  assert (T : forall P : nat -> Prop, P 0%nat -> P 1%nat -> forall k, (k < 2)%nat -> P k) by (intros P P0 P1 [|[|k]] Hk; [auto|auto|lia]).
  pose proof (Rabs_pos (G 0 0)%nat).
  split; [|split; [|split; [|split]]].
  - intros i j Hi Hj; revert j Hj; revert i Hi; refine (T _ _ _); refine (T _ _ _); unfold ip, column; cbn; destruct (Rltb (G 0 0)%nat 0); ring.
  - intros i j Hi Hj; revert j Hj; revert i Hi; refine (T _ _ _); refine (T _ _ _); unfold ip, column; cbn; ring.
  - refine (T _ _ _); cbn; lra.
  - intros i [|[|j]] Hi Hj; try lia; destruct i as [|[|i]]; cbn; try lia; lra.
  - intros i j Hi Hj; revert j Hj; revert i Hi; refine (T _ _ _); refine (T _ _ _); cbn; rewrite ?E1, ?E2, ?E3; try (destruct (Rltb (G 0 0)%nat 0); ring).
    destruct (Rltb_spec (G 0 0)%nat 0); [rewrite Rabs_left by lra|rewrite Rabs_right by lra]; ring.
Qed.
