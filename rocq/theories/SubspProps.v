(** C69: random subspaces.

    [qr] and [svd_u] stand for the factorisations of NumPy, of which only
    orthonormality and the spanned space are used ([SubspSpec]). *)
From Coq Require Import List Arith Bool Reals Lia Lra ClassicalEpsilon.
From Verif Require Import Vec RVec Loop BsblModel SubspModel SubspSpec SubspProofs.
Import ListNotations.
Local Open Scope R_scope.

Definition svd_like (N : nat) (svd_u : nat -> fmat -> fmat) : Prop :=
  forall k X, (k <= N)%nat -> svd_factor N k X (svd_u k X).

(** Every random basis is orthonormal and spans the drawn columns; there is
    one per draw; the only failure is D > N. *)
Theorem C69_bases : forall N D qr draws,
  (forall A, qr_factor N D A (qr A)) ->
  (random_subspaces N D qr draws = None <-> (N < D)%nat) /\
  forall Bs, random_subspaces N D qr draws = Some Bs ->
    length Bs = length draws /\
    forall i, (i < length draws)%nat ->
      orthonormal N D (nth i Bs (fun _ _ => 0)) /\
      forall j, (j < D)%nat ->
        in_span_of N D (nth i Bs (fun _ _ => 0))
          (column (fst (nth i draws (fun _ _ => 0, fun _ => true))) j).
Proof. intros. split; [apply bases_none|]. intros. eapply bases_spec; eauto. Qed.
Print Assumptions C69_bases.

(** Point j of subspace i is column i n + j: a unit vector, the image of the
    drawn coefficients up to a positive factor under the basis of subspace
    i; the result has NaN entries exactly when a drawn coefficient vector
    is zero. *)
Theorem C69_points : forall N n bases coeffs,
  (forall i, (i < length bases)%nat ->
     orthonormal N (fst (nth i bases (0%nat, fun _ _ => 0))) (snd (nth i bases (0%nat, fun _ _ => 0)))) ->
  (uniform_points_on_subspaces n bases coeffs = None <->
   exists i j, (i < length bases)%nat /\ (j < n)%nat /\
     let d := fst (nth i bases (0%nat, fun _ _ => 0)) in
     forall k, (k < d)%nat -> column (nth i coeffs (fun _ _ => 0)) j k = 0) /\
  forall P, uniform_points_on_subspaces n bases coeffs = Some P ->
  forall i j, (i < length bases)%nat -> (j < n)%nat ->
    let '(d, A) := nth i bases (0%nat, fun _ _ => 0) in
    let c := column (nth i coeffs (fun _ _ => 0)) j in
    ip N (column P (i * n + j)) (column P (i * n + j)) = 1 /\
    exists s, 0 < s /\ forall r, column P (i * n + j) r = combine_cols d A (fun k => s * c k) r.
Proof. intros. split; [apply points_none|]. intros P HP. eapply points_spec; eauto. Qed.
Print Assumptions C69_points.

(** Two subspaces: for 2 D <= N and an angle between 0 and 90 degrees both
    bases have D orthonormal columns, and the smallest principal angle of
    their spans is the requested angle. *)
Theorem C69_two : forall N D svd_u X theta dA A dB B,
  svd_like N svd_u -> (1 <= D)%nat -> (2 * D <= N)%nat -> 0 <= theta <= 90 ->
  two_subspaces_at_angle N D svd_u X theta = ((dA, A), (dB, B)) ->
  dA = D /\ dB = D /\ orthonormal N D A /\ orthonormal N D B /\
  smallest_angle_cos N D A D B (cos (theta * (PI / 180))).
Proof.
  intros N D svd_u X theta dA A dB B HS HD HN Ht H.
  destruct (two_gram N D svd_u X theta HS HD _ _ _ _ HN H) as (E1 & E2 & H1 & H2 & HG).
  repeat split; auto; apply angle_of_gram; auto; try lia; now apply cos_acute.
Qed.
Print Assumptions C69_two.

(** All other principal angles are right angles. *)
Theorem C69_two_gram : forall N D svd_u X theta dA A dB B,
  svd_like N svd_u -> (1 <= D)%nat -> (2 * D <= N)%nat ->
  two_subspaces_at_angle N D svd_u X theta = ((dA, A), (dB, B)) ->
  forall j k, (j < D)%nat -> (k < D)%nat ->
    ip N (column A j) (column B k) =
    if (Nat.eqb j 0 && Nat.eqb k 0)%bool then cos (theta * (PI / 180)) else 0.
Proof.
  intros N D svd_u X theta dA A dB B HS HD HN H.
  exact (proj2 (proj2 (proj2 (proj2 (two_gram N D svd_u X theta HS HD _ _ _ _ HN H))))).
Qed.
Print Assumptions C69_two_gram.

(** With too few dimensions, N < 2 D, no error is raised: the second basis
    silently has fewer than D columns. *)
Theorem C69_two_small_refuted : forall N D svd_u X theta dA A dB B,
  (2 <= N)%nat -> (2 <= D)%nat -> (N < 2 * D)%nat ->
  two_subspaces_at_angle N D svd_u X theta = ((dA, A), (dB, B)) -> (dB < D)%nat.
Proof.
  intros N D svd_u X theta dA A dB B H2 HD HN H. unfold two_subspaces_at_angle, stack in H.
  injection H as _ _ HdB _. lia.
Qed.
Print Assumptions C69_two_small_refuted.

(** Three subspaces: pairwise the smallest principal angle is the requested
    one, whenever a result without NaN is returned. *)
Theorem C69_three : forall N D svd_u X theta dA A dB B dC C,
  svd_like N svd_u -> (1 <= D)%nat -> (3 * D <= N)%nat -> 0 <= theta <= 90 ->
  three_subspaces_at_angle N D svd_u X theta = Some ((dA, A), (dB, B), (dC, C)) ->
  (dA = D /\ dB = D /\ dC = D) /\
  (orthonormal N D A /\ orthonormal N D B /\ orthonormal N D C) /\
  smallest_angle_cos N D A D B (cos (theta * (PI / 180))) /\
  smallest_angle_cos N D A D C (cos (theta * (PI / 180))) /\
  smallest_angle_cos N D B D C (cos (theta * (PI / 180))).
Proof.
  intros N D svd_u X theta dA A dB B dC C HS HD HN Ht H.
  destruct (three_gram N D svd_u X theta HS HD _ _ _ _ _ _ HN H) as (E & HO & HG).
  assert (Hc := cos_acute theta Ht).
  repeat (split; [now auto || (apply angle_of_gram; auto; try lia; intros; now apply HG)|]).
  apply angle_of_gram; auto; try lia; intros; now apply HG.
Qed.
Print Assumptions C69_three.

(** A result is returned exactly for 0 < theta <= 120. *)
Theorem C69_three_defined : forall N D svd_u X theta, 0 <= theta <= 180 ->
  ((exists r, three_subspaces_at_angle N D svd_u X theta = Some r) <-> 0 < theta <= 120).
Proof. exact three_defined. Qed.
Print Assumptions C69_three_defined.

(** In particular three coinciding directions (theta = 0) cannot be asked
    for: the bases contain NaN, although two_subspaces_at_angle accepts 0. *)
Theorem C69_three_zero_refuted : forall N D svd_u X,
  three_subspaces_at_angle N D svd_u X 0 = None.
Proof.
  intros. destruct (three_subspaces_at_angle N D svd_u X 0) eqn:E; auto. exfalso.
  assert (0 < 0 <= 120); [|lra]. apply (three_defined N D svd_u X 0); [lra|eauto].
Qed.
Print Assumptions C69_three_zero_refuted.

(** The factorisations assumed above exist. *)
Definition some_svd (N k : nat) (X : fmat) : fmat :=
  epsilon (inhabits (fun _ _ : nat => 0)) (fun U => svd_factor N k X U).
Definition some_qr (N D : nat) (A : fmat) : fmat :=
  epsilon (inhabits (fun _ _ : nat => 0)) (fun Q => qr_factor N D A Q).
Example C69_factorisations : forall N,
  svd_like N (some_svd N) /\
  forall D, (D <= N)%nat -> forall A, qr_factor N D A (some_qr N D A).
Proof.
  intros N. split.
  - intros k X Hk. unfold some_svd. apply epsilon_spec. now apply svd_exists.
  - intros D HD A. unfold some_qr. apply epsilon_spec. now apply qr_exists.
Qed.
(** The hypotheses of C69_two and C69_three hold for N = 7, D = 2, 60 degrees. *)
Example C69_nonvacuous : forall X,
  (exists dA A dB B, two_subspaces_at_angle 7 2 (some_svd 7) X 60 = ((dA, A), (dB, B))) /\
  (exists dA A dB B dC C,
    three_subspaces_at_angle 7 2 (some_svd 7) X 60 = Some ((dA, A), (dB, B), (dC, C))).
Proof.
  intros X. split.
  - destruct (two_subspaces_at_angle 7 2 (some_svd 7) X 60) as [[dA A] [dB B]]. now exists dA, A, dB, B.
  - destruct (proj2 (three_defined 7 2 (some_svd 7) X 60 ltac:(lra)) ltac:(lra)) as [[[[dA A] [dB B]] [dC C]] E].
    now exists dA, A, dB, B, dC, C.
Qed.
Example C69_points_nonvacuous :
  exists P, uniform_points_on_subspaces 2 [(1%nat, fun i _ => if Nat.eqb i 0 then 1 else 0)]
              [fun _ j => if Nat.eqb j 0 then 2 else -3] = Some P.
Proof.
  match goal with |- exists P, ?e = _ => destruct e eqn:E; [eauto|] end. exfalso.
  apply points_none in E. destruct E as (i & j & Hi & Hj & H). cbn in Hi.
  assert (i = 0%nat) by lia. subst i. specialize (H 0%nat ltac:(cbn; lia)). cbn in H.
  destruct j as [|[|j]]; [| |lia]; cbn in H; lra.
Qed.
